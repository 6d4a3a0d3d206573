(** Vocabulary of C66. *)
From Coq Require Import List Reals ZArith.
From Flocq Require Import Core.
From Verif Require Import ModelExt ModelFloat ModelFloatDiag SpecFloat SpecDiag.
Import ListNotations.
Local Open Scope R_scope.

(** Floats no larger than 2 ^ r. *)
Definition chain_within (prec top r : Z) (s : list R) : Prop :=
  Forall (fun x => is_float prec top x /\ Rabs x <= bpow radix2 r) s.
(** Each reduction adds up all its terms once, in any order and grouping. *)
Definition reduces (k : reductions) (n : nat) : Prop :=
  adds_up (p_mean k) n /\ adds_up (p_var_mean k) n /\ adds_up (p_var k) n /\
  forall lag, (lag < n)%nat -> adds_up (p_lag k lag) (n - lag).
(** Relative accuracy of the autocorrelation estimates: n units of roundoff times the
    condition number of the variance. *)
Definition rho_error (prec r : Z) (s : list R) : R :=
  256 * INR (length s) * unit_roundoff prec * bpow radix2 (2 * r) / variance s.
(** numpy's order for at most 15 numbers: fewer than eight are added from left to right;
    otherwise eight accumulators are combined in pairs and the rest is added. *)
Fixpoint left_to_right (first : plan) (i n : nat) : plan :=
  match n with O => first | S n => left_to_right (Plus first (Entry i)) (S i) n end.
Definition eight : plan :=
  (let pair i := Plus (Entry i) (Entry (S i)) in Plus (Plus (pair 0) (pair 2)) (Plus (pair 4) (pair 6)))%nat.
Definition numpy_plan (n : nat) : plan :=
  if Nat.leb 8 n then left_to_right eight 8 (n - 8) else left_to_right Zero 0 n.
Definition numpy_reductions (n : nat) : reductions :=
  Reductions (numpy_plan n) (numpy_plan n) (numpy_plan n) (fun lag => numpy_plan (n - lag)).
(** The sum of autocorrelations is cut at a lag where their signs are clear. *)
Definition clear_cut (prec r : Z) (s : list R) : Prop := exists T, (T <= length s)%nat /\
  (forall t, (t < T)%nat -> 2 * rho_error prec r s < rho s t) /\ (T = length s \/ rho s T < - (2 * rho_error prec r s)).
(** Not a finite number. *)
Definition not_finite (e : ext) : Prop := match e with Fi _ => False | _ => True end.
