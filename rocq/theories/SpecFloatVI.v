(** Vocabulary of C65: the exact values of the costs. *)
From Coq Require Import List Reals ZArith.
From Verif Require Import ModelExt ModelFloat ModelFloatVI SpecFloatImportance.
Import ListNotations.
Local Open Scope R_scope.

(** An entry: log p, - log q, baseline. *)
Definition rentry := (R * R * R)%type.
Definition to_entry (q : rentry) : fentry := let '(lj, e, bl) := q in FEntry (Fi lj) (Fi e) (Fi bl).
Definition exact_learning (baseline : bool) (q : rentry) : R := let '(lj, e, bl) := q in lj + e - (if baseline then bl else 0).
Definition exact_elbo (s : list rentry) : R := mean_of (map (exact_learning false) s).
Definition exact_cost (baseline : bool) (m : R) (s : list rentry) : R :=
  mean_of (map (fun q : rentry => - fst (fst q) + (exact_learning baseline q - m) * snd (fst q)) s).
Definition exact_baseline_cost (s : list rentry) : R := mean_of (map (fun q => exact_learning true q ^ 2 / 2) s).
(** The mean of the values with weights that grow by 1 / g from each value to the next (the
    last value has weight 1). *)
Fixpoint powers (g : R) (n : nat) : list R := match n with O => [] | S n => g ^ n :: powers g n end.
Definition fading_mean (g : R) (xs : list R) : R :=
  rsum (map (fun q => fst q * snd q) (combine (powers g (length xs)) xs)) / rsum (powers g (length xs)).
(** Floats no larger than 2 ^ r. *)
Definition entry_within (prec top r : Z) (q : rentry) : Prop :=
  let ok x := is_float prec top x /\ Rabs x <= Flocq.Core.Raux.bpow Flocq.Core.Zaux.radix2 r in let '(lj, e, bl) := q in ok lj /\ ok e /\ ok bl.
