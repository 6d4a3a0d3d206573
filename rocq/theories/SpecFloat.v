(** Vocabulary of C55 and C58 to C61: floating-point formats, accuracy of library functions,
    orders of summation, random bits. *)
From Coq Require Import List Reals ZArith Permutation.
From Flocq Require Import Core.
From Verif Require Import ModelExt ModelFloat.
Import ListNotations.
Local Open Scope R_scope.

(** Formats with at least two bits and enough exponents. *)
Definition wide (prec top : Z) : Prop := (2 <= prec /\ prec + 2 <= top /\ prec < 2 ^ (top - prec - 1))%Z.
(** Half the distance from 1 to the next float. *)
Definition unit_roundoff (prec : Z) : R := bpow radix2 (- prec).
(** [f] gives one of the two floats enclosing [g x] ([g x] itself when it is a float). *)
Definition faithful_at (prec top : Z) (f g : R -> R) (x : R) : Prop :=
  f x = round radix2 (fexpo prec top) Zfloor (g x) \/ f x = round radix2 (fexpo prec top) Zceil (g x).
Definition faithful_exp prec top (f : R -> R) : Prop := forall x, is_float prec top x -> faithful_at prec top f exp x.
Definition faithful_log prec top (f : R -> R) : Prop := forall x, is_float prec top x -> 0 < x -> faithful_at prec top f ln x.
(** The plan uses each of [n] entries once. *)
Fixpoint entries (p : plan) : list nat :=
  match p with Zero => [] | Entry i => [i] | Plus a b => entries a ++ entries b end.
Definition adds_up (p : plan) (n : nat) : Prop := Permutation (entries p) (seq 0 n).
(** Finite floats and minus infinity, not all minus infinity; the largest entry. *)
Definition entry (prec top : Z) (e : ext) : Prop := e = MInf \/ exists x, e = Fi x /\ is_float prec top x.
Definition largest (l : list ext) (m : R) : Prop := In (Fi m) l /\ forall x, In (Fi x) l -> x <= m.
(** exp of an entry, and the sum over the entries. *)
Definition power (e : ext) : R := match e with Fi x => exp x | _ => 0 end.
Definition exp_sum (l : list ext) : R := fold_right Rplus 0 (map power l).

(** Formats whose integers reach the largest exponent: all of TensorFlow's. *)
Definition ample (prec top : Z) : Prop := wide prec top /\ (3 <= prec /\ top <= 2 ^ prec)%Z.
Definition faithful_log1p prec top (f : R -> R) : Prop :=
  forall x, is_float prec top x -> -1 < x -> faithful_at prec top f (fun x => ln (1 + x)) x.
Definition faithful_sigmoid prec top (f : R -> R) : Prop :=
  forall x, is_float prec top x -> faithful_at prec top f (fun x => / (1 + exp (- x))) x.
(** Powers of a positive base. *)
Definition faithful_pow prec top (f : R -> R -> R) : Prop :=
  forall x y, is_float prec top x -> is_float prec top y -> 0 < x -> faithful_at prec top (f x) (Rpower x) y.
(** The random bits behind one number of tf.random_uniform. *)
Definition bits (prec j : Z) : Prop := (0 <= j < 2 ^ (prec - 1))%Z.
(** The entries are floats of [0, 1]; their exact sum. *)
Definition fraction (prec top : Z) (e : ext) : Prop := exists w, e = Fi w /\ is_float prec top w /\ 0 <= w <= 1.
Definition real_of (e : ext) : R := match e with Fi x => x | _ => 0 end.
Definition total (l : list ext) : R := fold_right Rplus 0 (map real_of l).
