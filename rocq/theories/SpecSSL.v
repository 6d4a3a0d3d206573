(** Vocabulary for sums over labels. *)
From Coq Require Import List Reals.
From Verif Require Import SpecDist.
Import ListNotations.
Local Open Scope R_scope.

(** The label [y] as a row of [n] numbers. *)
Definition one_hot (n y : nat) : list R := map (fun j => if Nat.eqb y j then 1 else 0) (seq 0 n).
(** [q] is a probability distribution with every entry positive. *)
Definition positive_distribution (q : list R) : Prop := (forall p, In p q -> 0 < p) /\ total (fun p => p) q = 1.
(** Kullback-Leibler divergence from q to p. *)
Definition divergence (q p : list R) : R := total (fun qp => fst qp * ln (fst qp / snd qp)) (combine q p).
(** [i] is the first position of a largest entry. *)
Definition first_largest (l : list R) (i : nat) : Prop :=
  (i < length l)%nat /\ (forall j, (j < length l)%nat -> nth j l 0 <= nth i l 0) /\
  forall j, (j < i)%nat -> nth j l 0 < nth i l 0.
