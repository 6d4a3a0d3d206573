(** Vocabulary for training on shuffled minibatches. *)
From Coq Require Import List Reals Permutation.
From Verif Require Import SpecDist.
Import ListNotations.
Local Open Scope R_scope.

(** [os] lists every order of 0, ..., n-1 once. *)
Definition all_orders (n : nat) (os : list (list nat)) : Prop :=
  NoDup os /\ forall o, In o os <-> Permutation o (seq 0 n).
(** The mean of [f] over a uniform choice from [l]. *)
Definition average {X} (f : X -> R) (l : list X) : R := total f l / INR (length l).
(** Density of the normal distribution. *)
Definition normal_pdf (mu sigma y : R) : R := exp (- ((y - mu) ^ 2 / (2 * sigma ^ 2))) / (sigma * sqrt (2 * PI)).
(** A standardized value in its original unit. *)
Definition original (mean_y std_y v : R) : R := v * std_y + mean_y.
