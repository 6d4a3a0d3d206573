(** Vocabulary for Gaussian process conditioning. *)
From Coq Require Import Reals.
From Verif Require Import SpecChol.
Local Open Scope R_scope.

(** [L] is lower triangular with positive diagonal and L L^T = K. *)
Definition factor_of (n : nat) (K L : nat -> nat -> R) : Prop :=
  cholesky_factor n L /\
  forall i j, (i < n)%nat -> (j < n)%nat -> rsum n (fun k => L i k * L j k) = K i j.
(** The vector [a] solves K a = b. *)
Definition solves (n : nat) (K : nat -> nat -> R) (a b : nat -> R) : Prop :=
  forall i, (i < n)%nat -> rsum n (fun k => K i k * a k) = b i.
(** Every quadratic form of [K] on [n] points is non-negative. *)
Definition semidefinite (n : nat) (K : nat -> nat -> R) : Prop :=
  forall c : nat -> R, 0 <= rsum n (fun i => rsum n (fun j => c i * c j * K i j)).
