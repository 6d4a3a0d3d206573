(** Vocabulary for the Cholesky-parameterised normals. *)
From Coq Require Import List Reals.
From Verif Require Import SpecDist.
Import ListNotations.
Local Open Scope R_scope.

(** Sum of [f 0], ..., [f (n-1)]. *)
Definition rsum (n : nat) (f : nat -> R) : R := total f (seq 0 n).

(** [L] is an n-by-n lower triangular matrix with positive diagonal. *)
Definition cholesky_factor (n : nat) (L : nat -> nat -> R) : Prop :=
  (forall r c, (r < c)%nat -> (c < n)%nat -> L r c = 0) /\ (forall r, (r < n)%nat -> 0 < L r r).

(** Log density of the multivariate normal with covariance L L^T at the point
    mean + L z. *)
Definition mvn_reference (n : nat) (L : nat -> nat -> R) (z : nat -> R) : R :=
  - (INR n / 2) * ln (2 * PI) - rsum n (fun k => ln (L k k)) - rsum n (fun k => z k * z k) / 2.

(** Log density of the matrix normal with row covariance U U^T and column covariance
    V V^T at the point mean + U Z V^T. *)
Definition mvmn_reference (r c : nat) (U V : nat -> nat -> R) (Z : nat -> nat -> R) : R :=
  - (INR r * INR c / 2) * ln (2 * PI)
  - INR r * rsum c (fun k => ln (V k k)) - INR c * rsum r (fun k => ln (U k k))
  - rsum r (fun i => rsum c (fun j => Z i j * Z i j)) / 2.
