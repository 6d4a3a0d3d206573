(** What a normalizing flow on R^d should do. *)
From Coq Require Import Reals List.
From mathcomp Require Import all_ssreflect all_algebra.
From Verif Require Import ProofRing SpecJacobian.
Local Open Scope R_scope.

(** A point of R^d as a list, and a function of lists as a map of R^d. *)
Definition coords {d : nat} (x : 'I_d -> R) : list R := List.map x (enum 'I_d).
Definition as_map (d : nat) (F : list R -> list R) : ('I_d -> R) -> 'I_d -> R :=
  fun x i => List.nth i (F (coords x)) 0.

(** [F] maps lists of length d to lists of length d, one to one and onto. *)
Definition bijection (d : nat) (F : list R -> list R) : Prop :=
  (forall x, length x = d -> length (F x) = d) /\
  forall y, length y = d -> exists x, (length x = d /\ F x = y) /\
    forall x', length x' = d -> F x' = y -> x' = x.

(** [F] is a bijection of R^d with everywhere an invertible Jacobian matrix, and
    [logdet] is the log of the absolute value of its determinant. By the change of
    variables formula, if z has log density lp at x then F z has log density
    lp - logdet x at F x; SpecFlowDensity.v states this directly. *)
Definition flow (d : nat) (F : list R -> list R) (logdet : list R -> R) : Prop :=
  bijection d F /\
  forall x : 'I_d -> R, exists J,
    has_jacobian (as_map d F) x J /\ determinant J <> R0 /\
    logdet (coords x) = ln (Rabs (determinant J)).

(** Component j of the output depends only on the components of the input before j. *)
Definition autoregressive (d : nat) (f : list R -> list R) : Prop :=
  (forall z, length z = d -> length (f z) = d) /\
  forall z z' j, length z = d -> length z' = d -> (j < d)%coq_nat ->
    (forall i, (i < j)%coq_nat -> List.nth i z 0 = List.nth i z' 0) ->
    List.nth j (f z) 0 = List.nth j (f z') 0.
Definition smooth (d : nat) (f : list R -> list R) : Prop :=
  forall x : 'I_d -> R, exists J, has_jacobian (as_map d f) x J.
