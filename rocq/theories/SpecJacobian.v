(** Jacobian matrices of maps of R^n. *)
From Coq Require Import Reals.
From Coquelicot Require Import Coquelicot.
From mathcomp Require Import all_ssreflect all_algebra.
From Verif Require Import ProofRing.

(** [c] is a curve in I -> R whose velocity at time 0 is [v], coordinate by coordinate. *)
Definition velocity_at_0 {I : Type} (c : R -> I -> R) (v : I -> R) : Prop :=
  forall i, is_derive (fun t => c t i) R0 (v i).

(** Matrix times vector. *)
Definition mulv {m n : nat} (J : 'M[R]_(m, n)) (v : 'I_n -> R) : 'I_m -> R := fun i => (\sum_j J i j * v j)%R.

(** [F] is differentiable at [x] with Jacobian matrix [J]: it sends every curve through
    [x] with velocity v to a curve with velocity J v. (Curves need not be straight
    lines, so in finite dimension this is ordinary differentiability.) *)
Definition has_jacobian {m n : nat} (F : ('I_n -> R) -> ('I_m -> R)) (x : 'I_n -> R) (J : 'M[R]_(m, n)) : Prop :=
  forall c v, c R0 = x -> velocity_at_0 c v ->
    velocity_at_0 (fun t => F (c t)) (mulv J v).

(** Two vectors of R^d as one of R^(d+d). *)
Definition pair_up {d e : nat} (a : 'I_d -> R) (b : 'I_e -> R) : 'I_(d + e) -> R :=
  fun i => match split i with inl k => a k | inr k => b k end.
Definition first_half {d e : nat} (x : 'I_(d + e) -> R) : 'I_d -> R := fun k => x (lshift e k).
Definition second_half {d e : nat} (x : 'I_(d + e) -> R) : 'I_e -> R := fun k => x (rshift d k).
