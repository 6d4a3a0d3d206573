(** Vocabulary of C62: what the stochastic-gradient samplers are given, and the exact
    average behind PSGLD's preconditioner. *)
From Coq Require Import List Reals ZArith.
From Flocq Require Import Core.
From Verif Require Import ModelExt ModelFloat ModelFloatSGMCMC SpecFloat.
Import ListNotations.
Local Open Scope R_scope.

(** A finite float of size at most 2 ^ m; a vector of finite floats. *)
Definition within (prec top m : Z) (a : ext) : Prop := exists y, a = Fi y /\ is_float prec top y /\ Rabs y <= bpow radix2 m.
Definition finite_vec (prec top : Z) (q : vec) : Prop := forall i, exists y, q i = Fi y /\ is_float prec top y.
(** A learning rate of [0, 1], gradients of size at most 2 ^ k wherever the position is
    finite, normal draws of size at most 2 ^ k. *)
Definition tame (prec top k : Z) (x : step_input) : Prop :=
  (exists lr, s_lr x = Fi lr /\ is_float prec top lr /\ 0 <= lr <= 1) /\
  (forall q, finite_vec prec top q -> forall i, within prec top k (s_grad x q i)) /\
  (forall i, within prec top k (s_normal x i)) /\
  (forall z, s_resample x = Some z -> forall i, within prec top k (z i)).
(** The exponentially weighted sum of the squares of a list of gradients, oldest first. *)
Fixpoint weighted_squares (d d1 : R) (gs : list R) : R :=
  match gs with
  | [] => 0
  | g :: gs' => d1 * d ^ length gs' * g ^ 2 + weighted_squares d d1 gs'
  end.
