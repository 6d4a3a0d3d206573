(** Vocabulary of C67. *)
From Coq Require Import List Reals ZArith.
From Flocq Require Import Core.
From Verif Require Import ModelExt ModelDist ModelFlow ModelFloat ModelFloatFlow SpecFloat.
Import ListNotations.
Local Open Scope R_scope.

(** [f] gives one of the two floats enclosing tanh x. *)
Definition faithful_tanh prec top (f : R -> R) : Prop := forall x, is_float prec top x -> faithful_at prec top f tanh x.
(** Floats no larger than 2 ^ r, [d] of them. *)
Definition vector (prec top r : Z) (d : nat) (x : list R) : Prop :=
  length x = d /\ Forall (fun y => is_float prec top y /\ Rabs y <= bpow radix2 r) x.
(** Each inner product adds up all its terms once, in any order and grouping. *)
Definition multiplies (k : flow_plans) (d : nat) : Prop :=
  adds_up (p_dot k) d /\ adds_up (p_norm k) d /\ adds_up (p_scalar k) d /\ adds_up (p_score k) d.
(** The parameters of a layer as floats. *)
Definition float_params (p : planar_params) : fplanar := FPlanar (map Fi (p_w p)) (map Fi (p_aux_u p)) (Fi (p_b p)).
(** Entries within [e] of each other. *)
Definition near_vectors (d : nat) (e : R) (x y : list R) : Prop := length x = d /\ length y = d /\ forall i, (i < d)%nat -> Rabs (nth i x 0 - nth i y 0) <= e.

(** Bound on the inner products of two vectors of [d] entries up to 2 ^ r. *)
Definition dots (d : nat) (r : Z) : R := INR d * bpow radix2 (2 * r).
(** A layer whose numbers are floats up to 2 ^ r, with w.w not below [om], w.aux_u not close
    to overflow of exp, the determinant of its map not below [c], and u up to 2 ^ h. *)
Definition sound_layer (prec top : Z) (d : nat) (r h : Z) (om c : R) (p : planar_params) : Prop :=
  vector prec top r d (p_w p) /\ vector prec top r d (p_aux_u p) /\ is_float prec top (p_b p) /\ Rabs (p_b p) <= bpow radix2 r /\
  om <= dot (p_w p) (p_w p) /\ dot (p_w p) (p_aux_u p) + 1 <= (IZR top - 2) / 2 /\ c <= ln (1 + exp (dot (p_w p) (p_aux_u p))) /\
  forall i, (i < d)%nat -> Rabs (nth i (planar_u p) 0) + 1 <= bpow radix2 h.
(** Errors of u, of the samples after [N] layers, of the determinants, and of the log
    probability. *)
Section Errors.
Variables (prec : Z) (d : nat) (r : Z) (om c : R) (N : nat) (l : R).
Let D := dots d r.
Let v := INR d * unit_roundoff prec.
Definition parameter_error : R := 100 * v * (D * D * D) / (om * om).
Definition sample_error : R := INR N * (1 + D * D) ^ N * (15 * (v * (D * D)) + parameter_error).
Definition det_error : R := 33 * v * (D * D) + D * parameter_error + 2 * (D * D) * sample_error.
(** The size of the log determinants and of the log probabilities, starting from [l]. *)
Definition log_det_size : R := 5 * D + 2 / c.
Definition log_prob_size : R := Rabs l + INR N * (log_det_size + 2).
Definition log_prob_error : R := INR N * (2 * det_error / c + 5 * unit_roundoff prec * log_det_size + 5 / 4 * unit_roundoff prec * log_prob_size).
End Errors.
