(** zhusuan/transform.py, the normalizing flows, in floating-point arithmetic. Formats,
    operations and plans of reductions are those of ModelFloat.v and ModelFloatSample.v;
    tf.matmul is a sum of rounded products in an order of its own (fused multiply-add is
    not modelled). *)
From Coq Require Import List Arith Bool Reals ZArith.
From Flocq Require Import Core.
From Verif Require Import ModelExt ModelSpecial ModelNum ModelTensor ModelFlow ModelFloat ModelFloatSample.
Import ListNotations.
Local Open Scope R_scope.

(** How the four inner products of a planar layer are added up: w.aux_u, w.w, u.w, z.w. *)
Record flow_plans := FlowPlans { p_dot : plan; p_norm : plan; p_scalar : plan; p_score : plan }.
(** The variables of one planar layer, transform.py:144-156. *)
Record fplanar := FPlanar { f_w : list ext; f_aux_u : list ext; f_b : ext }.

Section Format.
Variables prec top : Z.
Variables libexp liblog libtanh libsigmoid : R -> R.
Notation fadd := (fadd prec top).
Notation fsub := (fsub prec top).
Notation fmul := (fmul prec top).
Notation fdiv := (fdiv prec top).
Notation felog := (felog top liblog).
Notation feexp := (feexp top libexp).
(** One entry of tf.matmul *)
Definition fdot (p : plan) (x y : list ext) : ext :=
  fsum prec top p (map (fun q => fmul (fst q) (snd q)) (combine x y)).
(** tf.tanh *)
Definition fetanh (a : ext) : ext :=
  match a with Fi x => Fi (libtanh x) | PInf => Fi 1 | MInf => Fi (-1) | NaN => NaN end.

(** param_u, transform.py:157-161 *)
Definition fplanar_u (k : flow_plans) (p : fplanar) : list ext :=
  let dot_prod := fdot (p_dot k) (f_w p) (f_aux_u p) in
  let norm := fdot (p_norm k) (f_w p) (f_w p) in
  let amount := fsub (fsub (felog (fadd (feexp dot_prod) (Fi 1))) (Fi 1)) dot_prod in
  map (fun uw => fadd (fst uw) (fmul (fdiv (snd uw) norm) amount)) (combine (f_aux_u p) (f_w p)).
(** One pass of the loop of transform.py:169-190 on one row of [z] and its entry of
    [log_probs]: [None] when the assertion fails (a comparison with NaN is false).
    tf.reduce_sum over the last axis of [activation], of extent 1, and tf.matmul(activation,
    param_u) have one term per entry. *)
Definition fplanar_step (k : flow_plans) (u : list ext) (p : fplanar) (zl : list ext * ext) : option (list ext * ext) :=
  let scalar := fdot (p_scalar k) u (f_w p) in
  if eleb (Fi (-1)) scalar then
    let act := fetanh (fadd (fdot (p_score k) (fst zl) (f_w p)) (f_b p)) in
    let det_ja := fadd (fmul scalar (fsub (Fi 1) (fmul act act))) (Fi 1) in
    Some (map (fun zu => fadd (fst zu) (fmul act (snd zu))) (combine (fst zl) u), fsub (snd zl) (felog det_ja))
  else None.
Definition fplanar_layer (k : flow_plans) (p : fplanar) : list ext * ext -> option (list ext * ext) :=
  fplanar_step k (fplanar_u k p) p.
(** The whole loop on one row; each layer comes with its plans. *)
Fixpoint fplanar_row (ps : list (flow_plans * fplanar)) (zl : list ext * ext) : option (list ext * ext) :=
  match ps with
  | [] => Some zl
  | (k, p) :: ps' => obind (fplanar_layer k p zl) (fplanar_row ps')
  end.
End Format.
