(** zhusuan/variational/exclusive_kl.py: the evidence lower bound, its SGVB cost and its
    REINFORCE cost with the moving mean, in floating-point arithmetic. Formats, operations
    and plans of reductions are those of ModelFloat.v, ModelFloatSample.v and
    ModelFloatTune.v ([fpow]). *)
From Coq Require Import List Arith Bool Reals ZArith.
From Flocq Require Import Core.
From Verif Require Import ModelExt ModelSpecial ModelFloat ModelFloatSample ModelFloatTune.
Import ListNotations.
Local Open Scope R_scope.

Section Format.
Variables prec top : Z.
Variable libpow : R -> R -> R.
Notation fadd := (fadd prec top).
Notation fsub := (fsub prec top).
Notation fmul := (fmul prec top).
Notation fdiv := (fdiv prec top).
Notation fmean p l := (fdivn prec top (fsum prec top p l) (length l)).

(** One entry of the tensors: the log joint density, minus the log density of the latent
    variables, the baseline (if one is given). *)
Record fentry := FEntry { f_log_joint : ext; f_entropy : ext; f_baseline : ext }.
(** One position of the batch: the entries along [axis]. *)
Definition fposition := list fentry.

(** _objective with latent variables and an axis, exclusive_kl.py:131-137, and sgvb, 159 *)
Definition flower (q : fentry) : ext := fadd (f_log_joint q) (f_entropy q).
Definition felbo (p : plan) (s : fposition) : ext := fmean p (map flower s).
Definition fsgvb (p : plan) (s : fposition) : ext := eneg (felbo p s).

(** The learning signal before the moving mean is subtracted, exclusive_kl.py:195, 204 *)
Definition flearning (baseline : bool) (q : fentry) : ext :=
  if baseline then fsub (flower q) (f_baseline q) else flower q.
(** baseline_cost, exclusive_kl.py:200-203 *)
Definition fbaseline_entry (q : fentry) : ext :=
  let e := fsub (flower q) (f_baseline q) in fmul (Fi (1 / 2)) (fmul e e).
Definition fbaseline_cost (p : plan) (s : fposition) : ext := fmean p (map fbaseline_entry s).
(** The cost, exclusive_kl.py:217, 221-226; [read] is the value read from moving_mean, [None]
    without variance_reduction. Without an axis the cost has the entries [fcost_entry]. *)
Definition fsignal_of (baseline : bool) (read : option ext) (q : fentry) : ext :=
  match read with Some m => fsub (flearning baseline q) m | None => flower q end.
Definition fcost_entry (baseline : bool) (read : option ext) (q : fentry) : ext :=
  fadd (eneg (f_log_joint q)) (fmul (fsignal_of baseline read q) (f_entropy q)).
Definition fcost (p : plan) (baseline : bool) (read : option ext) (s : fposition) : ext :=
  fmean p (map (fcost_entry baseline read) s).

(** bc, exclusive_kl.py:207: the mean over all entries of all positions. *)
Definition fbc (p : plan) (baseline : bool) (batch : list fposition) : ext :=
  fmean p (map (flearning baseline) (concat batch)).
(** moving_averages.assign_moving_average with zero_debias=True (TensorFlow
    python/training/moving_averages.py), called at exclusive_kl.py:215-216: the shadow
    variables biased and local_step, and moving_mean. [c] is 1.0 - decay, converted to the
    format of the variable. *)
Record faverage := FAverage { fa_biased : ext; fa_step : ext; fa_mean : ext }.
(** exclusive_kl.py:209-212 *)
Definition faverage0 : faverage := FAverage (Fi 0) (Fi 0) (Fi 0).
Definition fassign (c value : ext) (a : faverage) : faverage :=
  let biased := fsub (fa_biased a) (fmul (fsub (fa_biased a) value) c) in
  let step := fadd (fa_step a) (Fi 1) in
  let unbiased := fdiv biased (fsub (Fi 1) (fpow top libpow (fsub (Fi 1) c) step)) in
  FAverage biased step (fsub (fa_mean a) (fsub (fa_mean a) unbiased)).
(** The variables after runs of the cost; a run is its batch and the plan of its mean. *)
Definition fruns (c : ext) (baseline : bool) (runs : list (plan * list fposition)) (a : faverage) : faverage :=
  fold_left (fun a r => fassign c (fbc (fst r) baseline (snd r)) a) runs a.
(** The cost of one position in the run after [runs]: the read of moving_mean (217) and its
    update (215) are not ordered, see ModelVI.v. *)
Definition freinforce (c : ext) (baseline read_first : bool) (runs : list (plan * list fposition)) (now : plan * list fposition)
  (p : plan) (s : fposition) : ext :=
  fcost p baseline (Some (fa_mean (fruns c baseline (if read_first then runs else runs ++ [now]) faverage0))) s.
End Format.
