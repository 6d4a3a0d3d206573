(** Some _log_prob methods of zhusuan/distributions in floating-point arithmetic. Formats and
    operations are those of ModelFloat.v. Python constants are rounded to the format.
    check_numerics is off. *)
From Coq Require Import List Bool Reals ZArith.
From Flocq Require Import Core.
From Verif Require Import ModelExt ModelSpecial ModelNum ModelFloat ModelFloatSample.
Import ListNotations.
Local Open Scope R_scope.

Section Format.
Variables prec top : Z.
Variables libexp liblog liblog1p : R -> R.
Notation fadd := (fadd prec top).
Notation fsub := (fsub prec top).
Notation fmul := (fmul prec top).
Notation fdiv := (fdiv prec top).
Notation felog := (felog top liblog).
Notation feexp := (feexp top libexp).
Notation felog1p := (felog1p top liblog1p).
Definition constant (c : R) : ext := rounded prec top (Fi c).

(** Normal._log_prob, univariate.py:174-181, from the attributes mean and logstd;
    Normal.__init__, 96-103, computes logstd from std. *)
Definition normal_log_p (mean logstd given : ext) : ext :=
  let c := constant (- (1/2) * ln (2 * PI)) in
  let precision := feexp (fmul (Fi (-2)) logstd) in
  let diff := fsub given mean in
  fsub (fsub c logstd) (fmul (fmul (Fi (1/2)) precision) (fmul diff diff)).
Definition normal_log_p_std (mean std given : ext) : ext := normal_log_p mean (felog std) given.

(** Bernoulli._log_prob, 398-403; tf.nn.sigmoid_cross_entropy_with_logits is
    relu(logits) - logits * labels + log1p(exp(-abs(logits))). *)
Definition bernoulli_log_p (logits given : ext) : ext :=
  eneg (fadd (fsub (emax logits (Fi 0)) (fmul logits given)) (felog1p (feexp (eneg (eabs logits))))).

(** Uniform._log_prob and _prob, 646-659. *)
Definition uniform_p (minval maxval given : ext) : ext :=
  let mask := if andb (eleb minval given) (eltb given maxval) then Fi 1 else Fi 0 in
  fmul (fdiv (Fi 1) (fsub maxval minval)) mask.
Definition uniform_log_p (minval maxval given : ext) : ext := felog (uniform_p minval maxval given).

(** Laplace._log_prob, 1267-1273. *)
Definition laplace_log_p (loc scale given : ext) : ext :=
  fsub (fsub (constant (- ln 2)) (felog scale)) (fdiv (eabs (fsub given loc)) scale).

(** Categorical._log_prob, 496-548 (the call in 543-544), one row; the kernel of
    tf.nn.sparse_softmax_cross_entropy_with_logits gives log(sum(exp(logits - max))) -
    (logits[given] - max). *)
Definition categorical_log_p (p : plan) (logits : list ext) (given : nat) : ext :=
  let shifted := fshifted prec top logits in
  eneg (fsub (felog (fsum prec top p (map feexp shifted))) (nth given shifted NaN)).

(** OnehotCategorical._log_prob, multivariate.py:542-561 (the call in 552-553), one row; the kernel of
    tf.nn.softmax_cross_entropy_with_logits gives the sum over the categories of
    given * (log(sum(exp(logits - max))) - (logits - max)). *)
Definition onehot_log_p (p p' : plan) (logits given : list ext) : ext :=
  let shifted := fshifted prec top logits in
  let s := felog (fsum prec top p (map feexp shifted)) in
  eneg (fsum prec top p' (map (fun q => fmul (fst q) (fsub s (snd q))) (combine given shifted))).
End Format.
