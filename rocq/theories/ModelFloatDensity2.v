(** More _log_prob methods of zhusuan/distributions in floating-point arithmetic: the Gamma,
    Beta, InverseGamma, Poisson, Binomial and BinConcrete distributions. Formats and operations
    are those of ModelFloat.v and ModelFloatSample.v. check_numerics is off. *)
From Coq Require Import List Bool Reals ZArith.
From Flocq Require Import Core.
From Verif Require Import ModelExt ModelSpecial ModelNum ModelFloat ModelFloatSample.
Import ListNotations.
Local Open Scope R_scope.

Section Format.
Variables prec top : Z.
(** tf.log, tf.lgamma and tf.nn.softplus on finite numbers. *)
Variables liblog liblgamma libsoftplus : R -> R.
Notation fadd := (fadd prec top).
Notation fsub := (fsub prec top).
Notation fmul := (fmul prec top).
Notation fdiv := (fdiv prec top).
Notation felog := (felog top liblog).
(** tf.lgamma: +inf at the poles and at both infinities. *)
Definition felgamma (a : ext) : ext :=
  match a with Fi x => if at_pole x then PInf else overflow top (liblgamma x) | PInf | MInf => PInf | NaN => NaN end.
Definition fsoftplus (a : ext) : ext :=
  match a with Fi x => overflow top (libsoftplus x) | PInf => PInf | MInf => Fi 0 | NaN => NaN end.
(** tf.cast of an integer. *)
Definition fcast (n : Z) : ext := rounded prec top (Fi (IZR n)).

(** Gamma._log_prob, univariate.py:737-747. *)
Definition gamma_log_p (alpha beta given : ext) : ext :=
  let log_given := felog given in
  let log_beta := felog beta in
  let lgamma_alpha := felgamma alpha in
  fsub (fadd (fsub (fmul alpha log_beta) lgamma_alpha) (fmul (fsub alpha (Fi 1)) log_given)) (fmul beta given).

(** Beta._log_prob, univariate.py:833-851. *)
Definition beta_log_p (alpha beta given : ext) : ext :=
  let log_given := felog given in
  let log_1_minus_given := felog (fsub (Fi 1) given) in
  let lgamma_alpha := felgamma alpha in
  let lgamma_beta := felgamma beta in
  let lgamma_alpha_plus_beta := felgamma (fadd alpha beta) in
  fsub (fadd (fmul (fsub alpha (Fi 1)) log_given) (fmul (fsub beta (Fi 1)) log_1_minus_given))
       (fsub (fadd lgamma_alpha lgamma_beta) lgamma_alpha_plus_beta).

(** Poisson._log_prob, univariate.py:922-933. *)
Definition poisson_log_p (rate : ext) (given : Z) : ext :=
  let given := fcast given in
  let log_rate := felog rate in
  let lgamma_given_plus_1 := felgamma (fadd given (Fi 1)) in
  fsub (fsub (fmul given log_rate) rate) lgamma_given_plus_1.

(** Binomial._log_prob, univariate.py:1047-1064. *)
Definition binomial_log_p (logits : ext) (n_experiments given : Z) : ext :=
  let n := fcast n_experiments in
  let given := fcast given in
  let log_1_minus_p := eneg (fsoftplus logits) in
  let lgamma_n_plus_1 := felgamma (fadd n (Fi 1)) in
  let lgamma_given_plus_1 := felgamma (fadd given (Fi 1)) in
  let lgamma_n_minus_given_plus_1 := felgamma (fadd (fsub n given) (Fi 1)) in
  fadd (fadd (fsub (fsub lgamma_n_plus_1 lgamma_n_minus_given_plus_1) lgamma_given_plus_1) (fmul given logits))
       (fmul n log_1_minus_p).

(** InverseGamma._log_prob, univariate.py:1146-1158. *)
Definition inverse_gamma_log_p (alpha beta given : ext) : ext :=
  let log_given := felog given in
  let log_beta := felog beta in
  let lgamma_alpha := felgamma alpha in
  fsub (fsub (fsub (fmul alpha log_beta) lgamma_alpha) (fmul (fadd alpha (Fi 1)) log_given)) (fdiv beta given).

(** BinConcrete._log_prob, univariate.py:1381-1399. *)
Definition bin_concrete_log_p (temperature logits given : ext) : ext :=
  let log_given := felog given in
  let log_1_minus_given := felog (fsub (Fi 1) given) in
  let log_temperature := felog temperature in
  let logistic_given := fsub log_given log_1_minus_given in
  let temp := fsub (fmul temperature logistic_given) logits in
  fsub (fadd (fsub (fsub log_temperature log_given) log_1_minus_given) temp) (fmul (Fi 2) (fsoftplus temp)).

(** The _prob methods: tf.exp of _log_prob (univariate.py:749-750 and the others). *)
Variable libexp : R -> R.
Definition of_log (l : ext) : ext := feexp top libexp l.
End Format.
