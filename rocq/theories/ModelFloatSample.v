(** The _sample methods of zhusuan/distributions in floating-point arithmetic: the noise
    of tf.random_uniform and what is computed from it, and quotients of Gamma draws.
    Formats and operations are those of ModelFloat.v. Not modelled, besides what is said
    there: the normal and Gamma generators themselves. *)
From Coq Require Import List Bool Reals ZArith.
From Flocq Require Import Core.
From Verif Require Import ModelExt ModelSpecial ModelNum ModelFloat.
Import ListNotations.
Local Open Scope R_scope.

Section Format.
Variables prec top : Z.
Notation fadd := (fadd prec top).
Notation fsub := (fsub prec top).
Notation fsum := (fsum prec top).
Definition fmul (a b : ext) : ext := rounded prec top (emul a b).
Definition fdiv (a b : ext) : ext := rounded prec top (ediv2 a b).
(** np.finfo(dtype).tiny: the smallest normal number; np.nextafter(-1, 0). *)
Definition tiny : R := bpow radix2 (2 - top).
Definition after_minus_1 : R := - (1 - bpow radix2 (- prec)).

(** TensorFlow's generator fills the fraction of a number in [1, 2) with random bits [j]
    and subtracts 1; random_uniform(minval, maxval) scales and shifts in floating point. *)
Definition standard (j : Z) : R := IZR j * bpow radix2 (1 - prec).
Definition random_uniform (minval maxval : ext) (j : Z) : ext :=
  fadd (fmul (Fi (standard j)) (fsub maxval minval)) minval.
(** open_interval_standard_uniform, utils.py:311-324 *)
Definition open_interval_standard_uniform (j : Z) : ext := random_uniform (Fi tiny) (Fi 1) j.

(** Uniform._sample, univariate.py:637-639; random_uniform(shape, 0, 1) is the bits. *)
Definition uniform_sample (minval maxval : ext) (j : Z) : ext :=
  fadd (fmul (random_uniform (Fi 0) (Fi 1) j) (fsub maxval minval)) minval.

(** Library functions on finite numbers: exp, log, log1p, the logistic sigmoid. *)
Variables libexp liblog liblog1p libsigmoid : R -> R.
Notation felog := (felog top liblog).
Notation feexp := (feexp top libexp).
Definition felog1p (a : ext) : ext :=
  match a with
  | Fi x => if Rlt_dec (-1) x then overflow top (liblog1p x) else if Req_EM_T x (-1) then MInf else NaN
  | PInf => PInf
  | MInf | NaN => NaN
  end.
Definition fsigmoid (a : ext) : ext :=
  match a with Fi x => overflow top (libsigmoid x) | PInf => Fi 1 | MInf => Fi 0 | NaN => NaN end.
Definition esign (a : ext) : ext :=
  match a with
  | Fi x => if Rlt_dec 0 x then Fi 1 else if Rlt_dec x 0 then Fi (-1) else Fi 0
  | PInf => Fi 1 | MInf => Fi (-1) | NaN => NaN
  end.

(** Laplace._sample, univariate.py:1253-1260 *)
Definition laplace_uniform (j : Z) : ext := random_uniform (Fi after_minus_1) (Fi 1) j.
Definition laplace_sample (loc scale : ext) (j : Z) : ext :=
  let u := laplace_uniform j in
  fsub loc (fmul (fmul scale (esign u)) (felog1p (eneg (eabs u)))).
(** BinConcrete._sample, univariate.py:1370-1373 *)
Definition logistic (j : Z) : ext :=
  let u := open_interval_standard_uniform j in fsub (felog u) (felog (fsub (Fi 1) u)).
Definition bin_concrete_sample (temperature logits : ext) (j : Z) : ext :=
  fsigmoid (fdiv (fadd logits (logistic j)) temperature).

(** ExpConcrete._sample and Concrete._sample, multivariate.py:788-790 and 926-929; tf.nn.softmax
    and tf.nn.log_softmax subtract the largest entry; softmax divides by the sum or
    multiplies by its inverse, depending on the device ([inverse]). *)
Definition gumbel (j : Z) : ext := eneg (felog (eneg (felog (open_interval_standard_uniform j)))).
Definition perturbed (temperature : ext) (logits : list ext) (js : list Z) : list ext :=
  map (fun q => fdiv (fadd (fst q) (gumbel (snd q))) temperature) (combine logits js).
Definition normalized (inverse : bool) (p : plan) (l : list ext) : list ext :=
  let s := fsum p l in map (fun x => if inverse then fmul x (fdiv (Fi 1) s) else fdiv x s) l.
Definition softmax (inverse : bool) (p : plan) (l : list ext) : list ext :=
  normalized inverse p (map feexp (fshifted prec top l)).
Definition log_softmax (p : plan) (l : list ext) : list ext :=
  let s := felog (fsum p (map feexp (fshifted prec top l))) in map (fun x => fsub x s) (fshifted prec top l).
Definition concrete_sample (inverse : bool) (p : plan) (temperature : ext) (logits : list ext) (js : list Z) : list ext :=
  softmax inverse p (perturbed temperature logits js).
Definition exp_concrete_sample (p : plan) (temperature : ext) (logits : list ext) (js : list Z) : list ext :=
  log_softmax p (perturbed temperature logits js).

(** Beta._sample, univariate.py:829-831, Dirichlet._sample, multivariate.py:661-663, and
    InverseGamma._sample, univariate.py:1142-1144, from the draws of tf.random_gamma, which
    are at least [tiny]. *)
Definition beta_sample (x y : ext) : ext := fdiv x (fadd x y).
Definition dirichlet_sample (p : plan) (l : list ext) : list ext := normalized false p l.
Definition inverse_gamma_sample (g : ext) : ext := fdiv (Fi 1) g.
End Format.
