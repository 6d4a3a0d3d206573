(** The deprecated distributions (zhusuan/legacy/distributions/special.py). *)
From Coq Require Import Reals List ZArith.
From Verif Require Import ModelExt ModelShape ModelTensor.
Import ListNotations.
Local Open Scope R_scope.

Inductive answer (A : Type) := Answer (a : A) | ValueError | OpError.
Arguments Answer {A}. Arguments ValueError {A}. Arguments OpError {A}.
Definition of_op {A} (x : option A) : answer A := match x with Some a => Answer a | None => OpError end.

(** The n_samples argument of Distribution.sample, base.py:236-263: None, an int, or a
    Tensor (with its run-time value). *)
Inductive n_samples := NoSamples | IntSamples (n : Z) | TensorSamples (n : Z).

(** Empirical: _sample, _log_prob and _prob, special.py:80-91, through the public
    methods of base.py:250-320. The static shape check of the density methods happens
    first and raises the same exception type, so its outcome does not matter. *)
Definition empirical_sample {A} (n : n_samples) : answer (tensor A) := ValueError.
Definition empirical_log_prob {A} (given : tensor A) : answer (tensor ext) := ValueError.
Definition empirical_prob {A} (given : tensor A) : answer (tensor ext) := ValueError.

(** IEEE product, as ModelExt. *)
Definition emul (a b : ext) : ext :=
  let sign (x : R) (pos neg : ext) := if Rlt_dec 0 x then pos else if Rlt_dec x 0 then neg else NaN in
  match a, b with
  | NaN, _ | _, NaN => NaN
  | Fi x, Fi y => Fi (x * y)
  | Fi x, PInf | PInf, Fi x => sign x PInf MInf
  | Fi x, MInf | MInf, Fi x => sign x MInf PInf
  | PInf, PInf | MInf, MInf => PInf
  | PInf, MInf | MInf, PInf => MInf
  end.

Section Implicit.
Context {V : Type} (eqb : V -> V -> bool) (samples : tensor V) (continuous : bool) (group_ndims : nat).
(** Implicit._sample, special.py:155-159: an int other than 1 is rejected; a Tensor is
    never equal to 1 for Python (equality of Tensors is identity in TensorFlow 1). *)
Definition implicit_draw (n : Z) : answer (tensor V) :=
  if Z.eqb n 1 then Answer (Tensor (1%nat :: t_shape samples) (fun i => t_at samples (tl i))) else ValueError.
(** Implicit.sample: base.py:236-263 around _sample. *)
Definition implicit_sample (n : n_samples) : answer (tensor V) :=
  match n with
  | NoSamples => match implicit_draw 1 with Answer t => of_op (squeeze0 t) | ValueError => ValueError | OpError => OpError end
  | IntSamples k => implicit_draw k
  | TensorSamples _ => ValueError
  end.
(** One element of _prob, special.py:164-171. *)
Definition implicit_prob1 (given sample : V) : ext :=
  let prob := if eqb given sample then Fi 1 else Fi 0 in
  if continuous then emul (esub (emul (Fi 2) prob) (Fi 1)) PInf else prob.
(** Implicit.prob: base.py:306-320 around _prob. *)
Definition implicit_prob (given : tensor V) : answer (tensor ext) :=
  match elementwise implicit_prob1 given samples with
  | Some p => of_op (reduce_last emul (Fi 1) group_ndims p)
  | None => OpError
  end.
(** Implicit.log_prob: base.py:290-304 around _log_prob, special.py:161-162, which
    calls the public [prob]. *)
Definition implicit_log_prob (given : tensor V) : answer (tensor ext) :=
  match implicit_prob given with
  | Answer p => of_op (reduce_last eadd (Fi 0) group_ndims (Tensor (t_shape p) (fun i => elog (t_at p i))))
  | ValueError => ValueError
  | OpError => OpError
  end.
End Implicit.
