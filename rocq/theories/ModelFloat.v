(** zhusuan/utils.py log_sum_exp and log_mean_exp, and the acceptance rate of hmc.py, in
    floating-point arithmetic: the operations of ModelExt.v followed by rounding to
    nearest, ties to even, with gradual underflow and overflow to the infinities. The
    format has [prec] bits and numbers below 2 ^ [top] (24 and 128 for tf.float32, 53 and
    1024 for tf.float64). Not modelled: signed zeros; flushing of subnormal numbers;
    fused or extended-precision arithmetic. *)
From Coq Require Import List Bool Reals ZArith.
From Flocq Require Import Core.
From Verif Require Import ModelExt.
Import ListNotations.
Local Open Scope R_scope.

Section Format.
Variables prec top : Z.
Definition fexpo : Z -> Z := FLT_exp (3 - top - prec) prec.
Definition is_float (x : R) : Prop := generic_format radix2 fexpo x /\ Rabs x < bpow radix2 top.
Definition nearest (x : R) : R := round radix2 fexpo ZnearestE x.
Definition overflow (y : R) : ext :=
  if Rlt_dec (Rabs y) (bpow radix2 top) then Fi y else if Rlt_dec 0 y then PInf else MInf.
Definition rounded (a : ext) : ext := match a with Fi x => overflow (nearest x) | _ => a end.
(** tf.add, tf.subtract, and the division of a mean by the number of entries. *)
Definition fadd (a b : ext) : ext := rounded (eadd a b).
Definition fsub (a b : ext) : ext := rounded (esub a b).
Definition fdivn (a : ext) (n : nat) : ext := rounded (ediv a (INR n)).

(** tf.exp and tf.log of finite numbers. *)
Variables libexp liblog : R -> R.
Definition feexp (a : ext) : ext :=
  match a with Fi x => overflow (libexp x) | PInf => PInf | MInf => Fi 0 | NaN => NaN end.
Definition felog (a : ext) : ext :=
  match a with
  | Fi x => if Rlt_dec 0 x then overflow (liblog x) else if Req_EM_T x 0 then MInf else NaN
  | PInf => PInf
  | MInf | NaN => NaN
  end.

(** tf.reduce_sum adds the entries in an order and grouping of its own: [Entry i] is the
    i-th entry, [Zero] an accumulator not yet used. *)
Inductive plan := Zero | Entry (i : nat) | Plus (a b : plan).
Fixpoint fsum (p : plan) (l : list ext) : ext :=
  match p with
  | Zero => Fi 0
  | Entry i => nth i l NaN
  | Plus a b => fadd (fsum a l) (fsum b l)
  end.

(** log_sum_exp, utils.py:153-174, and log_mean_exp, 177-196; [p] is the plan of the
    reduction, [p1] of the one over the remaining axes of extent 1. tf.reduce_max does
    not round. *)
Definition fshifted (l : list ext) : list ext := map (fun x => fsub x (reduce_max l)) l.
Definition flog_sum_exp (p p1 : plan) (keepdims : bool) (l : list ext) : ext :=
  let ret := fadd (felog (fsum p (map feexp (fshifted l)))) (reduce_max l) in
  if keepdims then ret else fsum p1 [ret].
Definition flog_mean_exp (p p1 : plan) (keepdims : bool) (l : list ext) : ext :=
  let ret := fadd (felog (fdivn (fsum p (map feexp (fshifted l))) (length l))) (reduce_max l) in
  if keepdims then ret else fdivn (fsum p1 [ret]) 1.

(** The acceptance rate, hmc.py:55-61, from the Hamiltonians. *)
Definition facceptance (old_h new_h new_log_prob : ext) : ext :=
  let acceptance_rate := feexp (emin (fadd (eneg new_h) old_h) (Fi 0)) in
  if is_finite acceptance_rate && is_finite new_log_prob then acceptance_rate else Fi 0.
End Format.
