(** Idealised floating-point numbers: exact reals extended with the two infinities
    and NaN, following the IEEE 754 rules for non-finite operands. Rounding,
    overflow of finite results, signed zeros and underflow are not modelled. *)
From Coq Require Import List Reals.
Import ListNotations.
Local Open Scope R_scope.

Inductive ext := Fi (r : R) | PInf | MInf | NaN.

Definition eneg (a : ext) : ext :=
  match a with Fi x => Fi (- x) | PInf => MInf | MInf => PInf | NaN => NaN end.
Definition eadd (a b : ext) : ext :=
  match a, b with
  | NaN, _ | _, NaN => NaN
  | Fi x, Fi y => Fi (x + y)
  | PInf, MInf | MInf, PInf => NaN
  | PInf, _ | _, PInf => PInf
  | MInf, _ | _, MInf => MInf
  end.
Definition esub (a b : ext) : ext := eadd a (eneg b).
(** tf.exp *)
Definition eexp (a : ext) : ext :=
  match a with Fi x => Fi (exp x) | PInf => PInf | MInf => Fi 0 | NaN => NaN end.
(** tf.log: log 0 = -inf, log of a negative number is NaN. *)
Definition elog (a : ext) : ext :=
  match a with
  | Fi x => if Rlt_dec 0 x then Fi (ln x) else if Req_EM_T x 0 then MInf else NaN
  | PInf => PInf
  | MInf | NaN => NaN
  end.
(** tf.maximum, tf.minimum: NaN propagates. *)
Definition emax (a b : ext) : ext :=
  match a, b with
  | NaN, _ | _, NaN => NaN
  | PInf, _ | _, PInf => PInf
  | MInf, y => y
  | x, MInf => x
  | Fi x, Fi y => Fi (Rmax x y)
  end.
Definition emin (a b : ext) : ext :=
  match a, b with
  | NaN, _ | _, NaN => NaN
  | MInf, _ | _, MInf => MInf
  | PInf, y => y
  | x, PInf => x
  | Fi x, Fi y => Fi (Rmin x y)
  end.
(** Division by a finite nonzero number is all that is used; 0/0 and inf/0 follow
    IEEE for a positive zero. *)
Definition ediv (a : ext) (y : R) : ext :=
  match a with
  | Fi x => if Req_EM_T y 0 then (if Rlt_dec 0 x then PInf else if Rlt_dec x 0 then MInf else NaN)
            else Fi (x / y)
  | PInf => if Rlt_dec y 0 then MInf else PInf
  | MInf => if Rlt_dec y 0 then PInf else MInf
  | NaN => NaN
  end.
(** tf.is_finite *)
Definition is_finite (a : ext) : bool := match a with Fi _ => true | _ => false end.

(** tf.reduce_max, tf.reduce_sum, tf.reduce_mean over the entries of one slice. *)
Definition reduce_max (l : list ext) : ext := fold_right emax MInf l.
Definition reduce_sum (l : list ext) : ext := fold_right eadd (Fi 0) l.
Definition reduce_mean (l : list ext) : ext := ediv (reduce_sum l) (INR (length l)).
