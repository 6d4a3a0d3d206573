(** The importance weighted estimators in floating-point arithmetic: one position of the
    batch, a list along the sample axis. Formats, operations and plans of reductions are
    those of ModelFloat.v and ModelFloatSample.v. *)
From Coq Require Import List Arith Bool Reals ZArith.
From Flocq Require Import Core.
From Verif Require Import ModelExt ModelSpecial ModelFloat ModelFloatSample.
Import ListNotations.
Local Open Scope R_scope.

Section Format.
Variables prec top : Z.
Variables libexp liblog : R -> R.
Notation fadd := (fadd prec top).
Notation fsub := (fsub prec top).
Notation fmul := (fmul prec top).
Notation fdiv := (fdiv prec top).
Notation fdivn := (fdivn prec top).
Notation fsum := (fsum prec top).

(** log_w = self._log_joint_term() + self._entropy_term(), monte_carlo.py:186,
    inclusive_kl.py:137 *)
Definition flog_w (log_joint entropy : list ext) : list ext :=
  map (fun q => fadd (fst q) (snd q)) (combine log_joint entropy).

(** InclusiveKLObjective.importance with an axis, inclusive_kl.py:138-144; [p] and [pc] are
    the plans of the two sums. *)
Definition fw_tilde (p : plan) (log_w : list ext) : list ext :=
  let log_w_max := reduce_max log_w in
  let w_u := map (fun x => feexp top libexp (fsub x log_w_max)) log_w in
  map (fun x => fdiv x (fsum p w_u)) w_u.
Definition fimportance (p pc : plan) (log_joint entropy : list ext) : ext :=
  fsum pc (map (fun q => fmul (fst q) (snd q)) (combine (fw_tilde p (flog_w log_joint entropy)) entropy)).

(** ImportanceWeightedObjective.vimco, monte_carlo.py:166-227 (at least two samples: the
    size is checked). [p] is the plan of the sum of the signal, [p2 k] of the control
    variate of sample k, [pm], [pm'] of the two log_mean_exp of the weights, [p1] of the
    reductions over an axis of extent 1, [pf] of the sum of the fake term. *)
Definition fmean_except (p : plan) (l : list ext) (k : nat) : ext :=
  fdivn (fsub (fsum p l) (nth k l NaN)) (length l - 1).
(** x_ex - tf.matrix_diag(x) + tf.matrix_diag(sub_x): column [k] *)
Definition fx_ex (p : plan) (l : list ext) (k : nat) : list ext :=
  map (fun j => fadd (fsub (nth j l NaN) (if j =? k then nth k l NaN else Fi 0)) (if j =? k then fmean_except p l k else Fi 0))
      (seq 0 (length l)).
Definition fcontrol_variate (p : plan) (p2 : nat -> plan) (p1 : plan) (l : list ext) (k : nat) : ext :=
  flog_mean_exp prec top libexp liblog (p2 k) p1 false (fx_ex p l k).
Definition fsignal (p : plan) (p2 : nat -> plan) (p1 pm : plan) (l : list ext) (k : nat) : ext :=
  fsub (flog_mean_exp prec top libexp liblog pm p1 true l) (fcontrol_variate p p2 p1 l k).
Definition ffake_term (p : plan) (p2 : nat -> plan) (p1 pm pf : plan) (l entropy : list ext) : ext :=
  fsum pf (map (fun k => fmul (eneg (nth k entropy NaN)) (fsignal p p2 p1 pm l k)) (seq 0 (length l))).
Definition fvimco (p : plan) (p2 : nat -> plan) (p1 pm pm' pf : plan) (log_joint entropy : list ext) : ext :=
  let log_w := flog_w log_joint entropy in
  fsub (eneg (ffake_term p p2 p1 pm pf log_w entropy)) (flog_mean_exp prec top libexp liblog pm' p1 false log_w).
End Format.
