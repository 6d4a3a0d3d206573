(** zhusuan/evaluation.py: annealed importance sampling in floating-point arithmetic. The
    schedule is computed by Python and NumPy in a host format (53 bits, float64), the
    densities and weights are in the format of the device (24 bits, float32). Formats,
    operations and plans of reductions are those of ModelFloat.v and ModelFloatSample.v.
    The transitions appear through the log densities they report. *)
From Coq Require Import List Arith Bool Reals ZArith.
From Flocq Require Import Core.
From Verif Require Import ModelExt ModelSpecial ModelFloat ModelFloatSample.
Import ListNotations.
Local Open Scope R_scope.

Section Host.
Variables hprec htop : Z.
Variable libexp : R -> R.
Notation fadd := (fadd hprec htop).
Notation fsub := (fsub hprec htop).
Notation fmul := (fmul hprec htop).
Notation fdiv := (fdiv hprec htop).

(** _map_t, evaluation.py:112-113: [t] and [n] are ints, their quotient is the float nearest
    to the exact one. *)
Definition fmap_t (n t : nat) : ext :=
  fdiv (Fi 1) (fadd (Fi 1) (feexp htop libexp (fmul (Fi (-4)) (fsub (fdivn hprec htop (Fi (2 * INR t)) n) (Fi 1))))).
(** _get_schedule_t, evaluation.py:115-117 *)
Definition fschedule_t (n t : nat) : ext :=
  fdiv (fsub (fmap_t n t) (fmap_t n 0)) (fsub (fmap_t n n) (fmap_t n 0)).
End Host.

Section Device.
Variables prec top : Z.
Variables libexp liblog : R -> R.
Notation fadd := (fadd prec top).
Notation fsub := (fsub prec top).
Notation fmul := (fmul prec top).

(** The value fed to the float32 placeholder, evaluation.py:98-99, 149-153. *)
Definition fed (temperature : ext) : ext := rounded prec top temperature.
(** log_fn, evaluation.py:101-103 *)
Definition flog_fn (log_prior log_joint temperature : ext) : ext :=
  fadd (fmul log_prior (fsub (Fi 1) temperature)) (fmul log_joint temperature).
(** The log weight of one chain, evaluation.py:141-158: [prior_density], then the pairs of
    old_log_p and new_log_p of the transitions. *)
Fixpoint fanneal (log_weight : ext) (steps : list (ext * ext)) : ext :=
  match steps with
  | [] => log_weight
  | [(old_log_p, _)] => fadd log_weight old_log_p
  | (old_log_p, new_log_p) :: steps => fanneal (fadd log_weight (fsub old_log_p new_log_p)) steps
  end.
Definition flog_weight (prior_density : ext) (steps : list (ext * ext)) : ext := fanneal (eneg prior_density) steps.
(** _get_lower_bound, evaluation.py:167-172, for one value of the data axes, and the mean
    over these, line 165. *)
Definition flower_bound (p : plan) (log_weights : list ext) : ext :=
  let max_log_weights := reduce_max log_weights in
  let offset_log_weights :=
    fdivn prec top (fsum prec top p (map (fun w => feexp top libexp (fsub w max_log_weights)) log_weights)) (length log_weights) in
  fadd (felog top liblog offset_log_weights) max_log_weights.
Definition festimate (p pd : plan) (data : list (list ext)) : ext :=
  fdivn prec top (fsum prec top pd (map (flower_bound p) data)) (length data).
End Device.
