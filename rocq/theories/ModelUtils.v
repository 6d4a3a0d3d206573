(** zhusuan/utils.py: log_sum_exp and log_mean_exp. A list is the entries that one
    output element reduces, whichever axes are given. *)
From Coq Require Import List Reals.
From Verif Require Import ModelExt.
Import ListNotations.
Local Open Scope R_scope.

(** x - x_max, utils.py:169, 191. *)
Definition shifted (l : list ext) : list ext := map (fun x => esub x (reduce_max l)) l.
(** The argument of tf.log in each. *)
Definition lse_arg (l : list ext) : ext := reduce_sum (map eexp (shifted l)).
Definition lme_arg (l : list ext) : ext := reduce_mean (map eexp (shifted l)).
(** log_sum_exp, utils.py:153-174; the last reduction is over an axis of extent 1. *)
Definition log_sum_exp (keepdims : bool) (l : list ext) : ext :=
  let ret := eadd (elog (lse_arg l)) (reduce_max l) in
  if keepdims then ret else reduce_sum [ret].
(** log_mean_exp, utils.py:177-196. *)
Definition log_mean_exp (keepdims : bool) (l : list ext) : ext :=
  let ret := eadd (elog (lme_arg l)) (reduce_max l) in
  if keepdims then ret else reduce_mean [ret].
