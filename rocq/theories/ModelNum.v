(** The density methods of zhusuan/distributions on every float: finite numbers, the
    two infinities and NaN, with the check_numerics switch. Numbers are those of
    ModelExt.v (exact reals plus the non-finite values; no rounding, overflow or signed
    zeros). The real-number model of the same methods, used for finite arguments inside
    the support, is ModelDist.v. *)
From Coq Require Import List Reals ZArith.
From Verif Require Import ModelExt ModelSpecial.
Import ListNotations.
Local Open Scope R_scope.

(** ** TensorFlow scalars *)
(** Division; a zero divisor counts as +0. *)
Definition ediv2 (a b : ext) : ext :=
  match b with
  | Fi y => ediv a y
  | PInf | MInf => match a with Fi _ => Fi 0 | _ => NaN end
  | NaN => NaN
  end.
Definition eabs (a : ext) : ext :=
  match a with Fi x => Fi (Rabs x) | PInf | MInf => PInf | NaN => NaN end.
(** tf.nn.softplus *)
Definition esoftplus (a : ext) : ext :=
  match a with Fi x => Fi (ln (1 + exp x)) | PInf => PInf | MInf => Fi 0 | NaN => NaN end.
(** tf.less_equal, tf.less: false if an operand is NaN. *)
Definition eleb (a b : ext) : bool :=
  match a, b with
  | NaN, _ | _, NaN => false
  | MInf, _ | _, PInf => true
  | PInf, _ | _, MInf => false
  | Fi x, Fi y => if Rle_dec x y then true else false
  end.
Definition eltb (a b : ext) : bool :=
  match a, b with
  | NaN, _ | _, NaN => false
  | MInf, MInf | PInf, _ | _, MInf => false
  | MInf, _ | _, PInf => true
  | Fi x, Fi y => if Rlt_dec x y then true else false
  end.
(** 0, -1, -2, ...: the poles of the Gamma function. *)
Definition at_pole (x : R) : bool :=
  if Rle_dec x 0 then if Req_EM_T (IZR (Int_part x)) x then true else false else false.

(** What a run of the graph gives: a value, or the InvalidArgumentError of
    tf.check_numerics. *)
Inductive run (A : Type) := Returns (a : A) | Invalid.
Arguments Returns {A}. Arguments Invalid {A}.
Definition bind {A B} (a : run A) (f : A -> run B) : run B :=
  match a with Returns v => f v | Invalid => Invalid end.
Local Notation "'let!' x := a 'in' b" := (bind a (fun x => b)) (at level 200, x name, b at level 200).
(** [if check: a = tf.check_numerics(a, ...)]. *)
Definition checked (check : bool) (a : ext) : run ext :=
  if check then if is_finite a then Returns a else Invalid else Returns a.
Fixpoint checked_all (check : bool) (l : list ext) : run (list ext) :=
  match l with
  | [] => Returns []
  | a :: l => let! a := checked check a in let! l := checked_all check l in Returns (a :: l)
  end.

Section Lgamma.
(** tf.lgamma where it is finite. *)
Variable lgamma : R -> R.
(** tf.lgamma: +inf at the poles and at both infinities. *)
Definition elgamma (a : ext) : ext :=
  match a with Fi x => if at_pole x then PInf else Fi (lgamma x) | PInf | MInf => PInf | NaN => NaN end.

(** ** Univariate distributions, one batch entry. The Normal and FoldNormal know which of
    std and logstd they were built from. *)
Inductive deviation := Std (std : ext) | Logstd (logstd : ext).
Inductive univariate :=
| Normal (mean : ext) (d : deviation) | FoldNormal (mean : ext) (d : deviation)
| Bernoulli (logits : ext) | Uniform (minval maxval : ext)
| Gamma (alpha beta : ext) | Beta (alpha beta : ext) | Poisson (rate : ext)
| Binomial (logits : ext) (n_experiments : Z) | InverseGamma (alpha beta : ext)
| Laplace (loc scale : ext) | BinConcrete (temperature logits : ext).

(** The attributes _std and _logstd, univariate.py:91-111, 235-256: only the derived one
    is checked. *)
Definition the_std (check : bool) (d : deviation) : run ext :=
  match d with Std s => Returns s | Logstd l => checked check (eexp l) end.
Definition the_logstd (check : bool) (d : deviation) : run ext :=
  match d with Std s => checked check (elog s) | Logstd l => Returns l end.

(** Normal._sample and FoldNormal._sample, 161-172, 306-317, from the standard normal
    draw [z]. *)
Definition normal_draw (check : bool) (mean : ext) (d : deviation) (z : R) : run ext :=
  let! std := the_std check d in Returns (eadd (emul (Fi z) std) mean).

(** Uniform._prob, 652-659. *)
Definition uniform_p (check : bool) (minval maxval given : ext) : run ext :=
  let mask := if andb (eleb minval given) (eltb given maxval) then Fi 1 else Fi 0 in
  let! p := checked check (ediv2 (Fi 1) (esub maxval minval)) in
  Returns (emul p mask).

(** The _log_prob methods. *)
Definition log_p (check : bool) (d : univariate) (given : ext) : run ext :=
  match d with
  | Normal mean dev => (* 174-181 *)
    let! logstd := the_logstd check dev in
    let! precision := checked check (eexp (emul (Fi (-2)) logstd)) in
    Returns (esub (esub (Fi (- (1/2) * ln (2 * PI))) logstd)
               (emul (emul (Fi (1/2)) precision) (emul (esub given mean) (esub given mean))))
  | FoldNormal mean dev => (* 319-328 *)
    let! logstd := the_logstd check dev in
    let! precision := checked check (eexp (emul (Fi (-2)) logstd)) in
    let mask := elog (if eleb (Fi 0) given then Fi 1 else Fi 0) in
    Returns (eadd (eadd (esub (Fi (- (1/2) * (ln 2 + ln PI)))
                           (eadd logstd (emul (emul (Fi (1/2)) precision) (emul (esub given mean) (esub given mean)))))
                        (esoftplus (emul (emul (emul (Fi (-2)) mean) given) precision)))
                  mask)
  | Bernoulli logits => (* 398-403; sigmoid_cross_entropy_with_logits *)
    Returns (eneg (eadd (esub (emax logits (Fi 0)) (emul logits given)) (elog (eadd (Fi 1) (eexp (eneg (eabs logits)))))))
  | Uniform minval maxval => (* 646-650 *)
    let! p := uniform_p check minval maxval given in checked check (elog p)
  | Gamma alpha beta => (* 737-747 *)
    let! log_given := checked check (elog given) in
    let! log_beta := checked check (elog beta) in
    let! lgamma_alpha := checked check (elgamma alpha) in
    Returns (esub (eadd (esub (emul alpha log_beta) lgamma_alpha) (emul (esub alpha (Fi 1)) log_given)) (emul beta given))
  | Beta alpha beta => (* 833-851 *)
    let! log_given := checked check (elog given) in
    let! log_1_minus_given := checked check (elog (esub (Fi 1) given)) in
    let! lgamma_alpha := checked check (elgamma alpha) in
    let! lgamma_beta := checked check (elgamma beta) in
    let! lgamma_alpha_plus_beta := checked check (elgamma (eadd alpha beta)) in
    Returns (esub (eadd (emul (esub alpha (Fi 1)) log_given) (emul (esub beta (Fi 1)) log_1_minus_given))
               (esub (eadd lgamma_alpha lgamma_beta) lgamma_alpha_plus_beta))
  | Poisson rate => (* 922-933 *)
    let! log_rate := checked check (elog rate) in
    let! lgamma_given_plus_1 := checked check (elgamma (eadd given (Fi 1))) in
    Returns (esub (esub (emul given log_rate) rate) lgamma_given_plus_1)
  | Binomial logits n => (* 1047-1064 *)
    let n := Fi (IZR n) in
    let log_1_minus_p := eneg (esoftplus logits) in
    let lgamma_n_plus_1 := elgamma (eadd n (Fi 1)) in
    let! lgamma_given_plus_1 := checked check (elgamma (eadd given (Fi 1))) in
    let! lgamma_n_minus_given_plus_1 := checked check (elgamma (eadd (esub n given) (Fi 1))) in
    Returns (eadd (eadd (esub (esub lgamma_n_plus_1 lgamma_n_minus_given_plus_1) lgamma_given_plus_1)
                        (emul given logits)) (emul n log_1_minus_p))
  | InverseGamma alpha beta => (* 1146-1158 *)
    let! log_given := checked check (elog given) in
    let! log_beta := checked check (elog beta) in
    let! lgamma_alpha := checked check (elgamma alpha) in
    Returns (esub (esub (esub (emul alpha log_beta) lgamma_alpha) (emul (eadd alpha (Fi 1)) log_given)) (ediv2 beta given))
  | Laplace loc scale => (* 1267-1273 *)
    let! log_scale := checked check (elog scale) in
    Returns (esub (esub (Fi (- ln 2)) log_scale) (ediv2 (eabs (esub given loc)) scale))
  | BinConcrete temperature logits => (* 1381-1399 *)
    let! log_given := checked check (elog given) in
    let! log_1_minus_given := checked check (elog (esub (Fi 1) given)) in
    let! log_temperature := checked check (elog temperature) in
    let logistic_given := esub log_given log_1_minus_given in
    let temp := esub (emul temperature logistic_given) logits in
    Returns (esub (eadd (esub (esub log_temperature log_given) log_1_minus_given) temp) (emul (Fi 2) (esoftplus temp)))
  end.
(** The _prob methods: tf.exp of _log_prob, except Uniform's. *)
Definition p (check : bool) (d : univariate) (given : ext) : run ext :=
  match d with
  | Uniform minval maxval => uniform_p check minval maxval given
  | _ => let! l := log_p check d given in Returns (eexp l)
  end.
(** log_prob of a whole tensor, base.py:290-304 with group_ndims = 0: [cells] are the
    entries after broadcasting. tf.check_numerics fails if any entry of its argument is
    not finite. *)
Fixpoint log_probs (check : bool) (cells : list (univariate * ext)) : run (list ext) :=
  match cells with
  | [] => Returns []
  | (d, given) :: cells =>
    let! l := log_p check d given in let! ls := log_probs check cells in Returns (l :: ls)
  end.

(** ** Multivariate distributions, one batch entry *)
(** tf.reduce_logsumexp: shifted by the maximum unless that is not finite. *)
Definition elogsumexp (l : list ext) : ext :=
  let m := if is_finite (reduce_max l) then reduce_max l else Fi 0 in
  eadd (elog (reduce_sum (map (fun x => eexp (esub x m)) l))) m.
(** tf.matrix_triangular_solve(L, y, lower=True): forward substitution, row by row. *)
Definition edot_row (l : list ext) (xs : list (list ext)) (y : list ext) : list ext :=
  fold_left (fun acc p => map (fun q => esub (fst q) (emul (fst p) (snd q))) (combine acc (snd p))) (combine l xs) y.
Fixpoint esolve_from (xs : list (list ext)) (L Y : list (list ext)) : list (list ext) :=
  match L, Y with
  | l :: L, y :: Y =>
    let x := map (fun v => ediv2 v (nth (length xs) l NaN)) (edot_row l xs y) in
    esolve_from (xs ++ [x]) L Y
  | _, _ => xs
  end.
Definition esolve := esolve_from [].
(** tf.matrix_transpose of a matrix with [n] columns. *)
Definition etranspose (n : nat) (M : list (list ext)) : list (list ext) :=
  map (fun j => map (fun r => nth j r NaN) M) (seq 0 n).
(** tf.matrix_diag_part *)
Definition ediag (M : list (list ext)) : list ext := map (fun i => nth i (nth i M []) NaN) (seq 0 (length M)).
Definition sum_squares (M : list (list ext)) : ext := reduce_sum (map (fun r => reduce_sum (map (fun x => emul x x) r)) M).

(** Dirichlet._log_prob, multivariate.py:665-677; tf.lbeta. *)
Definition dirichlet_log_p (check : bool) (alpha given : list ext) : run ext :=
  let! lbeta_alpha := checked check (esub (reduce_sum (map elgamma alpha)) (elgamma (reduce_sum alpha))) in
  let! log_given := checked_all check (map elog given) in
  Returns (eadd (eneg lbeta_alpha) (reduce_sum (map (fun q => emul (esub (fst q) (Fi 1)) (snd q)) (combine alpha log_given)))).
(** ExpConcrete._log_prob, 797-811. *)
Definition exp_concrete_log_p (check : bool) (temperature : ext) (logits given : list ext) : run ext :=
  let n := Fi (INR (length logits)) in
  let! log_temperature := checked check (elog temperature) in
  let temp := map (fun q => esub (fst q) (emul temperature (snd q))) (combine logits given) in
  Returns (esub (eadd (eadd (elgamma n) (emul (esub n (Fi 1)) log_temperature)) (reduce_sum temp)) (emul n (elogsumexp temp))).
(** Concrete._log_prob, 936-952. *)
Definition concrete_log_p (check : bool) (temperature : ext) (logits given : list ext) : run ext :=
  let n := Fi (INR (length logits)) in
  let! log_given := checked_all check (map elog given) in
  let! log_temperature := checked check (elog temperature) in
  let temp := map (fun q => esub (fst q) (emul temperature (snd q))) (combine logits log_given) in
  Returns (esub (eadd (eadd (elgamma n) (emul (esub n (Fi 1)) log_temperature))
                      (reduce_sum (map (fun q => esub (fst q) (snd q)) (combine temp log_given))))
                (emul n (elogsumexp temp))).
(** Multinomial._log_prob, 320-333, with log_combination, utils.py:19-33. No
    check_numerics switch. *)
Definition multinomial_log_p (normalize : bool) (n_experiments : option Z) (logits given : list ext) : ext :=
  let logits := if normalize then map (fun l => esub l (elogsumexp logits)) logits else logits in
  let n := match n_experiments with Some n => Fi (IZR n) | None => reduce_sum given end in
  eadd (esub (elgamma (eadd n (Fi 1))) (reduce_sum (map (fun k => elgamma (eadd k (Fi 1))) given)))
       (reduce_sum (map (fun q => emul (fst q) (snd q)) (combine given logits))).
(** MultivariateNormalCholesky._log_prob, 169-189. *)
Definition mvn_log_p (check : bool) (mean : list ext) (cov_tril : list (list ext)) (given : list ext) : run ext :=
  let log_det := emul (Fi 2) (reduce_sum (map elog (ediag cov_tril))) in
  let n_dim := INR (length cov_tril) in
  let! log_z := checked check (esub (Fi (- n_dim / 2 * ln (2 * PI))) (ediv log_det 2)) in
  let y := map (fun q => [esub (fst q) (snd q)]) (combine given mean) in
  Returns (eadd log_z (emul (Fi (-1/2)) (sum_squares (esolve cov_tril y)))).
(** MatrixVariateNormalCholesky._log_prob, 1124-1157. *)
Definition matrix_log_p (check : bool) (mean u_tril v_tril given : list (list ext)) : run ext :=
  let log_det_u := emul (Fi 2) (reduce_sum (map elog (ediag u_tril))) in
  let log_det_v := emul (Fi 2) (reduce_sum (map elog (ediag v_tril))) in
  let n_row := INR (length u_tril) in
  let n_col := INR (length v_tril) in
  let! logZ := checked check (esub (esub (Fi (- (n_row * n_col) / 2 * ln (2 * PI))) (emul (Fi (n_row / 2)) log_det_v)) (emul (Fi (n_col / 2)) log_det_u)) in
  let y := map (fun q => map (fun q => esub (fst q) (snd q)) (combine (fst q) (snd q))) (combine given mean) in
  let x := esolve v_tril (etranspose (length v_tril) (esolve u_tril y)) in
  Returns (eadd logZ (emul (Fi (-1/2)) (sum_squares x))).
End Lgamma.
