(** The densities, mass functions and samplers of zhusuan/distributions, over the
    real numbers. [lgamma] (tf.lgamma) is a parameter; what is assumed of it is
    stated in each theorem that needs it. Floating-point rounding, dtype casts and
    check_numerics are not modelled; tf.stop_gradient and path_param do not change
    values and are dropped. *)
From Coq Require Import List Reals.
From Verif Require Import ModelShape ModelTensor.
Import ListNotations.
Local Open Scope R_scope.

(** ** Scalar helpers *)
Definition sumR (l : list R) : R := fold_right Rplus 0 l.
(** tf.nn.softplus, tf.sigmoid *)
Definition softplus (x : R) : R := ln (1 + exp x).
Definition sigmoid (x : R) : R := 1 / (1 + exp (- x)).
(** tf.reduce_logsumexp; computed by TensorFlow with a shift by the maximum (see
    ModelUtils.v for the shifted form). *)
Definition logsumexp (l : list R) : R := ln (sumR (map exp l)).
Definition square (x : R) : R := x * x.

(** Value of a log-density that may be minus infinity. *)
Inductive logp := Fin (r : R) | NegInf.
Definition expp (l : logp) : R := match l with Fin r => exp r | NegInf => 0 end.

(** ** Univariate log densities, univariate.py *)

(** Normal.__init__, 79-119: (std, logstd) from exactly one of them. *)
Definition std_logstd (std logstd : option R) : option (R * R) :=
  match std, logstd with
  | Some s, None => Some (s, ln s)
  | None, Some l => Some (exp l, l)
  | _, _ => None
  end.

(** Normal._log_prob, 174-181. *)
Definition normal_lp (x mean logstd : R) : R :=
  - (1/2) * ln (2 * PI) - logstd - 1/2 * exp (-2 * logstd) * square (x - mean).
(** Normal._sample, 161-172: from one standard normal draw [z]. *)
Definition normal_sample (z mean std : R) : R := z * std + mean.

(** FoldNormal._log_prob, 319-328; log of the 0/1 mask is 0 or -inf. *)
Definition foldnormal_lp (x mean logstd : R) : logp :=
  if Rle_dec 0 x then
    Fin (- (1/2) * (ln 2 + ln PI)
         - (logstd + 1/2 * exp (-2 * logstd) * square (x - mean))
         + softplus (-2 * mean * x * exp (-2 * logstd)))
  else NegInf.
(** FoldNormal._sample, 306-317: no absolute value is taken. *)
Definition foldnormal_sample (z mean std : R) : R := z * std + mean.

(** A constructed Normal / FoldNormal: its sampler from one standard normal draw and
    its log density; [None] is the ValueError of __init__ (univariate.py:79-119,
    224-264). *)
Definition normal_new (mean : R) (std logstd : option R) : option ((R -> R) * (R -> R)) :=
  option_map (fun p => (fun z => normal_sample z mean (fst p), fun x => normal_lp x mean (snd p)))
             (std_logstd std logstd).
Definition foldnormal_new (mean : R) (std logstd : option R) : option ((R -> R) * (R -> logp)) :=
  option_map (fun p => (fun z => foldnormal_sample z mean (fst p), fun x => foldnormal_lp x mean (snd p)))
             (std_logstd std logstd).

(** tf.nn.sigmoid_cross_entropy_with_logits(labels=z, logits=x) =
    max(x,0) - x*z + log(1+exp(-|x|)). Bernoulli._log_prob, 398-403. *)
Definition sigmoid_cross_entropy (z x : R) : R :=
  Rmax x 0 - x * z + ln (1 + exp (- Rabs x)).
Definition bernoulli_lp (x logits : R) : R := - sigmoid_cross_entropy x logits.
(** Bernoulli._sample, 386-396: [u] uniform in [0,1). *)
Definition bernoulli_sample (u logits : R) : R :=
  if Rlt_dec u (sigmoid logits) then 1 else 0.

(** Categorical._log_prob, 496-548: minus tf.nn.sparse_softmax_cross_entropy; a
    label outside the range yields NaN or an error, [None] here. *)
Definition categorical_lp (k : nat) (logits : list R) : option R :=
  match nth_error logits k with
  | Some l => Some (l - logsumexp logits)
  | None => None
  end.

(** Uniform._prob, 652-659, and Uniform._log_prob, 646-650 (log 0 = -inf). *)
Definition uniform_prob (x minval maxval : R) : R :=
  1 / (maxval - minval) *
  (if Rle_dec minval x then if Rlt_dec x maxval then 1 else 0 else 0).
Definition uniform_lp (x minval maxval : R) : logp :=
  if Req_EM_T (uniform_prob x minval maxval) 0 then NegInf else Fin (ln (uniform_prob x minval maxval)).
(** Uniform._sample, 632-644. *)
Definition uniform_sample (u minval maxval : R) : R := u * (maxval - minval) + minval.

Section Lgamma.
Variable lgamma : R -> R.

(** Gamma._log_prob, 737-747. *)
Definition gamma_lp (x alpha beta : R) : R :=
  alpha * ln beta - lgamma alpha + (alpha - 1) * ln x - beta * x.
(** Beta._log_prob, 833-851. *)
Definition beta_lp (x alpha beta : R) : R :=
  (alpha - 1) * ln x + (beta - 1) * ln (1 - x)
  - (lgamma alpha + lgamma beta - lgamma (alpha + beta)).
(** Poisson._log_prob, 922-933. *)
Definition poisson_lp (x rate : R) : R := x * ln rate - rate - lgamma (x + 1).
(** Binomial._log_prob, 1047-1064. *)
Definition binomial_lp (x logits n : R) : R :=
  lgamma (n + 1) - lgamma (n - x + 1) - lgamma (x + 1) + x * logits + n * - softplus logits.
(** The pair [log_1_minus_p; log_p] that Binomial._sample hands to
    tf.random.categorical, 1031-1033. *)
Definition binomial_pair (logits : R) : list R := [- softplus logits; logits + - softplus logits].
(** InverseGamma._log_prob, 1146-1158. *)
Definition inverse_gamma_lp (x alpha beta : R) : R :=
  alpha * ln beta - lgamma alpha - (alpha + 1) * ln x - beta / x.
End Lgamma.

(** Beta._sample, 826-831: from two standard gamma draws. *)
Definition beta_sample (gx gy : R) : R := gx / (gx + gy).
(** InverseGamma._sample, 1141-1144. *)
Definition inverse_gamma_sample (g : R) : R := 1 / g.

(** Laplace._log_prob, 1267-1273. *)
Definition laplace_lp (x loc scale : R) : R := - ln 2 - ln scale - Rabs (x - loc) / scale.
(** tf.sign *)
Definition sign (u : R) : R := if Rlt_dec 0 u then 1 else if Rlt_dec u 0 then -1 else 0.
(** Laplace._sample, 1246-1265: [u] uniform in (-1,1); tf.log1p(y) = ln (1+y). *)
Definition laplace_sample (u loc scale : R) : R :=
  loc - scale * sign u * ln (1 + - Rabs u).

(** BinConcrete._log_prob, 1381-1399. *)
Definition bin_concrete_lp (x temperature logits : R) : R :=
  let temp := temperature * (ln x - ln (1 - x)) - logits in
  ln temperature - ln x - ln (1 - x) + temp - 2 * softplus temp.
(** BinConcrete._sample, 1363-1379: [u] uniform in (0,1). *)
Definition bin_concrete_sample (u temperature logits : R) : R :=
  sigmoid ((logits + (ln u - ln (1 - u))) / temperature).

(** ** Multivariate log densities, multivariate.py: one batch entry. *)
Definition dot (x y : list R) : R := sumR (map (fun p => fst p * snd p) (combine x y)).

Section Lgamma2.
Variable lgamma : R -> R.
(** log_combination, utils.py:19-33. *)
Definition log_combination (n : R) (ks : list R) : R :=
  lgamma (n + 1) - sumR (map (fun k => lgamma (k + 1)) ks).
(** Multinomial._log_prob, 320-333. *)
Definition normalized (b : bool) (logits : list R) : list R :=
  if b then map (fun l => l - logsumexp logits) logits else logits.
Definition multinomial_lp (normalize : bool) (n_experiments : option R) (given logits : list R) : R :=
  let n := match n_experiments with Some n => n | None => sumR given end in
  log_combination n given + dot given (normalized normalize logits).
(** Dirichlet._log_prob, 665-677; tf.lbeta(a) = sum lgamma(a_i) - lgamma(sum a). *)
Definition lbeta (alpha : list R) : R := sumR (map lgamma alpha) - lgamma (sumR alpha).
Definition dirichlet_lp (given alpha : list R) : R :=
  - lbeta alpha + sumR (map (fun p => (snd p - 1) * ln (fst p)) (combine given alpha)).
(** ExpConcrete._log_prob, 797-811. [n] is n_categories. *)
Definition exp_concrete_lp (given : list R) (temperature : R) (logits : list R) : R :=
  let n := INR (length logits) in
  let temp := map (fun p => snd p - temperature * fst p) (combine given logits) in
  lgamma n + (n - 1) * ln temperature + sumR temp - n * logsumexp temp.
(** Concrete._log_prob, 936-952. *)
Definition concrete_lp (given : list R) (temperature : R) (logits : list R) : R :=
  let n := INR (length logits) in
  let temp := map (fun p => snd p - temperature * ln (fst p)) (combine given logits) in
  lgamma n + (n - 1) * ln temperature
  + sumR (map (fun p => fst p - ln (snd p)) (combine temp given)) - n * logsumexp temp.
End Lgamma2.

(** UnnormalizedMultinomial._log_prob, 435-443. *)
Definition unnormalized_multinomial_lp (normalize : bool) (given logits : list R) : R :=
  dot given (normalized normalize logits).
(** OnehotCategorical._log_prob, 542-561:
    -tf.nn.softmax_cross_entropy_with_logits(labels, logits). *)
Definition onehot_lp (given logits : list R) : R :=
  - - dot given (map (fun l => l - logsumexp logits) logits).
(** Dirichlet._sample, 660-663: from independent standard gamma draws. *)
Definition dirichlet_sample (gs : list R) : list R := map (fun g => g / sumR gs) gs.
(** tf.nn.softmax, tf.nn.log_softmax of a row *)
Definition softmax (l : list R) : list R := map (fun x => exp x / sumR (map exp l)) l.
Definition log_softmax (l : list R) : list R := map (fun x => x - logsumexp l) l.
Definition gumbel (u : R) : R := - ln (- ln u).
(** Concrete._sample, 919-934, ExpConcrete._sample, 781-795. *)
Definition concrete_noisy (us : list R) (temperature : R) (logits : list R) : list R :=
  map (fun p => (snd p + gumbel (fst p)) / temperature) (combine us logits).
Definition concrete_sample us temperature logits := softmax (concrete_noisy us temperature logits).
Definition exp_concrete_sample us temperature logits := log_softmax (concrete_noisy us temperature logits).

(** ** Tensor programs: the same code on whole tensors, with broadcasting *)
Notation "a ⊕ b" := (Bin Rplus a b) (at level 50, left associativity).
Notation "a ⊖ b" := (Bin Rminus a b) (at level 50, left associativity).
Notation "a ⊗ b" := (Bin Rmult a b) (at level 40, left associativity).
Notation "a ⊘ b" := (Bin Rdiv a b) (at level 40, left associativity).

(** maybe_explicit_broadcast(a, b)[0] when the shapes differ (PropShape.v shows the
    other branches have the same effect). *)
Definition bcast (a b : expr R) : expr R := a ⊗ Un (fun _ => 1) b.

Definition p_normal (given mean logstd : expr R) : expr R :=
  Const (- (1/2) * ln (2 * PI)) ⊖ logstd
  ⊖ Const (1/2) ⊗ Un exp (Const (-2) ⊗ logstd) ⊗ Un square (given ⊖ mean).
Definition p_bernoulli (given logits : expr R) : expr R :=
  Un Ropp (Bin sigmoid_cross_entropy (bcast given logits) (bcast logits given)).
Definition p_uniform_prob (given minval maxval : expr R) : expr R :=
  (Const 1 ⊘ (maxval ⊖ minval)) ⊗
  Bin Rmult (Bin (fun a b => if Rle_dec a b then 1 else 0) minval given)
            (Bin (fun a b => if Rlt_dec a b then 1 else 0) given maxval).
Definition p_gamma lgamma (given alpha beta : expr R) : expr R :=
  alpha ⊗ Un ln beta ⊖ Un lgamma alpha ⊕ (alpha ⊖ Const 1) ⊗ Un ln given ⊖ beta ⊗ given.
Definition p_beta lgamma (given alpha beta : expr R) : expr R :=
  (alpha ⊖ Const 1) ⊗ Un ln given ⊕ (beta ⊖ Const 1) ⊗ Un ln (Const 1 ⊖ given)
  ⊖ (Un lgamma alpha ⊕ Un lgamma beta ⊖ Un lgamma (alpha ⊕ beta)).
Definition p_poisson lgamma (given rate : expr R) : expr R :=
  given ⊗ Un ln rate ⊖ rate ⊖ Un lgamma (given ⊕ Const 1).
Definition p_binomial lgamma (n : R) (given logits : expr R) : expr R :=
  Un lgamma (Const n ⊕ Const 1) ⊖ Un lgamma (Const n ⊖ given ⊕ Const 1)
  ⊖ Un lgamma (given ⊕ Const 1) ⊕ given ⊗ logits ⊕ Const n ⊗ Un Ropp (Un softplus logits).
Definition p_inverse_gamma lgamma (given alpha beta : expr R) : expr R :=
  alpha ⊗ Un ln beta ⊖ Un lgamma alpha ⊖ (alpha ⊕ Const 1) ⊗ Un ln given ⊖ beta ⊘ given.
Definition p_laplace (given loc scale : expr R) : expr R :=
  Const (- ln 2) ⊖ Un ln scale ⊖ Un Rabs (given ⊖ loc) ⊘ scale.
Definition p_bin_concrete (given temperature logits : expr R) : expr R :=
  let temp := temperature ⊗ (Un ln given ⊖ Un ln (Const 1 ⊖ given)) ⊖ logits in
  Un ln temperature ⊖ Un ln given ⊖ Un ln (Const 1 ⊖ given) ⊕ temp ⊖ Const 2 ⊗ Un softplus temp.

Definition p_lse (e : expr R) : expr R := Row logsumexp e.
Definition p_normalized (b : bool) (logits : expr R) : expr R :=
  if b then logits ⊖ RowKeep logsumexp logits else logits.
Definition p_multinomial lgamma (normalize : bool) (n_experiments : option R) (given logits : expr R) : expr R :=
  let given' := bcast given logits in
  let logits' := p_normalized normalize (bcast logits given) in
  let n := match n_experiments with Some n => Const n | None => Row sumR given' end in
  (Un lgamma (n ⊕ Const 1) ⊖ Row sumR (Un lgamma (given' ⊕ Const 1)))
  ⊕ Row sumR (given' ⊗ logits').
Definition p_unnormalized (normalize : bool) (given logits : expr R) : expr R :=
  Row sumR (bcast given logits ⊗ p_normalized normalize (bcast logits given)).
Definition p_dirichlet lgamma (given alpha : expr R) : expr R :=
  let given' := bcast given alpha in let alpha' := bcast alpha given in
  Un Ropp (Row (lbeta lgamma) alpha') ⊕ Row sumR ((alpha' ⊖ Const 1) ⊗ Un ln given').
(** [n] is n_categories, read from the logits' shape. *)
Definition p_exp_concrete lgamma (n : R) (given temperature logits : expr R) : expr R :=
  let temp := logits ⊖ temperature ⊗ given in
  Un lgamma (Const n) ⊕ (Const n ⊖ Const 1) ⊗ Un ln temperature
  ⊕ Row sumR temp ⊖ Const n ⊗ p_lse temp.
Definition p_concrete lgamma (n : R) (given temperature logits : expr R) : expr R :=
  let temp := logits ⊖ temperature ⊗ Un ln given in
  Un lgamma (Const n) ⊕ (Const n ⊖ Const 1) ⊗ Un ln temperature
  ⊕ Row sumR (temp ⊖ Un ln given) ⊖ Const n ⊗ p_lse temp.

(** Samplers; [noise] is the tensor of standard draws the method requests, whose
    shape is stated where it is used. *)
Definition s_normal (noise mean std : expr R) : expr R := noise ⊗ std ⊕ mean.
Definition s_bernoulli (noise logits : expr R) : expr R :=
  Bin (fun u p => if Rlt_dec u p then 1 else 0) noise (Un sigmoid logits).
Definition s_uniform (noise minval maxval : expr R) : expr R := noise ⊗ (maxval ⊖ minval) ⊕ minval.
Definition s_laplace (noise loc scale : expr R) : expr R :=
  loc ⊖ scale ⊗ Un sign noise ⊗ Un (fun u => ln (1 + - Rabs u)) noise.
Definition s_bin_concrete (noise temperature logits : expr R) : expr R :=
  Un sigmoid ((logits ⊕ (Un ln noise ⊖ Un ln (Const 1 ⊖ noise))) ⊘ temperature).
Definition s_exp_concrete (noise temperature logits : expr R) : expr R :=
  RowMap (fun r k => nth k (log_softmax r) 0) ((logits ⊕ Un gumbel noise) ⊘ temperature).
Definition s_concrete (noise temperature logits : expr R) : expr R :=
  RowMap (fun r k => nth k (softmax r) 0) ((logits ⊕ Un gumbel noise) ⊘ temperature).
(** tf.random_gamma([n], alpha, beta): noise of shape [n]+broadcast(alpha,beta),
    [draw u a] a standard gamma variate of shape [a]. *)
Definition s_random_gamma (draw : R -> R -> R) (noise alpha beta : expr R) : expr R :=
  Bin draw noise (alpha ⊗ Un (fun _ => 1) beta) ⊘ beta.
Definition s_gamma := s_random_gamma.
Definition s_inverse_gamma draw (noise alpha beta : expr R) : expr R :=
  Const 1 ⊘ s_random_gamma draw noise alpha beta.
Definition s_beta draw (noise1 noise2 alpha beta : expr R) : expr R :=
  let x := Bin draw noise1 (bcast alpha beta) in
  let y := Bin draw noise2 (bcast beta alpha) in x ⊘ (x ⊕ y).
Definition s_poisson (draw : R -> R -> R) (noise rate : expr R) : expr R := Bin draw noise rate.
Definition s_dirichlet (draw : R -> R -> R) (noise alpha : expr R) : expr R :=
  let s := Bin draw noise alpha in s ⊘ RowKeep sumR s.

(** Distribution.log_prob, base.py:290-304, for a program of [_log_prob]. *)
Definition log_prob (g : nat) (prog : expr R) : option (tensor R) :=
  obind (eval prog) (reduce_last Rplus 0 g).

(** OnehotCategorical._log_prob, multivariate.py:542-561, with the flattening to
    [-1, n_categories] unless the rank is statically known to be 2. *)
Definition p_onehot_row (given logits : expr R) : expr R :=
  Un Ropp (Un Ropp (Row sumR (given ⊗ RowMap (fun r k => nth k (log_softmax r) 0) logits))).
Definition onehot_log_prob (rank2_known : bool) (given logits : tensor R) : option (tensor R) :=
  obind (eval (bcast (Leaf given) (Leaf logits))) (fun g =>
  obind (eval (bcast (Leaf logits) (Leaf given))) (fun l =>
  if rank2_known then eval (p_onehot_row (Leaf g) (Leaf l))
  else
    obind (reshape_rows (last (t_shape logits) 0%nat) g) (fun gf =>
    obind (reshape_rows (last (t_shape logits) 0%nat) l) (fun lf =>
    obind (eval (p_onehot_row (Leaf gf) (Leaf lf))) (reshape (removelast (t_shape l))))))).

(** Categorical._log_prob, univariate.py:496-548: the two are broadcast unless
    their shapes are statically known to match; then the row-wise
    sparse_softmax_cross_entropy, which requires
    labels.shape = logits.shape[:-1]. [nan] stands for its value at a label outside
    the range. *)
Definition sparse_xent (nan : R) (labels : tensor nat) (logits : tensor R) : option (tensor R) :=
  match t_shape logits with
  | [] => None
  | _ => if list_eq_dec Nat.eq_dec (t_shape labels) (removelast (t_shape logits))
         then Some (Tensor (t_shape labels) (fun i =>
                match categorical_lp (t_at labels i) (row logits i) with
                | Some r => - - r | None => nan end))
         else None
  end.
Definition categorical_log_prob (nan : R) (known_same : bool) (given : tensor nat) (logits : tensor R)
  : option (tensor R) :=
  if known_same then sparse_xent nan given logits
  else
    obind (elementwise (fun a _ => (a * 1)%nat) given
             (Tensor (removelast (t_shape logits)) (fun _ => 1%nat))) (fun g =>
    obind (elementwise (fun a _ => a * 1) logits
             (Tensor (t_shape g ++ [1%nat]) (fun _ => 1))) (fun l =>
    sparse_xent nan g l)).

(** FoldNormal._log_prob, univariate.py:319-328, on tensors whose elements may be
    minus infinity. *)
Definition lift1 (f : R -> R) (a : logp) : logp := match a with Fin x => Fin (f x) | NegInf => NegInf end.
Definition lift2 (f : R -> R -> R) (a b : logp) : logp :=
  match a, b with Fin x, Fin y => Fin (f x y) | _, _ => NegInf end.
Definition emb (t : tensor R) : tensor logp := Tensor (t_shape t) (fun i => Fin (t_at t i)).
Definition log_mask (a : logp) : logp :=
  match a with Fin x => if Rle_dec 0 x then Fin 0 else NegInf | NegInf => NegInf end.
Definition p_foldnormal (given mean logstd : expr logp) : expr logp :=
  let precision := Un (lift1 exp) (Bin (lift2 Rmult) (Const (Fin (-2))) logstd) in
  Bin (lift2 Rplus)
    (Bin (lift2 Rplus)
      (Bin (lift2 Rminus) (Const (Fin (- (1/2) * (ln 2 + ln PI))))
        (Bin (lift2 Rplus) logstd
          (Bin (lift2 Rmult) (Bin (lift2 Rmult) (Const (Fin (1/2))) precision)
            (Un (lift1 square) (Bin (lift2 Rminus) given mean)))))
      (Un (lift1 softplus)
        (Bin (lift2 Rmult) (Bin (lift2 Rmult) (Bin (lift2 Rmult) (Const (Fin (-2))) mean) given) precision)))
    (Un log_mask given).
