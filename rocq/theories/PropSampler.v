(** C17: the samplers draw from the density that log_prob reports. The noise is
    TensorFlow's; that its laws are the named ones is part of the trusted base. *)
From Coq Require Import List Reals Lra Lia.
From Coquelicot Require Import Coquelicot.
From Verif Require Import ModelDist SpecDist SpecDensity ProofGauss ProofIntegral PropDiscrete PropSupport ProofDensity PropDensity ProofGammaFn.
Local Open Scope R_scope.

Lemma uniform_noise_mass a b u : a < b -> mass (uniform_noise a b) (at_point a) (at_point u) ((u - a) / (b - a)).
Proof. intros L. unfold mass, Rdiv. apply const_mass. intros; reflexivity. Qed.

Theorem C17_uniform minval maxval : minval < maxval ->
  draws_from (between 0 1) (uniform_noise 0 1) (at_point 0)
    (fun u => uniform_sample u minval maxval)
    (fun x => expp (uniform_lp x minval maxval)) to_minus_infinity.
Proof.
  intros L. split.
  - intros u v _ _ UV. unfold uniform_sample. nra.
  - intros u U. unfold between in U. exists u. split.
    + pose proof (uniform_noise_mass 0 1 u ltac:(lra)) as M. now replace ((u - 0) / (1 - 0)) with u in M by field.
    + assert (M : mass (fun x => expp (uniform_lp x minval maxval)) to_minus_infinity (at_point (uniform_sample u minval maxval))
                    ((uniform_sample u minval maxval - minval) / (maxval - minval))).
      { apply uniform_below; [lra|]. unfold uniform_sample. nra. }
      unfold uniform_sample in M at 2. now replace ((u * (maxval - minval) + minval - minval) / (maxval - minval)) with u in M by (field; lra).
Qed.
Print Assumptions C17_uniform.

Theorem C17_laplace loc scale : 0 < scale ->
  draws_from (between (-1) 1) (uniform_noise (-1) 1) (at_point (-1))
    (fun u => laplace_sample u loc scale)
    (fun x => exp (laplace_lp x loc scale)) to_minus_infinity.
Proof.
  intros S. split.
  - intros u v U V UV. unfold between in *. apply laplace_sample_mono; lra.
  - intros u U. unfold between in U. exists ((1 + u) / 2). split.
    + pose proof (uniform_noise_mass (-1) 1 u ltac:(lra)) as M. now replace ((u - -1) / (1 - -1)) with ((1 + u) / 2) in M by field.
    + now apply laplace_quantile.
Qed.
Print Assumptions C17_laplace.

Theorem C17_bin_concrete temperature logits : 0 < temperature ->
  draws_from (between 0 1) (uniform_noise 0 1) (at_point 0)
    (fun u => bin_concrete_sample u temperature logits)
    (fun x => exp (bin_concrete_lp x temperature logits)) (at_right 0).
Proof.
  intros T. split.
  - intros u v U V UV. unfold between in *. apply bin_concrete_sample_mono; lra.
  - intros u U. unfold between in U. exists u. split.
    + pose proof (uniform_noise_mass 0 1 u ltac:(lra)) as M. now replace ((u - 0) / (1 - 0)) with u in M by field.
    + pose proof (bin_concrete_below temperature logits T (bin_concrete_sample u temperature logits) (C18_bin_concrete _ _ _)) as M.
      simpl in M.
      rewrite bin_concrete_quantile in M by assumption. exact M.
Qed.
Print Assumptions C17_bin_concrete.

Lemma standard_normal_lp z : standard_normal z = exp (normal_lp z 0 0).
Proof.
  unfold standard_normal, normal_lp, square. rewrite <- exp_half_ln by (pose proof PI_RGT_0; lra). rewrite <- exp_plus. f_equal.
  replace (-2 * 0) with 0 by ring. rewrite exp_0. field.
Qed.
Lemma standard_normal_mass z : mass standard_normal to_minus_infinity (at_point z) (normal_cdf 0 0 z).
Proof.
  apply (is_RInt_gen_ext (fun z => exp (normal_lp z 0 0))); [|apply normal_mass_below].
  apply filter_forall_prod; [apply Rbar_locally_filter|apply at_point_filter|]. intros ab x _. symmetry. apply standard_normal_lp.
Qed.
Lemma normal_cdf_standard z mean std : 0 < std -> normal_cdf mean (ln std) (z * std + mean) = normal_cdf 0 0 z.
Proof.
  intros S. unfold normal_cdf. rewrite exp_ln, exp_0 by assumption. do 3 f_equal. pose proof sqrt2_pos. field. lra.
Qed.
Theorem C17_normal mean std logstd sample lp :
  normal_new mean std logstd = Some (sample, lp) -> (forall s, std = Some s -> 0 < s) ->
  draws_from (fun _ => True) standard_normal to_minus_infinity sample (fun x => exp (lp x)) to_minus_infinity.
Proof.
  intros N V.
  assert (E : exists s, 0 < s /\ sample = (fun z => normal_sample z mean s) /\ lp = (fun x => normal_lp x mean (ln s))).
  { unfold normal_new, std_logstd in N. destruct std as [s|], logstd as [l|]; simpl in N; try discriminate; injection N as <- <-.
    - exists s. auto.
    - exists (exp l). rewrite ln_exp. pose proof (exp_pos l). auto. }
  destruct E as (s & S & -> & ->). split.
  - intros u v _ _ UV. unfold normal_sample. nra.
  - intros z _. exists (normal_cdf 0 0 z). split; [apply standard_normal_mass|].
    rewrite <- (normal_cdf_standard z mean s) by assumption. apply normal_mass_below.
Qed.
Print Assumptions C17_normal.

(** The FoldNormal sampler does not: below a negative draw the noise has positive
    mass and the reported density has none. *)
Lemma normal_cdf_pos z : 0 < normal_cdf 0 0 z.
Proof.
  assert (Dpos : forall x y, x < y -> normal_cdf 0 0 x < normal_cdf 0 0 y).
  { intros x y L. apply (incr_function_le (normal_cdf 0 0) x y (fun x => exp (normal_lp x 0 0))); try (simpl; lra).
    - intros t _ _. apply normal_cdf_derive.
    - intros t _ _. apply exp_pos. }
  apply Rle_lt_trans with (normal_cdf 0 0 (z - 1)); [|apply Dpos; lra].
  pose proof (normal_cdf_m 0 0) as L.
  assert (B : Rbar_le 0 (normal_cdf 0 0 (z - 1))); [|exact B].
  apply (filterlim_le (F := Rbar_locally m_infty) (normal_cdf 0 0) (fun _ => normal_cdf 0 0 (z - 1)) 0 (normal_cdf 0 0 (z - 1))).
  - exists (z - 1). intros x X. left. now apply Dpos.
  - exact L.
  - apply filterlim_const.
Qed.
Theorem C17_foldnormal_refuted mean std : 0 < std ->
  exists z m, foldnormal_sample z mean std < 0 /\ 0 < m /\
    mass standard_normal to_minus_infinity (at_point z) m /\
    mass (fun x => expp (foldnormal_lp x mean (ln std))) to_minus_infinity (at_point (foldnormal_sample z mean std)) 0.
Proof.
  intros S. exists ((- mean - 1) / std), (normal_cdf 0 0 ((- mean - 1) / std)).
  assert (N : foldnormal_sample ((- mean - 1) / std) mean std < 0).
  { unfold foldnormal_sample. replace ((- mean - 1) / std * std + mean) with (-1) by (field; lra). lra. }
  repeat split; [exact N|apply normal_cdf_pos|apply standard_normal_mass|]. apply foldnormal_zero_below. lra.
Qed.
Print Assumptions C17_foldnormal_refuted.

(** Bernoulli: for noise uniform on [0,1), the probability of drawing 1 (the measure
    of the noise values that give 1) is exp(log_prob(1)), and likewise for 0. *)
Definition indicator (P : Prop) (d : {P} + {~ P}) : R := if d then 1 else 0.
Theorem C17_bernoulli logits v : v = 0 \/ v = 1 ->
  mass (fun u => indicator _ (Req_EM_T (bernoulli_sample u logits) v)) (at_point 0) (at_point 1)
       (exp (bernoulli_lp v logits)).
Proof.
  intros V. pose proof (sigmoid_range logits) as S.
  assert (M : forall a b, is_RInt_gen (fun u => indicator _ (Req_EM_T (bernoulli_sample u logits) v)) (at_point 0) (at_point (sigmoid logits)) ((sigmoid logits - 0) * a) ->
              is_RInt_gen (fun u => indicator _ (Req_EM_T (bernoulli_sample u logits) v)) (at_point (sigmoid logits)) (at_point 1) ((1 - sigmoid logits) * b) ->
              mass (fun u => indicator _ (Req_EM_T (bernoulli_sample u logits) v)) (at_point 0) (at_point 1) ((sigmoid logits - 0) * a + (1 - sigmoid logits) * b)).
  { intros a b. apply mass_chasles; typeclasses eauto. }
  destruct V as [-> | ->].
  - rewrite bernoulli_lp_0. replace (1 - sigmoid logits) with ((sigmoid logits - 0) * 0 + (1 - sigmoid logits) * 1) by ring.
    apply M; apply const_mass; rewrite Rmin_left, Rmax_right by lra; intros u U; unfold bernoulli_sample, indicator;
      destruct (Rlt_dec u (sigmoid logits)); destruct (Req_EM_T _ _); lra.
  - rewrite bernoulli_lp_1. replace (sigmoid logits) with ((sigmoid logits - 0) * 1 + (1 - sigmoid logits) * 0) at 1 by ring.
    apply M; apply const_mass; rewrite Rmin_left, Rmax_right by lra; intros u U; unfold bernoulli_sample, indicator;
      destruct (Rlt_dec u (sigmoid logits)); destruct (Req_EM_T _ _); lra.
Qed.
Print Assumptions C17_bernoulli.

(** InverseGamma: for a gamma variate [g] (shape alpha, rate beta) the draw 1/g is
    below 1/g0 exactly when g is above g0, and the reported density puts below 1/g0
    the mass that the Gamma density puts above g0. *)
Theorem C17_inverse_gamma lgamma alpha beta g0 m : 0 < beta -> 0 < g0 ->
  mass (fun x => exp (gamma_lp lgamma x alpha beta)) (at_point g0) to_plus_infinity m ->
  mass (fun x => exp (inverse_gamma_lp lgamma x alpha beta)) (at_right 0) (at_point (inverse_gamma_sample g0)) m /\
  (forall g, 0 < g -> (inverse_gamma_sample g < inverse_gamma_sample g0 <-> g0 < g)).
Proof.
  intros B G M. split.
  - assert (I : is_RInt_gen (fun x => 1 / (x * x) * exp (gamma_lp lgamma (1 / x) alpha beta)) (at_right 0) (at_point (1 / g0)) m).
    { apply (inverted (fun x => exp (gamma_lp lgamma x alpha beta)) 1 (at_point g0) (Rbar_locally p_infty)); try typeclasses eauto; try lra.
      - intros x X. apply (ex_derive_continuous (fun x => exp (gamma_lp lgamma x alpha beta))). unfold gamma_lp. auto_derive. lra.
      - exact M.
      - apply inv_at_right. lra.
      - intros P HP. unfold filtermap, at_point. replace (1 / (1 / g0)) with g0 by (field; lra). exact HP.
      - apply at_right_pos.
      - unfold at_point. apply Rdiv_lt_0_compat; lra. }
    revert I. apply (is_RInt_gen_ext (V := R_NormedModule)).
    apply (Filter_prod _ _ _ (fun x => 0 < x) (fun y => y = 1 / g0)); [apply at_right_pos|reflexivity|].
    intros a b A -> x [X _]. simpl in X.
    assert (0 < 1 / g0) by (apply Rdiv_lt_0_compat; lra).
    assert (P : 0 < x) by (unfold Rmin in X; destruct (Rle_dec a (1 / g0)); lra).
    replace (1 / (x * x)) with (exp (- ln x + - ln x)) by (rewrite exp_plus, exp_Ropp, exp_ln by lra; field; lra).
    rewrite <- exp_plus. f_equal. unfold gamma_lp, inverse_gamma_lp.
    replace (1 / x) with (/ x) by (unfold Rdiv; ring). rewrite ln_Rinv by assumption. unfold Rdiv. ring.
  - intros g Pg. unfold inverse_gamma_sample. split; intros L.
    + apply Rnot_le_lt. intros N. apply (Rlt_not_le _ _ L). unfold Rdiv. rewrite !Rmult_1_l. now apply Rinv_le_contravar.
    + unfold Rdiv. rewrite !Rmult_1_l. apply Rinv_lt_contravar; nra.
Qed.
Print Assumptions C17_inverse_gamma.

(** The Gumbel noise that Concrete and ExpConcrete add: -log(-log u) for uniform u is
    distributed as the standard Gumbel law. *)
Definition gumbel_density (x : R) : R := exp (- x - exp (- x)).
Theorem C17_gumbel : draws_from (between 0 1) (uniform_noise 0 1) (at_point 0) gumbel gumbel_density to_minus_infinity.
Proof.
  split.
  - intros u v U V UV. unfold between in *. unfold gumbel. assert (ln u < ln v) by (apply ln_increasing; lra).
    assert (ln v < 0) by (rewrite <- ln_1; apply ln_increasing; lra).
    assert (ln (- ln v) < ln (- ln u)) by (apply ln_increasing; lra). lra.
  - intros u U. unfold between in U. exists u. split.
    + pose proof (uniform_noise_mass 0 1 u ltac:(lra)) as M. now replace ((u - 0) / (1 - 0)) with u in M by field.
    + pose (F x := exp (- exp (- x))).
      assert (E : F (gumbel u) = u).
      { unfold F, gumbel. assert (ln u < 0) by (rewrite <- ln_1; apply ln_increasing; lra).
        rewrite Ropp_involutive, exp_ln, Ropp_involutive, exp_ln by lra. reflexivity. }
      rewrite <- E at 2. rewrite <- (Rminus_0_r (F (gumbel u))).
      apply (is_RInt_gen_cdf _ F); [apply Rbar_locally_filter|apply at_point_filter| | |].
      * apply filter_forall_prod; [apply Rbar_locally_filter|apply at_point_filter|]. intros ab x _. split.
        -- unfold F, gumbel_density. auto_derive; [auto|]. unfold Rminus. rewrite exp_plus. ring.
        -- apply (ex_derive_continuous gumbel_density). unfold gumbel_density. auto_derive. auto.
      * unfold F. eapply (filterlim_comp _ _ _ (fun x => - exp (- x)) exp); [|apply is_lim_exp_m].
        eapply (filterlim_comp _ _ _ (fun x => exp (- x)) Ropp); [|apply (filterlim_Rbar_opp p_infty)].
        eapply (filterlim_comp _ _ _ Ropp exp); [apply (filterlim_Rbar_opp m_infty)|apply is_lim_exp_p].
      * apply filterlim_point_locally.
Qed.
Print Assumptions C17_gumbel.

(** Instances. *)
Example gamma_instance : exists lgamma,
  is_density_between (fun x => exp (gamma_lp lgamma x (5/2) 3)) (at_right 0) to_plus_infinity /\
  is_density_between (fun x => exp (inverse_gamma_lp lgamma x (5/2) 3)) (at_right 0) to_plus_infinity.
Proof.
  destruct lgamma_premises_met as (lgamma & H & _). exists lgamma.
  assert (E : lgamma_euler lgamma (5/2)) by (apply H; lra).
  assert (P : 0 < 3) by lra.
  split; [exact (C16_gamma lgamma (5/2) 3 P E)|exact (C16_inverse_gamma lgamma (5/2) 3 P E)].
Qed.
Example inverse_gamma_instance :
  mass (fun x => exp (inverse_gamma_lp (fun _ => 0) x 1 1)) (at_right 0) (at_point (inverse_gamma_sample 2)) (exp (-2)).
Proof.
  apply C17_inverse_gamma; try lra.
  assert (M : is_RInt_gen (fun x => exp (gamma_lp (fun _ => 0) x 1 1)) (at_point 2) (Rbar_locally p_infty) (0 - - exp (- (2)))).
  { apply (is_RInt_gen_cdf _ (fun t => - exp (- t))); try typeclasses eauto.
    - apply filter_forall_prod; try typeclasses eauto. intros ab x _.
      assert (E : forall x, exp (gamma_lp (fun _ => 0) x 1 1) = exp (- x)) by (intros y; unfold gamma_lp; f_equal; rewrite ln_1; ring).
      split.
      + rewrite E. auto_derive; [auto|ring].
      + apply (continuous_ext (fun x => exp (- x))); [intros; now rewrite E|].
        apply (ex_derive_continuous (fun x => exp (- x))). auto_derive. auto.
    - apply (filterlim_point_locally (fun t => - exp (- t))).
    - rewrite <- Ropp_0. eapply filterlim_comp; [|apply (filterlim_opp 0)].
      eapply (filterlim_comp _ _ _ Ropp exp); [apply (filterlim_Rbar_opp p_infty)|apply is_lim_exp_m]. }
  replace (0 - - exp (- (2))) with (exp (-2)) in M; [exact M|]. replace (- (2)) with (-2) by ring. ring.
Qed.
Example normal_instance : exists sample lp, normal_new 1 (Some 2) None = Some (sample, lp).
Proof. eexists _, _. reflexivity. Qed.
