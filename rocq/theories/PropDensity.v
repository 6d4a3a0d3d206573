(** C16: the continuous densities integrate to one.
    C17: the samplers draw from the density that log_prob reports. *)
From Coq Require Import List Reals Lra Lia.
From Coquelicot Require Import Coquelicot.
From Verif Require Import ModelDist SpecDensity ProofGauss ProofIntegral PropDiscrete PropSupport ProofDensity.
Local Open Scope R_scope.

(** ** C16 *)
Lemma expp_nonneg l : 0 <= expp l.
Proof. destruct l; simpl; [left; apply exp_pos|lra]. Qed.

Theorem C16_uniform minval maxval : minval < maxval ->
  is_density (fun x => expp (uniform_lp x minval maxval)).
Proof.
  intros L. split; [intros; apply expp_nonneg|].
  assert (M : mass (fun x => expp (uniform_lp x minval maxval)) to_minus_infinity to_plus_infinity
                ((maxval - minval) / (maxval - minval) + 0)).
  { apply mass_chasles with maxval; try typeclasses eauto.
    - apply uniform_below; lra.
    - apply zero_mass; try typeclasses eauto. apply above_point. intros x X. apply uniform_outside. right. lra. }
  replace ((maxval - minval) / (maxval - minval) + 0) with 1 in M by (field; lra). exact M.
Qed.
Print Assumptions C16_uniform.

Theorem C16_laplace loc scale : 0 < scale ->
  is_density (fun x => exp (laplace_lp x loc scale)).
Proof. intros S. split; [intros; left; apply exp_pos|]. now apply laplace_total. Qed.
Print Assumptions C16_laplace.

Theorem C16_normal mean logstd : is_density (fun x => exp (normal_lp x mean logstd)).
Proof.
  split; [intros; left; apply exp_pos|].
  assert (M : is_RInt_gen (fun x => exp (normal_lp x mean logstd)) (Rbar_locally m_infty) (Rbar_locally p_infty) (1 - 0)).
  { apply (is_RInt_gen_cdf _ (normal_cdf mean logstd)); try typeclasses eauto.
    - apply filter_forall_prod; try typeclasses eauto. intros ab y _. split; [apply normal_cdf_derive|apply normal_continuous].
    - apply normal_cdf_m.
    - apply normal_cdf_p. }
  rewrite Rminus_0_r in M. exact M.
Qed.
Print Assumptions C16_normal.

Lemma foldnormal_cdf_derive mean logstd x :
  is_derive (fun x => normal_cdf mean logstd x - normal_cdf mean logstd (- x)) x
            (exp (normal_lp x mean logstd) + exp (normal_lp (- x) mean logstd)).
Proof.
  replace (exp (normal_lp x mean logstd) + exp (normal_lp (- x) mean logstd))
    with (minus (exp (normal_lp x mean logstd)) (scal (-1) (exp (normal_lp (- x) mean logstd))))
    by (unfold minus, plus, opp, scal; simpl; unfold mult; simpl; ring).
  apply (is_derive_minus (normal_cdf mean logstd) (fun x => normal_cdf mean logstd (- x))); [apply normal_cdf_derive|].
  apply (is_derive_comp (normal_cdf mean logstd) Ropp); [apply normal_cdf_derive|].
  auto_derive; [auto|ring].
Qed.
Lemma foldnormal_zero_below mean logstd a : a <= 0 ->
  mass (fun x => expp (foldnormal_lp x mean logstd)) to_minus_infinity (at_point a) 0.
Proof.
  intros A. apply zero_mass; [apply Rbar_locally_filter|apply at_point_filter|].
  apply below_point. intros x X. unfold foldnormal_lp. destruct (Rle_dec 0 x); [lra|reflexivity].
Qed.
Theorem C16_foldnormal mean logstd : is_density (fun x => expp (foldnormal_lp x mean logstd)).
Proof.
  split; [intros; apply expp_nonneg|].
  assert (M : is_RInt_gen (fun x => expp (foldnormal_lp x mean logstd)) (Rbar_locally m_infty) (Rbar_locally p_infty) (0 + (1 - 0))).
  { apply mass_chasles with 0; try typeclasses eauto.
    - apply foldnormal_zero_below. lra.
    - apply (is_RInt_gen_ext (fun x => exp (normal_lp x mean logstd) + exp (normal_lp (- x) mean logstd))).
      + apply above_point. intros x X. symmetry. apply C20_foldnormal. lra.
      + pose (F x := normal_cdf mean logstd x - normal_cdf mean logstd (- x)).
        apply (is_RInt_gen_cdf _ F); try typeclasses eauto.
        * apply filter_forall_prod; try typeclasses eauto. intros ab x _. split; [apply foldnormal_cdf_derive|].
          apply (continuous_plus (fun x => exp (normal_lp x mean logstd)) (fun x => exp (normal_lp (- x) mean logstd))); [apply normal_continuous|].
          apply (continuous_comp Ropp (fun x => exp (normal_lp x mean logstd))); [|apply normal_continuous].
          apply (ex_derive_continuous Ropp). auto_derive. auto.
        * replace 0 with (F 0) at 2 by (unfold F; rewrite Ropp_0; ring). apply filterlim_point_locally.
        * unfold F. rewrite <- (Rminus_0_r 1).
          apply (filterlim_comp_2 (normal_cdf mean logstd) (fun x => opp (normal_cdf mean logstd (- x))) Rplus (G := locally 1) (H := locally (- 0))).
          -- apply normal_cdf_p.
          -- eapply filterlim_comp; [|apply (filterlim_opp 0)].
             eapply (filterlim_comp _ _ _ Ropp); [apply (filterlim_Rbar_opp p_infty)|apply normal_cdf_m].
          -- apply (filterlim_plus 1 (- 0)). }
  replace (0 + (1 - 0)) with 1 in M by ring. exact M.
Qed.
Print Assumptions C16_foldnormal.

Theorem C16_bin_concrete temperature logits : 0 < temperature ->
  is_density_between (fun x => exp (bin_concrete_lp x temperature logits)) (at_right 0) (at_left 1).
Proof. intros T. split; [intros; left; apply exp_pos|]. now apply bin_concrete_total. Qed.
Print Assumptions C16_bin_concrete.

(** Gamma and InverseGamma: relative to the value of tf.lgamma at alpha being the
    logarithm of Euler's integral. *)
Lemma power_density lgamma alpha beta y : 0 < y -> 0 < beta ->
  beta * (Rpower (beta * y) (alpha - 1) * exp (- (beta * y))) * / exp (lgamma alpha) = exp (gamma_lp lgamma y alpha beta).
Proof.
  intros Y B. unfold gamma_lp, Rpower. rewrite ln_mult by assumption. rewrite <- (exp_ln beta) at 1 by assumption.
  rewrite <- exp_Ropp, <- !exp_plus. f_equal. ring.
Qed.
Lemma mass_scal (f : R -> R) (Fa Fb : (R -> Prop) -> Prop) {F1 : Filter Fa} {F2 : Filter Fb} k l :
  is_RInt_gen f Fa Fb l -> is_RInt_gen (fun x => k * f x) Fa Fb (k * l).
Proof. exact (is_RInt_gen_scal (V := R_NormedModule) f k l). Qed.
Lemma mass_normalised (f : R -> R) (Fa Fb : (R -> Prop) -> Prop) {F1 : Filter Fa} {F2 : Filter Fb} z :
  0 < z -> is_RInt_gen f Fa Fb z -> is_RInt_gen (fun x => / z * f x) Fa Fb 1.
Proof.
  intros Z M. apply (mass_scal f Fa Fb (/ z)) in M. now rewrite Rinv_l in M by lra.
Qed.
Lemma pos_pos (P : R -> Prop) : (forall x, 0 < x -> P x) ->
  filter_prod (at_right 0) (Rbar_locally p_infty) (fun ab => forall x, Rmin (fst ab) (snd ab) < x < Rmax (fst ab) (snd ab) -> P x).
Proof.
  intros H. apply (Filter_prod _ _ _ _ _ at_right_pos (p_infty_gt 0)). intros a b A B x [X _]. simpl in *. apply H.
  unfold Rmin in X. destruct (Rle_dec a b); lra.
Qed.
Lemma gamma_scaled f beta m : 0 < beta -> is_RInt_gen f (at_right 0) (Rbar_locally p_infty) m ->
  is_RInt_gen (fun x => beta * f (beta * x)) (at_right 0) (Rbar_locally p_infty) m.
Proof.
  intros B M. apply (is_RInt_gen_subst f _ (fun x => beta * x) (at_right 0) (Rbar_locally p_infty)); try typeclasses eauto; auto.
  - now apply scale_at_right.
  - now apply scale_p_infty.
  - apply filter_forall_prod; try typeclasses eauto. intros [a b] v V. simpl in *.
    pose proof (is_RInt_comp_lin f beta 0 a b v) as E. rewrite !Rplus_0_r in E.
    apply (is_RInt_ext (fun y => scal beta (f (beta * y + 0)))); [|now apply E].
    intros x _. unfold scal; simpl; unfold mult; simpl. now rewrite Rplus_0_r.
Qed.
Theorem C16_gamma lgamma alpha beta : 0 < beta -> lgamma_euler lgamma alpha ->
  is_density_between (fun x => exp (gamma_lp lgamma x alpha beta)) (at_right 0) to_plus_infinity.
Proof.
  intros B E. split; [intros; left; apply exp_pos|].
  apply (is_RInt_gen_ext (fun x => / exp (lgamma alpha) * (beta * (Rpower (beta * x) (alpha - 1) * exp (- (beta * x)))))).
  - apply pos_pos. intros x X. rewrite <- power_density by assumption. apply Rmult_comm.
  - apply mass_normalised; [apply at_right_proper_filter|apply Rbar_locally_filter|apply exp_pos|].
    exact (gamma_scaled _ beta _ B E).
Qed.
Print Assumptions C16_gamma.

Lemma Rpower_continuous p x : 0 < x -> continuous (fun t => Rpower t p) x.
Proof.
  intros X. apply (ex_derive_continuous (fun t => Rpower t p)). unfold Rpower. auto_derive. lra.
Qed.
Lemma euler_continuous a x : 0 < x -> continuous (fun t => Rpower t (a - 1) * exp (- t)) x.
Proof.
  intros X. apply (continuous_mult (fun t => Rpower t (a - 1)) (fun t => exp (- t))); [now apply Rpower_continuous|].
  apply (ex_derive_continuous (fun t => exp (- t))). auto_derive. auto.
Qed.
(** Substituting beta/x exchanges the two ends. *)
Lemma inverted (f : R -> R) beta (Fa Fb Ga Gb : (R -> Prop) -> Prop) {F1 : Filter Ga} {F2 : Filter Gb} {F3 : Filter Fa} {F4 : Filter Fb} m :
  0 < beta -> (forall x, 0 < x -> continuous f x) ->
  is_RInt_gen f Fa Fb m -> filterlim (fun x => beta / x) Ga Fb -> filterlim (fun x => beta / x) Gb Fa ->
  Ga (fun x => 0 < x) -> Gb (fun x => 0 < x) ->
  is_RInt_gen (fun x => beta / (x * x) * f (beta / x)) Ga Gb m.
Proof.
  intros B Cf M La Lb Pa Pb. 
  apply (is_RInt_gen_swap (V := R_NormedModule)) in M. apply (is_RInt_gen_opp (V := R_NormedModule)) in M.
  replace (opp (opp m)) with m in M by (symmetry; apply (opp_opp (G := R_AbelianGroup))).
  apply (is_RInt_gen_subst (fun y => opp (f y)) _ (fun x => beta / x) Fb Fa); try typeclasses eauto; auto.
  apply (Filter_prod _ _ _ _ _ Pa Pb). intros a b A Bb v V. simpl in *.
  pose proof (is_RInt_comp (V := R_CompleteNormedModule) (fun y => opp (f y)) (fun x => beta / x) (fun x => - (beta / (x * x))) a b) as E.
  assert (v = RInt (fun y => opp (f y)) (beta / a) (beta / b)) as ->.
  { symmetry. apply is_RInt_unique. exact V. }
  apply (is_RInt_ext (fun y => scal (- (beta / (y * y))) (opp (f (beta / y))))).
  - intros x _. unfold scal, opp; simpl; unfold mult; simpl. ring.
  - apply E.
    + intros x X. assert (0 < x) by (apply (between_pos a b); auto). apply (continuous_opp f). apply Cf. apply Rdiv_lt_0_compat; lra.
    + intros x X. assert (0 < x) by (apply (between_pos a b); auto). split.
      * auto_derive; [lra|]. field. lra.
      * apply (ex_derive_continuous (fun x => - (beta / (x * x)))). auto_derive. nra.
Qed.
Lemma inverse_density lgamma alpha beta y : 0 < y -> 0 < beta ->
  / exp (lgamma alpha) * (beta / (y * y) * (Rpower (beta / y) (alpha - 1) * exp (- (beta / y)))) = exp (inverse_gamma_lp lgamma y alpha beta).
Proof.
  intros Y B. unfold inverse_gamma_lp, Rpower, Rdiv. rewrite (ln_mult beta), ln_Rinv by (auto; now apply Rinv_0_lt_compat).
  replace (beta * / (y * y)) with (exp (ln beta + (- ln y + - ln y))).
  - rewrite <- exp_Ropp, <- !exp_plus. f_equal. ring.
  - rewrite !exp_plus, !exp_Ropp, !exp_ln by assumption. field. lra.
Qed.
Theorem C16_inverse_gamma lgamma alpha beta : 0 < beta -> lgamma_euler lgamma alpha ->
  is_density_between (fun x => exp (inverse_gamma_lp lgamma x alpha beta)) (at_right 0) to_plus_infinity.
Proof.
  intros B E. split; [intros; left; apply exp_pos|].
  apply (is_RInt_gen_ext (fun x => / exp (lgamma alpha) * (beta / (x * x) * (Rpower (beta / x) (alpha - 1) * exp (- (beta / x)))))).
  - apply pos_pos. intros x X. now apply inverse_density.
  - apply mass_normalised; [apply at_right_proper_filter|apply Rbar_locally_filter|apply exp_pos|].
    apply (inverted (fun t => Rpower t (alpha - 1) * exp (- t)) beta (at_right 0) (Rbar_locally p_infty)); try typeclasses eauto; auto.
    + apply euler_continuous.
    + now apply inv_at_right.
    + now apply inv_p_infty.
    + apply at_right_pos.
    + apply p_infty_gt.
Qed.
Print Assumptions C16_inverse_gamma.
