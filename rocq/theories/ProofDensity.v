(** Integrals of the densities of ModelDist.v. *)
From Coq Require Import List Reals Lra Lia.
From Coquelicot Require Import Coquelicot.
From Verif Require Import ModelDist SpecDensity ProofGauss ProofIntegral PropDiscrete PropSupport.
Local Open Scope R_scope.

(** ** Normal *)
Lemma sqrt2_pos : 0 < sqrt 2.
Proof. apply sqrt_lt_R0. lra. Qed.
Lemma exp_half_ln x : 0 < x -> exp (- (1/2) * ln x) = / sqrt x.
Proof.
  intros X. pose proof (sqrt_lt_R0 x X) as S. rewrite <- (sqrt_sqrt x) at 1 by lra. rewrite ln_mult by assumption.
  replace (- (1/2) * (ln (sqrt x) + ln (sqrt x))) with (- ln (sqrt x)) by field. rewrite exp_Ropp, exp_ln; auto.
Qed.
Lemma exp_m2 l : exp (-2 * l) = / (exp l * exp l).
Proof. rewrite <- exp_plus, <- exp_Ropp. f_equal. ring. Qed.
Lemma normal_density x mean logstd :
  exp (normal_lp x mean logstd) = g ((x - mean) / (exp logstd * sqrt 2)) / (sqrt PI * (exp logstd * sqrt 2)).
Proof.
  unfold normal_lp, g. pose proof PI_RGT_0 as P. pose proof sqrt2_pos as S. pose proof sqrt_pi_pos as Sp. pose proof (exp_pos logstd) as E.
  replace (- (1/2) * ln (2 * PI) - logstd - 1/2 * exp (-2 * logstd) * square (x - mean))
    with (- (1/2) * ln (2 * PI) + (- logstd + - (1/2 * exp (-2 * logstd) * square (x - mean)))) by ring.
  rewrite 2!exp_plus, exp_half_ln, exp_Ropp, exp_m2 by lra. rewrite sqrt_mult by lra.
  replace (1/2 * / (exp logstd * exp logstd) * square (x - mean))
    with ((x - mean) / (exp logstd * sqrt 2) * ((x - mean) / (exp logstd * sqrt 2))).
  - field. lra.
  - unfold square. replace (1/2) with (/ (sqrt 2 * sqrt 2)) by (rewrite sqrt_sqrt; lra). field. lra.
Qed.
Definition normal_cdf (mean logstd x : R) : R := 1/2 + I ((x - mean) / (exp logstd * sqrt 2)) / sqrt PI.
Lemma normal_cdf_derive mean logstd x : is_derive (normal_cdf mean logstd) x (exp (normal_lp x mean logstd)).
Proof.
  unfold normal_cdf. pose proof sqrt2_pos as S. pose proof sqrt_pi_pos as Sp. pose proof (exp_pos logstd) as E.
  pose proof (I_derive ((x - mean) / (exp logstd * sqrt 2))) as D.
  auto_derive.
  - eexists. exact D.
  - change (x + - mean) with (x - mean). match goal with |- context [Derive ?F ?y] => replace (Derive F y) with (g ((x - mean) / (exp logstd * sqrt 2))) by (symmetry; apply is_derive_unique; exact D) end.
    rewrite normal_density. field. lra.
Qed.
Lemma normal_continuous mean logstd x : continuous (fun x => exp (normal_lp x mean logstd)) x.
Proof.
  apply (ex_derive_continuous (fun x => exp (normal_lp x mean logstd))). unfold normal_lp, square. auto_derive. auto.
Qed.
Lemma standardise_p mean s : 0 < s -> filterlim (fun x => (x - mean) / s) (Rbar_locally p_infty) (Rbar_locally p_infty).
Proof.
  intros S P (M & HM). exists (M * s + mean). intros x Hx. apply HM. apply (Rmult_lt_reg_r s); [assumption|].
  unfold Rdiv. rewrite Rmult_assoc, Rinv_l by lra. lra.
Qed.
Lemma standardise_m mean s : 0 < s -> filterlim (fun x => (x - mean) / s) (Rbar_locally m_infty) (Rbar_locally m_infty).
Proof.
  intros S P (M & HM). exists (M * s + mean). intros x Hx. apply HM. apply (Rmult_lt_reg_r s); [assumption|].
  unfold Rdiv. rewrite Rmult_assoc, Rinv_l by lra. lra.
Qed.
Lemma affine_continuous (a b y : R) : filterlim (fun v => a + v * b) (locally y) (locally (a + y * b)).
Proof. apply (continuous_plus (fun _ => a) (fun v => v * b)); [apply continuous_const|]. apply (continuous_mult (fun v => v) (fun _ => b)); [apply continuous_id|apply continuous_const]. Qed.
Lemma normal_cdf_p mean logstd : filterlim (normal_cdf mean logstd) (Rbar_locally p_infty) (locally 1).
Proof.
  pose proof sqrt2_pos as S. pose proof sqrt_pi_pos as Sp. pose proof (exp_pos logstd) as E.
  replace 1 with (1/2 + sqrt PI / 2 * / sqrt PI) by (field; lra). unfold normal_cdf, Rdiv at 2.
  eapply (filterlim_comp _ _ _ (fun x => I ((x - mean) / (exp logstd * sqrt 2))) (fun v => 1/2 + v * / sqrt PI)); [|apply affine_continuous].
  eapply filterlim_comp; [apply standardise_p; nra|apply I_lim_p].
Qed.
Lemma normal_cdf_m mean logstd : filterlim (normal_cdf mean logstd) (Rbar_locally m_infty) (locally 0).
Proof.
  pose proof sqrt2_pos as S. pose proof sqrt_pi_pos as Sp. pose proof (exp_pos logstd) as E.
  replace 0 with (1/2 + - (sqrt PI / 2) * / sqrt PI) by (field; lra). unfold normal_cdf, Rdiv at 2.
  eapply (filterlim_comp _ _ _ (fun x => I ((x - mean) / (exp logstd * sqrt 2))) (fun v => 1/2 + v * / sqrt PI)); [|apply affine_continuous].
  eapply filterlim_comp; [apply standardise_m; nra|apply I_lim_m].
Qed.
Lemma normal_mass_below mean logstd x :
  mass (fun x => exp (normal_lp x mean logstd)) to_minus_infinity (at_point x) (normal_cdf mean logstd x).
Proof.
  unfold mass, to_minus_infinity. rewrite <- (Rminus_0_r (normal_cdf mean logstd x)).
  apply (is_RInt_gen_cdf _ (normal_cdf mean logstd)); try typeclasses eauto.
  - apply filter_forall_prod; try typeclasses eauto. intros ab y _. split; [apply normal_cdf_derive|apply normal_continuous].
  - apply normal_cdf_m.
  - apply filterlim_point_locally.
Qed.

(** ** Step functions *)
Lemma zero_mass (f : R -> R) (Fa Fb : (R -> Prop) -> Prop) {F1 : Filter Fa} {F2 : Filter Fb} :
  filter_prod Fa Fb (fun ab => forall x, Rmin (fst ab) (snd ab) < x < Rmax (fst ab) (snd ab) -> f x = 0) ->
  is_RInt_gen f Fa Fb 0.
Proof.
  intros H P HP. unfold filtermapi. revert H. apply filter_imp. intros [a b] H. simpl in *. exists 0. split.
  - apply (is_RInt_ext (fun _ => 0)); [intros x Hx; symmetry; now apply H|].
    pose proof (is_RInt_const a b (0 : R)) as C. unfold scal in C; simpl in C; unfold mult in C; simpl in C.
    rewrite Rmult_0_r in C. exact C.
  - now apply locally_singleton.
Qed.
Lemma const_mass (f : R -> R) c a b : (forall x, Rmin a b < x < Rmax a b -> f x = c) ->
  is_RInt_gen f (at_point a) (at_point b) ((b - a) * c).
Proof.
  intros H. apply is_RInt_gen_at_point. apply (is_RInt_ext (fun _ => c)); [intros; symmetry; auto|].
  apply (is_RInt_const a b (c : R)).
Qed.
Lemma uniform_inside x a b : a < b -> a <= x < b -> expp (uniform_lp x a b) = / (b - a).
Proof.
  intros L [X1 X2]. unfold uniform_lp, uniform_prob. destruct (Rle_dec a x); [|lra]. destruct (Rlt_dec x b); [|lra].
  assert (Q : 0 < / (b - a)) by (apply Rinv_0_lt_compat; lra).
  replace (1 / (b - a) * 1) with (/ (b - a)) by (field; lra).
  destruct (Req_EM_T _ _) as [E|E]; [lra|]. simpl. now apply exp_ln.
Qed.
Lemma uniform_outside x a b : x < a \/ b <= x -> expp (uniform_lp x a b) = 0.
Proof.
  intros X. unfold uniform_lp, uniform_prob.
  replace (if Rle_dec a x then if Rlt_dec x b then 1 else 0 else 0) with 0
    by (destruct (Rle_dec a x); [destruct (Rlt_dec x b); [lra|]|]; reflexivity).
  rewrite Rmult_0_r. destruct (Req_EM_T 0 0); [reflexivity|congruence].
Qed.
Lemma below_point (P : R -> Prop) a : (forall x, x < a -> P x) ->
  filter_prod (Rbar_locally m_infty) (at_point a) (fun ab => forall x, Rmin (fst ab) (snd ab) < x < Rmax (fst ab) (snd ab) -> P x).
Proof.
  intros H. apply (Filter_prod _ _ _ (fun x => x < a) (fun y => y = a)); [apply m_infty_lt|reflexivity|].
  intros x y Hx -> z. simpl. rewrite Rmin_left, Rmax_right by lra. intros [? ?]. now apply H.
Qed.
Lemma above_point (P : R -> Prop) a : (forall x, a < x -> P x) ->
  filter_prod (at_point a) (Rbar_locally p_infty) (fun ab => forall x, Rmin (fst ab) (snd ab) < x < Rmax (fst ab) (snd ab) -> P x).
Proof.
  intros H. apply (Filter_prod _ _ _ (fun y => y = a) (fun x => a < x)); [reflexivity|apply p_infty_gt|].
  intros x y -> Hy z. simpl. rewrite Rmin_left, Rmax_right by lra. intros [? ?]. now apply H.
Qed.
Lemma uniform_below a b x : a < b -> a <= x <= b ->
  is_RInt_gen (fun x => expp (uniform_lp x a b)) (Rbar_locally m_infty) (at_point x) ((x - a) / (b - a)).
Proof.
  intros L X. replace ((x - a) / (b - a)) with (0 + ((x - a) * / (b - a))) by (unfold Rdiv; ring).
  apply mass_chasles with a; try typeclasses eauto.
  - apply zero_mass; try typeclasses eauto. apply below_point. intros y Y. apply uniform_outside. now left.
  - apply const_mass. rewrite Rmin_left, Rmax_right by lra. intros y Y. apply uniform_inside; lra.
Qed.

(** ** Laplace *)
Section Laplace.
Variables loc scale : R.
Hypothesis S : 0 < scale.
Let f x := exp (laplace_lp x loc scale).
Lemma laplace_left x : x <= loc -> f x = / (2 * scale) * exp ((x - loc) / scale).
Proof.
  intros L. unfold f, laplace_lp. rewrite Rabs_left1 by lra.
  replace (- ln 2 - ln scale - - (x - loc) / scale) with (- (ln 2 + ln scale) + (x - loc) / scale) by (field; lra).
  rewrite exp_plus, exp_Ropp, <- ln_mult, exp_ln by lra. reflexivity.
Qed.
Lemma laplace_right x : loc <= x -> f x = / (2 * scale) * exp (- ((x - loc) / scale)).
Proof.
  intros L. unfold f, laplace_lp. rewrite Rabs_pos_eq by lra.
  replace (- ln 2 - ln scale - (x - loc) / scale) with (- (ln 2 + ln scale) + - ((x - loc) / scale)) by (field; lra).
  rewrite exp_plus, exp_Ropp, <- ln_mult, exp_ln by lra. reflexivity.
Qed.
Let f1 x := / (2 * scale) * exp ((x - loc) / scale).
Let F1 x := / 2 * exp ((x - loc) / scale).
Let f2 x := / (2 * scale) * exp (- ((x - loc) / scale)).
Let F2 x := 1 - / 2 * exp (- ((x - loc) / scale)).
Lemma laplace_D1 x : is_derive F1 x (f1 x) /\ continuous f1 x.
Proof.
  split; [unfold F1, f1; auto_derive; [auto|unfold Rdiv, Rminus; field; lra]|].
  apply (ex_derive_continuous f1). unfold f1. auto_derive. auto.
Qed.
Lemma laplace_D2 x : is_derive F2 x (f2 x) /\ continuous f2 x.
Proof.
  split; [unfold F2, f2; auto_derive; [auto|unfold Rdiv, Rminus; field; lra]|].
  apply (ex_derive_continuous f2). unfold f2. auto_derive. auto.
Qed.
Lemma laplace_F1_lim : filterlim F1 (Rbar_locally m_infty) (locally 0).
Proof.
  replace 0 with (0 + 0 * / 2) by ring. apply filterlim_ext with (fun x => 0 + exp ((x - loc) / scale) * / 2); [intros x; unfold F1; ring|].
  eapply (filterlim_comp _ _ _ (fun x => exp ((x - loc) / scale)) (fun v => 0 + v * / 2)); [|apply affine_continuous].
  eapply filterlim_comp; [apply standardise_m; assumption|apply is_lim_exp_m].
Qed.
Lemma laplace_F2_lim : filterlim F2 (Rbar_locally p_infty) (locally 1).
Proof.
  replace 1 with (1 + 0 * - / 2) by ring. apply filterlim_ext with (fun x => 1 + exp (- ((x - loc) / scale)) * - / 2); [intros x; unfold F2; ring|].
  eapply (filterlim_comp _ _ _ (fun x => exp (- ((x - loc) / scale))) (fun v => 1 + v * - / 2)); [|apply affine_continuous].
  eapply (filterlim_comp _ _ _ (fun x => - ((x - loc) / scale)) exp); [|apply is_lim_exp_m].
  eapply filterlim_comp; [apply standardise_p; assumption|apply (filterlim_Rbar_opp p_infty)].
Qed.
Lemma laplace_mass_left x : x <= loc -> is_RInt_gen f (Rbar_locally m_infty) (at_point x) (F1 x).
Proof.
  intros X. apply (is_RInt_gen_ext f1).
  - apply below_point. intros y Y. symmetry. apply laplace_left. lra.
  - rewrite <- (Rminus_0_r (F1 x)). apply (is_RInt_gen_cdf f1 F1); try typeclasses eauto.
    + apply filter_forall_prod; try typeclasses eauto. intros; apply laplace_D1.
    + apply laplace_F1_lim.
    + apply filterlim_point_locally.
Qed.
Lemma laplace_mass_right x : loc <= x -> is_RInt_gen f (Rbar_locally m_infty) (at_point x) (F2 x).
Proof.
  intros X. replace (F2 x) with (F1 loc + (F2 x - F2 loc)).
  2: { unfold F1, F2. replace ((loc - loc) / scale) with 0 by (field; lra). rewrite Ropp_0, exp_0. field. }
  apply mass_chasles with loc; try typeclasses eauto; [apply laplace_mass_left; lra|].
  apply is_RInt_gen_at_point. apply (is_RInt_ext f2).
  - rewrite Rmin_left, Rmax_right by lra. intros y Y. symmetry. apply laplace_right. lra.
  - apply (is_RInt_derive F2 f2); intros; apply laplace_D2.
Qed.
Lemma laplace_total : is_RInt_gen f (Rbar_locally m_infty) (Rbar_locally p_infty) 1.
Proof.
  replace 1 with (F1 loc + (1 - F2 loc)).
  2: { unfold F1, F2. replace ((loc - loc) / scale) with 0 by (field; lra). rewrite Ropp_0, exp_0. field. }
  apply mass_chasles with loc; try typeclasses eauto; [apply laplace_mass_left; lra|].
  apply (is_RInt_gen_ext f2).
  - apply above_point. intros y Y. symmetry. apply laplace_right. lra.
  - apply (is_RInt_gen_cdf f2 F2); try typeclasses eauto.
    + apply filter_forall_prod; try typeclasses eauto. intros; apply laplace_D2.
    + apply filterlim_point_locally.
    + apply laplace_F2_lim.
Qed.
Lemma laplace_quantile u : -1 < u < 1 ->
  is_RInt_gen f (Rbar_locally m_infty) (at_point (laplace_sample u loc scale)) ((1 + u) / 2).
Proof.
  intros U. unfold laplace_sample, sign. destruct (Rlt_dec 0 u) as [P|P].
  - rewrite (Rabs_pos_eq u) by lra. set (x := loc - scale * 1 * ln (1 + - u)).
    assert (N : ln (1 + - u) <= 0) by (rewrite <- ln_1; left; apply ln_increasing; lra).
    replace ((1 + u) / 2) with (F2 x); [apply laplace_mass_right; unfold x; nra|].
    unfold F2, x. replace (- ((loc - scale * 1 * ln (1 + - u) - loc) / scale)) with (ln (1 + - u)) by (field; lra).
    rewrite exp_ln by lra. field.
  - destruct (Rlt_dec u 0) as [N|N].
    + rewrite (Rabs_left1 u) by lra. set (x := loc - scale * -1 * ln (1 + - - u)).
      assert (L : ln (1 + - - u) <= 0) by (rewrite <- ln_1; left; apply ln_increasing; lra).
      replace ((1 + u) / 2) with (F1 x); [apply laplace_mass_left; unfold x; nra|].
      unfold F1, x. replace ((loc - scale * -1 * ln (1 + - - u) - loc) / scale) with (ln (1 + - - u)) by (field; lra).
      rewrite exp_ln by lra. field.
    + assert (u = 0) as -> by lra. rewrite Rmult_0_r, Rmult_0_l, Rminus_0_r. replace ((1 + 0) / 2) with (F1 loc).
      * apply laplace_mass_left. lra.
      * unfold F1. replace ((loc - loc) / scale) with 0 by (field; lra). rewrite exp_0. field.
Qed.
Lemma laplace_sample_mono u v : -1 < u -> u < v -> v < 1 -> laplace_sample u loc scale < laplace_sample v loc scale.
Proof.
  intros U L V. unfold laplace_sample.
  assert (H : sign v * ln (1 + - Rabs v) < sign u * ln (1 + - Rabs u)); [|nra].
  unfold sign. destruct (Rlt_dec 0 u) as [Pu|Pu].
  - destruct (Rlt_dec 0 v); [|lra]. rewrite !Rabs_pos_eq by lra. rewrite !Rmult_1_l. apply ln_increasing; lra.
  - assert (Hv : v <= 0 \/ (if Rlt_dec 0 v then 1 else if Rlt_dec v 0 then -1 else 0) * ln (1 + - Rabs v) < 0).
    { destruct (Rle_dec v 0); [now left|right]. destruct (Rlt_dec 0 v); [|lra]. rewrite Rabs_pos_eq by lra.
      assert (ln (1 + - v) < 0) by (rewrite <- ln_1; apply ln_increasing; lra). lra. }
    destruct (Rlt_dec u 0) as [Nu|Nu].
    + assert (Hu : 0 < -1 * ln (1 + - Rabs u)).
      { rewrite Rabs_left1 by lra. assert (ln (1 + - - u) < 0) by (rewrite <- ln_1; apply ln_increasing; lra). lra. }
      destruct Hv as [Hv|Hv]; [|lra]. destruct (Rlt_dec 0 v); [lra|]. destruct (Rlt_dec v 0).
      * rewrite !Rabs_left1 by lra. assert (ln (1 + - - u) < ln (1 + - - v)) by (apply ln_increasing; lra). lra.
      * lra.
    + destruct Hv; [lra|]. lra.
Qed.
End Laplace.

(** ** BinConcrete *)
Section BinConcrete.
Variables t l : R.
Hypothesis T : 0 < t.
Let logit x := ln x - ln (1 - x).
Let F x := sigmoid (t * logit x - l).
Let f x := exp (bin_concrete_lp x t l).
Lemma sigmoid_compl x : sigmoid x * exp (- x) = 1 - sigmoid x.
Proof. unfold sigmoid. pose proof (exp_pos (- x)). field. lra. Qed.
Lemma sigmoid_one_minus x : 1 - sigmoid x = / (1 + exp x).
Proof. unfold sigmoid. rewrite exp_Ropp. pose proof (exp_pos x). field. lra. Qed.
Lemma bin_concrete_density x : 0 < x < 1 ->
  f x = t / (x * (1 - x)) * (exp (t * logit x - l) / ((1 + exp (t * logit x - l)) * (1 + exp (t * logit x - l)))).
Proof.
  intros X. unfold f, bin_concrete_lp, logit. set (v := t * (ln x - ln (1 - x)) - l).
  replace (ln t - ln x - ln (1 - x) + v - 2 * softplus v) with (ln t + (- ln x + (- ln (1 - x) + (v + (- softplus v + - softplus v))))) by ring.
  rewrite !exp_plus, !exp_Ropp, exp_softplus, !exp_ln by lra. pose proof (exp_pos v). field. lra.
Qed.
Lemma bin_concrete_F x : 0 < x < 1 -> is_derive F x (f x).
Proof.
  intros X. rewrite bin_concrete_density by assumption. unfold F, sigmoid, logit.
  pose proof (exp_pos (- (t * (ln x - ln (1 - x)) - l))) as P.
  unfold Rminus in *. auto_derive; [repeat split; lra|].
  rewrite !exp_Ropp. pose proof (exp_pos (t * (ln x + - ln (1 + - x)) + - l)) as Q.
  field. repeat split; lra.
Qed.
Lemma bin_concrete_cont x : 0 < x < 1 -> continuous f x.
Proof.
  intros X. apply (ex_derive_continuous f). unfold f, bin_concrete_lp, softplus. auto_derive. 
  pose proof (exp_pos (t * (ln x + - ln (1 + - x)) + - l)). repeat split; try lra.
Qed.
Lemma ln_at_0 : filterlim ln (at_right 0) (Rbar_locally m_infty).
Proof. apply is_lim_ln_0. Qed.
Lemma logit_0 : filterlim logit (at_right 0) (Rbar_locally m_infty).
Proof.
  intros P (M & HM). destruct (ln_at_0 (fun y => y < M - ln 2)) as (e & He); [exists (M - ln 2); auto|].
  pose proof (at_right_lt 0 (/2) ltac:(lra)) as A.
  assert (B : at_right 0 (fun x => ln x < M - ln 2)) by (exists e; exact He).
  unfold filtermap. generalize (filter_and _ _ A B). apply filter_imp. intros x [X1 X2]. apply HM. unfold logit.
  assert (- ln 2 < ln (1 - x)); [|lra]. rewrite <- ln_Rinv by lra. apply ln_increasing; lra.
Qed.
Lemma logit_1 : filterlim logit (at_left 1) (Rbar_locally p_infty).
Proof.
  intros P (M & HM). destruct (logit_0 (fun y => y < - M)) as (e & He); [exists (- M); auto|].
  pose proof (at_left_lt 0 1 ltac:(lra)) as A.
  assert (B : at_left 1 (fun x => logit (1 - x) < - M)).
  { exists e. intros y By Hy. apply He; [|lra]. unfold ball in *; simpl in *. unfold AbsRing_ball, abs, minus, plus, opp in *; simpl in *.
    replace (1 - y + - 0) with (- (y + - 1)) by ring. now rewrite Rabs_Ropp. }
  unfold filtermap. generalize (filter_and _ _ A B). apply filter_imp. intros x [X1 X2]. apply HM. unfold logit in *.
  replace (1 - (1 - x)) with x in X2 by ring. lra.
Qed.
Lemma sigmoid_m : filterlim sigmoid (Rbar_locally m_infty) (locally 0).
Proof.
  apply (filterlim_le_le (fun _ => 0) sigmoid exp 0).
  - exists 0. intros x _. pose proof (sigmoid_range x). split; [lra|].
    unfold sigmoid. rewrite exp_Ropp. pose proof (exp_pos x). replace (1 / (1 + / exp x)) with (exp x / (1 + exp x)) by (field; lra).
    apply (Rmult_le_reg_r (1 + exp x)); [lra|]. unfold Rdiv. rewrite Rmult_assoc, Rinv_l by lra. nra.
  - apply filterlim_const.
  - apply is_lim_exp_m.
Qed.
Lemma sigmoid_sym x : sigmoid (- x) = 1 - sigmoid x.
Proof. unfold sigmoid. rewrite Ropp_involutive, exp_Ropp. pose proof (exp_pos x). field. lra. Qed.
Lemma sigmoid_p : filterlim sigmoid (Rbar_locally p_infty) (locally 1).
Proof.
  replace 1 with (1 + 0 * -1) by ring. apply filterlim_ext with (fun x => 1 + sigmoid (- x) * -1); [intros x; rewrite sigmoid_sym; ring|].
  eapply (filterlim_comp _ _ _ (fun x => sigmoid (- x)) (fun v => 1 + v * -1)); [|apply affine_continuous].
  eapply (filterlim_comp _ _ _ Ropp sigmoid); [apply (filterlim_Rbar_opp p_infty)|apply sigmoid_m].
Qed.
Lemma affine_m : filterlim (fun v => t * v - l) (Rbar_locally m_infty) (Rbar_locally m_infty).
Proof.
  intros P (M & HM). exists ((M + l) / t). intros x Hx. apply HM.
  apply (Rmult_lt_compat_l t) in Hx; [|assumption]. replace (t * ((M + l) / t)) with (M + l) in Hx by (field; lra). lra.
Qed.
Lemma affine_p : filterlim (fun v => t * v - l) (Rbar_locally p_infty) (Rbar_locally p_infty).
Proof.
  intros P (M & HM). exists ((M + l) / t). intros x Hx. apply HM.
  apply (Rmult_lt_compat_l t) in Hx; [|assumption]. replace (t * ((M + l) / t)) with (M + l) in Hx by (field; lra). lra.
Qed.
Lemma F_0 : filterlim F (at_right 0) (locally 0).
Proof.
  unfold F. eapply (filterlim_comp _ _ _ (fun x => t * logit x - l) sigmoid); [|apply sigmoid_m].
  eapply (filterlim_comp _ _ _ logit (fun v => t * v - l)); [apply logit_0|apply affine_m].
Qed.
Lemma F_1 : filterlim F (at_left 1) (locally 1).
Proof.
  unfold F. eapply (filterlim_comp _ _ _ (fun x => t * logit x - l) sigmoid); [|apply sigmoid_p].
  eapply (filterlim_comp _ _ _ logit (fun v => t * v - l)); [apply logit_1|apply affine_p].
Qed.
Lemma inside_01 a b x : 0 < a < 1 -> 0 < b < 1 -> Rmin a b <= x <= Rmax a b -> 0 < x < 1.
Proof. intros A B. unfold Rmin, Rmax. destruct (Rle_dec a b); lra. Qed.
Lemma bin_concrete_total : is_RInt_gen f (at_right 0) (at_left 1) 1.
Proof.
  assert (M : is_RInt_gen f (at_right 0) (at_left 1) (1 - 0)); [|now rewrite Rminus_0_r in M].
  apply (is_RInt_gen_cdf f F); try typeclasses eauto.
  - apply (Filter_prod _ _ _ _ _ (at_right_lt 0 1 Rlt_0_1) (at_left_lt 0 1 Rlt_0_1)).
    intros a b A B x X. simpl in X. pose proof (inside_01 a b x A B X). split; [now apply bin_concrete_F|now apply bin_concrete_cont].
  - apply F_0.
  - apply F_1.
Qed.
Lemma bin_concrete_below x : 0 < x < 1 -> is_RInt_gen f (at_right 0) (at_point x) (F x).
Proof.
  intros X. rewrite <- (Rminus_0_r (F x)). apply (is_RInt_gen_cdf f F); try typeclasses eauto.
  - apply (Filter_prod _ _ _ _ (fun y => y = x) (at_right_lt 0 1 Rlt_0_1)); [reflexivity|].
    intros a b A -> y Y. simpl in Y. pose proof (inside_01 a x y A X Y). split; [now apply bin_concrete_F|now apply bin_concrete_cont].
  - apply F_0.
  - apply filterlim_point_locally.
Qed.
Lemma logit_sigmoid y : logit (sigmoid y) = y.
Proof.
  unfold logit. rewrite sigmoid_one_minus. unfold sigmoid. pose proof (exp_pos y). pose proof (exp_pos (- y)).
  unfold Rdiv. rewrite Rmult_1_l, !ln_Rinv by lra.
  replace (1 + exp y) with (exp y * (1 + exp (- y))) by (rewrite exp_Ropp; field; lra).
  rewrite ln_mult, ln_exp by lra. ring.
Qed.
Lemma sigmoid_logit u : 0 < u < 1 -> sigmoid (logit u) = u.
Proof.
  intros U. unfold sigmoid, logit. replace (- (ln u - ln (1 - u))) with (ln (1 - u) + - ln u) by ring.
  rewrite exp_plus, exp_Ropp, !exp_ln by lra. field. lra.
Qed.
Lemma bin_concrete_quantile u : 0 < u < 1 -> F (bin_concrete_sample u t l) = u.
Proof.
  intros U. unfold F, bin_concrete_sample. rewrite logit_sigmoid.
  replace (t * ((l + (ln u - ln (1 - u))) / t) - l) with (logit u) by (unfold logit; field; lra).
  now apply sigmoid_logit.
Qed.
Lemma sigmoid_increasing x y : x < y -> sigmoid x < sigmoid y.
Proof.
  intros L. unfold sigmoid, Rdiv. rewrite !Rmult_1_l. pose proof (exp_pos (- y)). pose proof (exp_pos (- x)).
  apply Rinv_lt_contravar; [nra|]. assert (exp (- y) < exp (- x)) by (apply exp_increasing; lra). lra.
Qed.
Lemma bin_concrete_sample_mono u v : 0 < u -> u < v -> v < 1 -> bin_concrete_sample u t l < bin_concrete_sample v t l.
Proof.
  intros U L V. apply sigmoid_increasing. unfold Rdiv. apply Rmult_lt_compat_r; [now apply Rinv_0_lt_compat|].
  assert (ln u < ln v) by (apply ln_increasing; lra). assert (ln (1 - v) < ln (1 - u)) by (apply ln_increasing; lra). lra.
Qed.
End BinConcrete.
