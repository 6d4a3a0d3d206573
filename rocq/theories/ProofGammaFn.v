(** Euler's integral exists for every positive argument, so the premises
    [lgamma_euler] and [lgamma_factorial] of C15, C16, C20 and C22 are met by a
    function. *)
From Coq Require Import List Reals Lra Lia.
From Coquelicot Require Import Coquelicot.
From Verif Require Import SpecDist SpecDensity ProofIntegral ProofDensity PropDensity.
Local Open Scope R_scope.

Section Exists.
Variable f : R -> R.
Hypothesis f_pos : forall x, 0 < x -> 0 < f x.
Hypothesis f_cont : forall x, 0 < x -> continuous f x.
Lemma f_int a b : 0 < a -> 0 < b -> ex_RInt f a b.
Proof.
  intros A B. apply (ex_RInt_continuous f). intros z Z. apply f_cont. now apply (between_pos a b).
Qed.
Lemma f_mono x x' y y' : 0 < x' -> x' <= x -> x <= y -> y <= y' -> RInt f x y <= RInt f x' y'.
Proof.
  intros P X XY Y.
  rewrite <- (RInt_Chasles f x' x y'), <- (RInt_Chasles f x y y') by (apply f_int; lra).
  assert (0 <= RInt f x' x) by (apply RInt_ge_0; [lra|apply f_int; lra|intros; left; apply f_pos; lra]).
  assert (0 <= RInt f y y') by (apply RInt_ge_0; [lra|apply f_int; lra|intros; left; apply f_pos; lra]).
  unfold plus; simpl. lra.
Qed.
Lemma ex_mass B : (forall x y, 0 < x -> x <= y -> RInt f x y <= B) ->
  exists l, 0 < l /\ is_RInt_gen f (at_right 0) (Rbar_locally p_infty) l.
Proof.
  intros Bd.
  destruct (completeness (fun v => exists x y, 0 < x /\ x <= y /\ v = RInt f x y)) as (l & Ub & Lub).
  - exists B. intros v (x & y & X & Y & ->). now apply Bd.
  - exists (RInt f 1 1), 1, 1. repeat split; lra.
  - exists l. split.
    + apply Rlt_le_trans with (RInt f 1 2).
      * apply RInt_gt_0; [lra|intros; apply f_pos; lra|intros; apply f_cont; lra].
      * apply Ub. exists 1, 2. repeat split; lra.
    + intros P (e & He). unfold filtermapi.
      assert (Near : exists x0 y0, 0 < x0 /\ x0 <= y0 /\ l - e < RInt f x0 y0).
      { destruct (Classical_Prop.classic (exists x0 y0, 0 < x0 /\ x0 <= y0 /\ l - e < RInt f x0 y0)) as [H|H]; [exact H|].
        exfalso. assert (l <= l - e); [|pose proof (cond_pos e); lra]. apply Lub.
        intros v (x & y & X & Y & ->). destruct (Rle_dec (RInt f x y) (l - e)); [assumption|].
        exfalso. apply H. exists x, y. repeat split; lra. }
      destruct Near as (x0 & y0 & X0 & Y0 & N).
      apply (Filter_prod _ _ _ _ _ (at_right_lt 0 x0 X0) (p_infty_gt y0)). intros a b A Bb. simpl.
      exists (RInt f a b). split; [apply (RInt_correct f), f_int; lra|]. apply He.
      assert (RInt f a b <= l) by (apply Ub; exists a, b; repeat split; lra).
      assert (RInt f x0 y0 <= RInt f a b) by (apply f_mono; lra).
      unfold ball; simpl. unfold AbsRing_ball, abs, minus, plus, opp; simpl. apply Rabs_def1; pose proof (cond_pos e); lra.
Qed.
End Exists.

Definition eul (a t : R) : R := Rpower t (a - 1) * exp (- t).
Lemma eul_pos a t : 0 < t -> 0 < eul a t.
Proof. intros. apply Rmult_lt_0_compat; [apply exp_pos|apply exp_pos]. Qed.
Lemma eul_int a x y : 0 < x -> 0 < y -> ex_RInt (eul a) x y.
Proof. apply f_int. intros; now apply euler_continuous. Qed.
Lemma exp_le x y : x <= y -> exp x <= exp y.
Proof. intros [L|L]; [left; now apply exp_increasing|rewrite L; lra]. Qed.
Lemma exp_lt_1 t : 0 <= t -> exp (- t) <= 1.
Proof. intros. rewrite <- exp_0. apply exp_le. lra. Qed.
Lemma eul_low a x : 0 < a -> 0 < x <= 1 -> RInt (eul a) x 1 <= / a.
Proof.
  intros A X.
  assert (E : is_RInt (fun t => Rpower t (a - 1)) x 1 (/ a * Rpower 1 a - / a * Rpower x a)).
  { apply (is_RInt_derive (fun t => / a * Rpower t a) (fun t => Rpower t (a - 1))); rewrite Rmin_left, Rmax_right by lra; intros t T.
    - unfold Rpower. auto_derive; [lra|]. rewrite Rmult_1_l. replace (a * ln t) with ((a - 1) * ln t + ln t) by ring.
      rewrite exp_plus, exp_ln by lra. field. lra.
    - apply Rpower_continuous. lra. }
  apply Rle_trans with (RInt (fun t => Rpower t (a - 1)) x 1).
  - apply RInt_le; [lra|apply eul_int; lra|eexists; exact E|]. intros t T. unfold eul.
    rewrite <- (Rmult_1_r (Rpower t (a - 1))) at 2. apply Rmult_le_compat_l; [left; apply exp_pos|]. apply exp_lt_1. lra.
  - rewrite (is_RInt_unique _ _ _ _ E). unfold Rpower at 1. rewrite ln_1, Rmult_0_r, exp_0.
    assert (0 < / a) by (now apply Rinv_0_lt_compat). assert (0 < Rpower x a) by apply exp_pos. nra.
Qed.
Lemma ln_bound t c : 0 < t -> 0 < c -> ln t <= c * t - 1 - ln c.
Proof.
  intros T Cc. pose proof (exp_ineq1_le (ln (c * t))) as H. rewrite exp_ln, ln_mult in H by nra. lra.
Qed.
Lemma eul_high a : exists K, 0 < K /\ forall t, 1 <= t -> eul a t <= K * exp (- (/ 2 * t)).
Proof.
  set (c := / (2 * (Rabs (a - 1) + 1))). pose proof (Rabs_pos (a - 1)) as Pa.
  assert (Cc : 0 < c) by (apply Rinv_0_lt_compat; lra).
  exists (exp (Rabs (a - 1) * (-1 - ln c))). split; [apply exp_pos|]. intros t T.
  unfold eul, Rpower. rewrite <- !exp_plus. apply exp_le.
  assert (L : 0 <= ln t) by (rewrite <- ln_1; destruct T as [T|<-]; [left; apply ln_increasing; lra|lra]).
  assert (H1 : (a - 1) * ln t <= Rabs (a - 1) * ln t) by (apply Rmult_le_compat_r; [assumption|apply Rle_abs]).
  assert (H2 : Rabs (a - 1) * ln t <= Rabs (a - 1) * (c * t - 1 - ln c)) by (apply Rmult_le_compat_l; [assumption|apply ln_bound; lra]).
  assert (H3 : Rabs (a - 1) * (c * t) <= / 2 * t).
  { replace (Rabs (a - 1) * (c * t)) with (Rabs (a - 1) * c * t) by ring. apply Rmult_le_compat_r; [lra|].
    unfold c. apply (Rmult_le_reg_r (2 * (Rabs (a - 1) + 1))); [lra|]. rewrite Rmult_assoc, Rinv_l by lra. lra. }
  lra.
Qed.
Lemma exp_half_int y : 1 <= y -> is_RInt (fun t => exp (- (/ 2 * t))) 1 y (-2 * exp (- (/ 2 * y)) - -2 * exp (- (/ 2 * 1))).
Proof.
  intros Y. apply (is_RInt_derive (fun t => -2 * exp (- (/ 2 * t))) (fun t => exp (- (/ 2 * t)))); intros t _.
  - auto_derive; [auto|]. field.
  - apply (ex_derive_continuous (fun t => exp (- (/ 2 * t)))). auto_derive. auto.
Qed.
Lemma eul_up a K y : (forall t, 1 <= t -> eul a t <= K * exp (- (/ 2 * t))) -> 0 < K -> 1 <= y -> RInt (eul a) 1 y <= 2 * K.
Proof.
  intros H P Y. pose proof (exp_half_int y Y) as E. pose proof (is_RInt_scal (V := R_NormedModule) _ _ _ K _ E) as E'.
  unfold scal in E'; simpl in E'; unfold mult in E'; simpl in E'.
  apply Rle_trans with (RInt (fun t => K * exp (- (/ 2 * t))) 1 y).
  - apply RInt_le; [lra|apply eul_int; lra|eexists; exact E'|]. intros t T. apply H. lra.
  - rewrite (is_RInt_unique _ _ _ _ E'). pose proof (exp_pos (- (/ 2 * y))). pose proof (exp_lt_1 (/ 2 * 1) ltac:(lra)). nra.
Qed.
Lemma euler_exists a : 0 < a -> exists l, 0 < l /\ is_RInt_gen (eul a) (at_right 0) (Rbar_locally p_infty) l.
Proof.
  intros A. destruct (eul_high a) as (K & PK & HK).
  apply (ex_mass (eul a)) with (/ a + 2 * K); [intros; now apply eul_pos|intros; now apply euler_continuous|].
  intros x y X Y. set (x' := Rmin x 1). set (y' := Rmax y 1).
  assert (0 < x' <= 1 /\ x' <= x) by (unfold x', Rmin; destruct (Rle_dec x 1); lra).
  assert (1 <= y' /\ y <= y') by (unfold y', Rmax; destruct (Rle_dec y 1); lra).
  apply Rle_trans with (RInt (eul a) x' y').
  - apply f_mono; try lra; [intros; now apply eul_pos|intros; now apply euler_continuous].
  - rewrite <- (RInt_Chasles (eul a) x' 1 y') by (apply eul_int; lra).
    pose proof (eul_low a x' A ltac:(lra)). pose proof (eul_up a K y' HK PK ltac:(lra)). unfold plus; simpl. lra.
Qed.

Definition log_gamma (a : R) : R := ln (RInt_gen (eul a) (at_right 0) (Rbar_locally p_infty)).
Lemma log_gamma_euler a : 0 < a -> lgamma_euler log_gamma a.
Proof.
  intros A. destruct (euler_exists a A) as (l & P & M). unfold lgamma_euler, mass, log_gamma.
  rewrite (is_RInt_gen_unique (V := R_CompleteNormedModule) _ _ M). rewrite exp_ln by assumption. exact M.
Qed.

(** Gamma(a+1) = a * Gamma(a) *)
Lemma parts_derive a t : 0 < t ->
  is_derive (fun t => - (Rpower t a * exp (- t))) t (eul (a + 1) t - a * eul a t).
Proof.
  intros T. unfold eul, Rpower. auto_derive; [lra|]. replace (a + 1 - 1) with a by ring.
  replace (a * ln t) with ((a - 1) * ln t + ln t) by ring. rewrite exp_plus, exp_ln by lra. field. lra.
Qed.
Lemma parts_0 a : 0 < a -> filterlim (fun t => - (Rpower t a * exp (- t))) (at_right 0) (locally 0).
Proof.
  intros A.
  assert (L : filterlim (fun t => - Rpower t a) (at_right 0) (locally 0)).
  { rewrite <- Ropp_0 at 2. eapply filterlim_comp; [|apply (filterlim_opp 0)].
    unfold Rpower. eapply (filterlim_comp _ _ _ (fun t => a * ln t) exp); [|apply is_lim_exp_m].
    eapply (filterlim_comp _ _ _ ln (fun v => a * v)); [apply is_lim_ln_0|].
    intros P (M & HM). exists (M / a). intros x Hx. apply HM. apply (Rmult_lt_compat_l a) in Hx; [|assumption].
    replace (a * (M / a)) with M in Hx by (field; lra). lra. }
  apply (filterlim_le_le (fun t => - Rpower t a) (fun t => - (Rpower t a * exp (- t))) (fun _ => 0) 0); [|exact L|apply filterlim_const].
  apply (filter_imp (fun t => 0 < t)); [|apply at_right_pos]. intros t T.
  assert (0 < Rpower t a) by apply exp_pos. pose proof (exp_pos (- t)). pose proof (exp_lt_1 t ltac:(lra)). split; nra.
Qed.
Lemma parts_inf a : filterlim (fun t => - (Rpower t a * exp (- t))) (Rbar_locally p_infty) (locally 0).
Proof.
  destruct (eul_high (a + 1)) as (K & PK & HK).
  assert (L : filterlim (fun t => - (K * exp (- (/ 2 * t)))) (Rbar_locally p_infty) (locally 0)).
  { assert (Z : filterlim (fun t => 0 + exp (- (/ 2 * t)) * - K) (Rbar_locally p_infty) (locally (0 + 0 * - K))).
    { eapply (filterlim_comp _ _ _ (fun t => exp (- (/ 2 * t))) (fun v => 0 + v * - K)); [apply exp_neg_lim; lra|apply affine_continuous]. }
    replace (0 + 0 * - K) with 0 in Z by ring. revert Z. apply filterlim_ext. intros; ring. }
  apply (filterlim_le_le (fun t => - (K * exp (- (/ 2 * t)))) (fun t => - (Rpower t a * exp (- t))) (fun _ => 0) 0); [|exact L|apply filterlim_const].
  apply (filter_imp (fun t => 1 < t)); [|apply p_infty_gt]. intros t T.
  assert (0 < Rpower t a) by apply exp_pos. pose proof (exp_pos (- t)).
  specialize (HK t ltac:(lra)). unfold eul in HK. replace (a + 1 - 1) with a in HK by ring. split; nra.
Qed.
Lemma gamma_step a l : 0 < a -> is_RInt_gen (eul a) (at_right 0) (Rbar_locally p_infty) l ->
  is_RInt_gen (eul (a + 1)) (at_right 0) (Rbar_locally p_infty) (a * l).
Proof.
  intros A M.
  assert (D : is_RInt_gen (fun t => eul (a + 1) t - a * eul a t) (at_right 0) (Rbar_locally p_infty) (0 - 0)).
  { apply (is_RInt_gen_cdf _ (fun t => - (Rpower t a * exp (- t)))); try typeclasses eauto; [|now apply parts_0|apply parts_inf].
    apply (Filter_prod _ _ _ _ _ at_right_pos (p_infty_gt 0)). intros x y X Y t T. simpl in T.
    assert (0 < t) by (now apply (between_pos x y)). split; [now apply parts_derive|].
    apply (continuous_minus (eul (a + 1)) (fun t => a * eul a t)); [now apply euler_continuous|].
    apply (continuous_mult (fun _ => a) (eul a)); [apply continuous_const|now apply euler_continuous]. }
  pose proof (mass_scal (eul a) _ _ a l M) as M'.
  pose proof (is_RInt_gen_plus (V := R_NormedModule) _ _ _ _ D M') as S.
  unfold plus in S; simpl in S. replace (0 - 0 + a * l) with (a * l) in S by ring.
  revert S. apply (is_RInt_gen_ext (V := R_NormedModule)). apply filter_forall_prod; try typeclasses eauto. intros ab x _.
  unfold plus; simpl. unfold Rminus. rewrite Rplus_assoc, Rplus_opp_l. apply Rplus_0_r.
Qed.
Lemma gamma_one : is_RInt_gen (eul 1) (at_right 0) (Rbar_locally p_infty) 1.
Proof.
  assert (M : is_RInt_gen (eul 1) (at_right 0) (Rbar_locally p_infty) (0 - -1)); [|now replace (0 - -1) with 1 in M by ring].
  apply (is_RInt_gen_cdf _ (fun t => - exp (- t))); try typeclasses eauto.
  - apply (Filter_prod _ _ _ _ _ at_right_pos (p_infty_gt 0)). intros x y X Y t T. simpl in T.
    assert (0 < t) by (now apply (between_pos x y)). split; [|now apply euler_continuous].
    unfold eul, Rpower. replace (1 - 1) with 0 by ring. rewrite Rmult_0_l, exp_0. auto_derive; [auto|ring].
  - apply (filterlim_filter_le_1 (F := locally 0)); [apply filter_le_within|].
    replace (-1) with (- exp (- 0)) by (rewrite Ropp_0, exp_0; reflexivity).
    apply (ex_derive_continuous (fun t => - exp (- t))). auto_derive. auto.
  - rewrite <- Ropp_0. eapply filterlim_comp; [|apply (filterlim_opp 0)].
    eapply (filterlim_comp _ _ _ Ropp exp); [apply (filterlim_Rbar_opp p_infty)|apply is_lim_exp_m].
Qed.
Lemma gamma_fact n : is_RInt_gen (eul (INR n + 1)) (at_right 0) (Rbar_locally p_infty) (INR (fact n)).
Proof.
  induction n as [|n IH].
  - simpl. rewrite Rplus_0_l. apply gamma_one.
  - rewrite S_INR. replace (INR (fact (S n))) with ((INR n + 1) * INR (fact n)).
    + apply gamma_step; [pose proof (pos_INR n); lra|exact IH].
    + change (fact (S n)) with (S n * fact n)%nat. rewrite mult_INR, S_INR. reflexivity.
Qed.
Lemma log_gamma_factorial : lgamma_factorial log_gamma.
Proof.
  intros n. unfold log_gamma. f_equal. apply (is_RInt_gen_unique (V := R_CompleteNormedModule)). apply gamma_fact.
Qed.

(** One function meets every premise on tf.lgamma used in this development. *)
Theorem lgamma_premises_met : exists lgamma : R -> R,
  (forall a, 0 < a -> lgamma_euler lgamma a) /\ lgamma_factorial lgamma.
Proof. exists log_gamma. split; [apply log_gamma_euler|apply log_gamma_factorial]. Qed.
