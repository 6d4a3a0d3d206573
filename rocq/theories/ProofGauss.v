(** The Gaussian integral, by differentiating a parametric integral. *)
From Coq Require Import Reals Lra Lia.
From Coquelicot Require Import Coquelicot.
Local Open Scope R_scope.

Definition g (x : R) : R := exp (- (x * x)).
Definition I (t : R) : R := RInt g 0 t.
Definition h (t x : R) : R := exp (- (t * t) * (1 + x * x)) / (1 + x * x).
Definition G (t : R) : R := RInt (h t) 0 1.

Lemma g_cont x : continuous g x.
Proof. apply (ex_derive_continuous g). unfold g. auto_derive. auto. Qed.
Lemma g_int a b : ex_RInt g a b.
Proof. apply (ex_RInt_continuous g). intros; apply g_cont. Qed.
Lemma I_derive t : is_derive I t (g t).
Proof.
  unfold I. apply (is_derive_RInt g (fun b => RInt g 0 b) 0 t).
  - apply filter_forall. intros b. apply (@RInt_correct R_CompleteNormedModule). apply g_int.
  - apply g_cont.
Qed.
Lemma sq_pos x : 0 < 1 + x * x.
Proof. pose proof (Rle_0_sqr x). unfold Rsqr in *. lra. Qed.
Lemma h_cont t x : continuous (h t) x.
Proof.
  apply (ex_derive_continuous (h t)). unfold h. auto_derive. pose proof (sq_pos x). lra.
Qed.
Lemma h_int t : ex_RInt (h t) 0 1.
Proof. apply (ex_RInt_continuous (h t)). intros; apply h_cont. Qed.
Lemma h_derive t x : is_derive (fun u => h u x) t (- (2 * t) * exp (- (t * t) * (1 + x * x))).
Proof.
  unfold h. pose proof (sq_pos x). auto_derive; [lra|]. field. lra.
Qed.
Lemma G_derive t : is_derive G t (RInt (fun x => - (2 * t) * exp (- (t * t) * (1 + x * x))) 0 1).
Proof.
  rewrite (RInt_ext _ (fun x => Derive (fun u => h u x) t)).
  - apply (is_derive_RInt_param h 0 1 t).
    + apply filter_forall. intros y x _. eexists. apply h_derive.
    + intros x _. apply continuity_2d_pt_ext with (fun u v => - (2 * u) * exp (- (u * u) * (1 + v * v))).
      * intros u v. symmetry. apply is_derive_unique, h_derive.
      * apply continuity_2d_pt_mult.
        -- apply continuity_2d_pt_opp, continuity_2d_pt_mult; [apply continuity_2d_pt_const|apply continuity_2d_pt_id1].
        -- apply (continuity_1d_2d_pt_comp exp).
           ++ apply derivable_continuous_pt, derivable_pt_exp.
           ++ apply continuity_2d_pt_mult.
              ** apply continuity_2d_pt_opp, continuity_2d_pt_mult; apply continuity_2d_pt_id1.
              ** apply continuity_2d_pt_plus; [apply continuity_2d_pt_const|].
                 apply continuity_2d_pt_mult; apply continuity_2d_pt_id2.
    + apply filter_forall. intros y. apply h_int.
  - intros x _. symmetry. apply is_derive_unique, h_derive.
Qed.
Lemma G_derive' t : is_derive G t (- (2 * g t * I t)).
Proof.
  replace (- (2 * g t * I t)) with (RInt (fun x => - (2 * t) * exp (- (t * t) * (1 + x * x))) 0 1); [apply G_derive|].
  rewrite (RInt_ext _ (fun x => @scal R_AbsRing R_CompleteNormedModule (- (2 * g t)) (t * g (t * x + 0)))).
  - rewrite (RInt_scal (V := R_CompleteNormedModule) (fun x => t * g (t * x + 0))).
    + unfold I. replace (RInt (fun x => t * g (t * x + 0)) 0 1) with (RInt g 0 t).
      * unfold scal; simpl; unfold mult; simpl. ring.
      * pose proof (RInt_comp_lin g t 0 0 1) as E.
        rewrite Rmult_0_r, Rmult_1_r, !Rplus_0_r in E. symmetry. apply E. apply g_int.
    + apply (ex_RInt_continuous (fun x => t * g (t * x + 0))). intros x _.
      apply (ex_derive_continuous (fun x => t * g (t * x + 0))). unfold g. auto_derive. auto.
  - intros x _. unfold g, scal; simpl; unfold mult; simpl.
    replace (- (t * t) * (1 + x * x)) with (- (t * t) + - ((t * x + 0) * (t * x + 0))) by ring.
    rewrite exp_plus. ring.
Qed.
Lemma I0 : I 0 = 0.
Proof. unfold I. rewrite RInt_point. reflexivity. Qed.
Lemma G0 : G 0 = PI / 4.
Proof.
  unfold G. rewrite (RInt_ext _ (fun x => / (1 + x ^ 2))).
  - rewrite <- atan_1. rewrite <- (Rminus_0_r (atan 1)). rewrite <- atan_0 at 2.
    apply is_RInt_unique. apply (is_RInt_derive atan (fun x => / (1 + x ^ 2))).
    + intros x _. apply is_derive_Reals. apply derivable_pt_lim_atan.
    + intros x _. apply (ex_derive_continuous (fun x => / (1 + x ^ 2))). auto_derive. pose proof (sq_pos x).
      replace (x * (x * 1)) with (x * x) by ring. lra.
  - intros x _. unfold h. rewrite Rmult_0_r, Ropp_0, Rmult_0_l, exp_0. replace (x ^ 2) with (x * x) by ring.
    unfold Rdiv. apply Rmult_1_l.
Qed.
Lemma IG t : I t * I t + G t = PI / 4.
Proof.
  assert (D : forall t, is_derive (fun t => I t * I t + G t) t 0).
  { intros s. replace 0 with (g s * I s + I s * g s + - (2 * g s * I s)) by ring.
    apply (is_derive_plus (fun t => I t * I t) G); [|apply G_derive'].
    apply (is_derive_mult I I); [apply I_derive|apply I_derive|]. intros; apply Rmult_comm. }
  transitivity (I 0 * I 0 + G 0); [|rewrite I0, G0; ring].
  destruct (Req_dec t 0) as [->|N]; [reflexivity|].
  assert (C : forall a b, a < b -> I a * I a + G a = I b * I b + G b).
  { intros a b L. apply (eq_is_derive (fun t => I t * I t + G t)); auto. }
  destruct (Rtotal_order t 0) as [L|[L|L]]; [now apply C|congruence|symmetry; now apply C].
Qed.
Lemma G_bound t : 0 <= G t <= g t.
Proof.
  unfold G. split.
  - apply RInt_ge_0; [lra|apply h_int|]. intros x _. unfold h. pose proof (sq_pos x).
    left. apply Rdiv_lt_0_compat; [apply exp_pos|assumption].
  - replace (g t) with (RInt (fun _ => g t) 0 1) by (rewrite RInt_const; unfold scal; simpl; unfold mult; simpl; ring).
    apply RInt_le; [lra|apply h_int|apply ex_RInt_const|]. intros x _. unfold h, g. pose proof (sq_pos x) as P.
    pose proof (Rle_0_sqr x) as Q. unfold Rsqr in Q. pose proof (Rle_0_sqr t) as T. unfold Rsqr in T.
    assert (E : exp (- (t * t) * (1 + x * x)) <= exp (- (t * t))).
    { assert (B : - (t * t) * (1 + x * x) <= - (t * t)) by nra.
      destruct B as [B|B]; [left; now apply exp_increasing|rewrite B; lra]. }
    pose proof (exp_pos (- (t * t))) as Pe.
    apply Rmult_le_reg_r with (1 + x * x); [assumption|]. unfold Rdiv. rewrite Rmult_assoc, Rinv_l by lra. nra.
Qed.
Lemma I_nonneg t : 0 <= t -> 0 <= I t.
Proof. intros T. apply RInt_ge_0; [assumption|apply g_int|]. intros x _. left. apply exp_pos. Qed.
Lemma I_odd t : I (- t) = - I t.
Proof.
  unfold I. pose proof (RInt_comp_lin g (-1) 0 0 t) as E.
  rewrite Rmult_0_r, !Rplus_0_r in E. replace (-1 * t) with (- t) in E by ring. rewrite <- E by apply g_int.
  rewrite (RInt_ext _ (fun y => @opp R_CompleteNormedModule (g y))).
  - rewrite (RInt_opp (V := R_CompleteNormedModule) g) by apply g_int. reflexivity.
  - intros y _. unfold scal, opp, g; simpl; unfold mult; simpl.
    replace ((-1 * y + 0) * (-1 * y + 0)) with (y * y) by ring. ring.
Qed.
Lemma sqrt_pi_pos : 0 < sqrt PI.
Proof. apply sqrt_lt_R0, PI_RGT_0. Qed.
Lemma I_close t : 0 <= t -> Rabs (I t - sqrt PI / 2) <= g t / (sqrt PI / 2).
Proof.
  intros T. pose proof (IG t) as E. pose proof (G_bound t) as B. pose proof (I_nonneg t T) as N.
  pose proof sqrt_pi_pos as S. set (s := sqrt PI / 2). assert (Ps : 0 < s) by (unfold s; lra).
  assert (Es : s * s = PI / 4).
  { unfold s. replace (sqrt PI / 2 * (sqrt PI / 2)) with (sqrt PI * sqrt PI / 4) by field.
    rewrite sqrt_sqrt; [reflexivity|]. left. apply PI_RGT_0. }
  assert (D : (I t - s) * (I t + s) = - G t) by (replace ((I t - s) * (I t + s)) with (I t * I t - s * s) by ring; lra).
  apply Rmult_le_reg_r with s; [assumption|]. unfold Rdiv. rewrite Rmult_assoc, Rinv_l, Rmult_1_r by lra.
  apply Rle_trans with (Rabs (I t - s) * (I t + s)).
  - apply Rmult_le_compat_l; [apply Rabs_pos|lra].
  - rewrite <- (Rabs_pos_eq (I t + s)) by lra. rewrite <- Rabs_mult, D, Rabs_Ropp, Rabs_pos_eq; lra.
Qed.
Lemma g_lim : filterlim g (Rbar_locally p_infty) (locally 0).
Proof.
  apply (filterlim_le_le (fun _ => 0) g (fun t => exp (- t)) 0).
  - exists 1. intros x Hx. unfold g. split; [left; apply exp_pos|]. left. apply exp_increasing. nra.
  - apply filterlim_const.
  - apply (filterlim_comp _ _ _ Ropp exp _ (Rbar_locally m_infty)); [apply (filterlim_Rbar_opp p_infty)|apply is_lim_exp_m].
Qed.
Lemma I_lim_p : filterlim I (Rbar_locally p_infty) (locally (sqrt PI / 2)).
Proof.
  pose proof sqrt_pi_pos as S.
  assert (L : filterlim (fun t => g t / (sqrt PI / 2)) (Rbar_locally p_infty) (locally 0)).
  { replace 0 with (0 * / (sqrt PI / 2)) by ring.
    apply (filterlim_comp _ _ _ g (fun y => y * / (sqrt PI / 2)) _ (locally 0)); [apply g_lim|].
    apply (continuous_mult (fun y => y) (fun _ => / (sqrt PI / 2))); [apply continuous_id|apply continuous_const]. }
  apply (filterlim_le_le (fun t => sqrt PI / 2 - g t / (sqrt PI / 2)) I (fun t => sqrt PI / 2 + g t / (sqrt PI / 2)) (sqrt PI / 2)).
  - exists 0. intros t T. pose proof (I_close t ltac:(lra)) as C. apply Rabs_le_between in C. lra.
  - replace (Finite (sqrt PI / 2)) with (Finite (sqrt PI / 2 - 0)) by (f_equal; ring).
    apply (filterlim_comp _ _ _ (fun t => g t / (sqrt PI / 2)) (fun y => sqrt PI / 2 - y) _ (locally 0)); [exact L|].
    apply (continuous_minus (fun _ => sqrt PI / 2) (fun y => y)); [apply continuous_const|apply continuous_id].
  - replace (Finite (sqrt PI / 2)) with (Finite (sqrt PI / 2 + 0)) by (f_equal; ring).
    apply (filterlim_comp _ _ _ (fun t => g t / (sqrt PI / 2)) (fun y => sqrt PI / 2 + y) _ (locally 0)); [exact L|].
    apply (continuous_plus (fun _ => sqrt PI / 2) (fun y => y)); [apply continuous_const|apply continuous_id].
Qed.
Lemma I_lim_m : filterlim I (Rbar_locally m_infty) (locally (- (sqrt PI / 2))).
Proof.
  apply filterlim_ext with (fun t => - I (- t)).
  - intros t. rewrite I_odd. ring.
  - apply (filterlim_comp _ _ _ (fun t => I (- t)) Ropp _ (locally (sqrt PI / 2))).
    + apply (filterlim_comp _ _ _ Ropp I _ (Rbar_locally p_infty)); [apply (filterlim_Rbar_opp m_infty)|apply I_lim_p].
    + apply (filterlim_opp (sqrt PI / 2)).
Qed.
