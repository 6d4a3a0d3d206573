(** Lemmas for C62: the stochastic-gradient samplers in floating-point arithmetic. *)
From Coq Require Import List Arith Bool Reals ZArith Lra Lia.
From Flocq Require Import Core Relative Mult_error.
From Verif Require Import ModelExt ModelSpecial ModelNum ModelFloat ModelFloatSample ModelFloatTune ModelFloatSGMCMC SpecFloat SpecFloatSGMCMC ProofFloat ProofFloatSample ProofFloatDensity ProofFloatTune.
Import ListNotations.
Local Open Scope R_scope.

Section Proofs.
Variables prec top : Z.
Hypothesis A : ample prec top.
Let W : wide prec top := proj1 A.
Notation u := (unit_roundoff prec).
Notation fmt := (generic_format radix2 (fexpo prec top)).
Notation float := (is_float prec top).
Notation near := (nearest prec top).
Notation b e := (bpow radix2 e).
Local Instance prec_pos_s : Prec_gt_0 prec := prec_pos prec top W.

(** ** Bounded numbers *)
Notation within := (within prec top).
(** ... that approximate an exact one *)
Definition about (m : Z) (e x : R) (a : ext) : Prop := exists y, a = Fi y /\ float y /\ Rabs y <= b m /\ Rabs x <= b m /\ Rabs (y - x) <= e.
Lemma within_le m m' a : (m <= m')%Z -> within m a -> within m' a.
Proof. intros M (y & E & F & H). exists y. repeat split; try tauto; try apply F. eapply Rle_trans; [exact H|now apply bpow_le]. Qed.
Lemma about_le m m' e e' x a : (m <= m')%Z -> e <= e' -> about m e x a -> about m' e' x a.
Proof.
  intros M E (y & Ey & F & H1 & H2 & H3). assert (b m <= b m') by now apply bpow_le. exists y. split; [exact Ey|]. split; [exact F|]. repeat split; lra.
Qed.
Lemma about_float m y : float y -> Rabs y <= b m -> about m 0 y (Fi y).
Proof. intros F H. exists y. split; [reflexivity|]. split; [exact F|]. repeat split; try assumption. rewrite Rminus_diag_eq, Rabs_R0 by reflexivity. apply Rle_refl. Qed.
Lemma about_within m e x a : about m e x a -> within m a.
Proof. intros (y & E & F & H & _). now exists y. Qed.
Lemma within_about m a : within m a -> exists y, a = Fi y /\ float y /\ about m 0 y a.
Proof. intros (y & -> & F & H). exists y. split; [reflexivity|]. split; [exact F|]. now apply about_float. Qed.
Lemma about_add m e e' x x' a a' : (2 - top <= m)%Z -> (m + 2 <= top)%Z -> about m e x a -> about m e' x' a' ->
  about (m + 1) (e + e' + u * b m) (x + x') (fadd prec top a a').
Proof.
  intros L T (y & -> & F & H1 & H2 & H3) (y' & -> & F' & H1' & H2' & H3'). assert (V : Rabs (y + y') <= b (m + 1)) by (rewrite b_1; eapply Rle_trans; [apply Rabs_triang|lra]).
  destruct (fadd_near prec top A y y' (m + 1) ltac:(lia) ltac:(lia) V) as (E & Fz & Hz). exists (near (y + y')). split; [exact E|]. split; [exact Fz|]. split; [exact Hz|].
  split; [rewrite b_1; eapply Rle_trans; [apply Rabs_triang|lra]|]. pose proof (near_binade prec top A _ (m + 1) ltac:(lia) V) as N. rewrite b_1 in N.
  apply Rabs_le_inv in N, H3, H3'. apply Rabs_le. split; lra.
Qed.
Lemma about_sub m e e' x x' a a' : (2 - top <= m)%Z -> (m + 2 <= top)%Z -> about m e x a -> about m e' x' a' ->
  about (m + 1) (e + e' + u * b m) (x - x') (fsub prec top a a').
Proof.
  intros L T (y & -> & F & H1 & H2 & H3) (y' & -> & F' & H1' & H2' & H3').
  assert (V : Rabs (y - y') <= b (m + 1)) by (rewrite b_1; eapply Rle_trans; [apply Rabs_triang|rewrite Rabs_Ropp; lra]).
  destruct (fsub_near prec top A y y' (m + 1) ltac:(lia) ltac:(lia) V) as (E & Fz & Hz). exists (near (y - y')). split; [exact E|]. split; [exact Fz|]. split; [exact Hz|].
  split; [rewrite b_1; eapply Rle_trans; [apply Rabs_triang|rewrite Rabs_Ropp; lra]|]. pose proof (near_binade prec top A _ (m + 1) ltac:(lia) V) as N. rewrite b_1 in N.
  apply Rabs_le_inv in N, H3, H3'. apply Rabs_le. split; lra.
Qed.
Lemma about_mul m m' e e' x x' a a' : (3 - top <= m + m')%Z -> (m + m' + 1 <= top)%Z -> about m e x a -> about m' e' x' a' ->
  about (m + m') (e * b m' + b m * e' + u * b (m + m') / 2) (x * x') (fmul prec top a a').
Proof.
  intros L T (y & -> & F & H1 & H2 & H3) (y' & -> & F' & H1' & H2' & H3').
  assert (V : Rabs (y * y') <= b (m + m')) by (rewrite Rabs_mult, bpow_plus; apply Rmult_le_compat; auto using Rabs_pos).
  destruct (fmul_near prec top A y y' (m + m') ltac:(lia) ltac:(lia) V) as (E & Fz & Hz). exists (near (y * y')). split; [exact E|]. split; [exact Fz|]. split; [exact Hz|].
  split; [rewrite Rabs_mult, bpow_plus; apply Rmult_le_compat; auto using Rabs_pos|]. pose proof (near_binade prec top A _ (m + m') ltac:(lia) V) as N.
  replace (near (y * y') - x * x') with ((near (y * y') - y * y') + ((y - x) * y' + x * (y' - x'))) by ring. eapply Rle_trans; [apply Rabs_triang|].
  assert (Rabs ((y - x) * y' + x * (y' - x')) <= e * b m' + b m * e'); [|lra]. eapply Rle_trans; [apply Rabs_triang|]. rewrite !Rabs_mult.
  apply Rplus_le_compat; apply Rmult_le_compat; auto using Rabs_pos.
Qed.
Lemma within_mul m m' a a' : (3 - top <= m + m')%Z -> (m + m' + 1 <= top)%Z -> within m a -> within m' a' -> within (m + m') (fmul prec top a a').
Proof.
  intros L T H H'. apply within_about in H as (y & _ & _ & H). apply within_about in H' as (y' & _ & _ & H'). eapply about_within, about_mul; eauto.
Qed.

(** ** Square roots *)
Lemma eta_u : b (3 - top - prec) <= u * u.
Proof. unfold unit_roundoff. rewrite <- bpow_plus. apply bpow_le. pose proof (top_big prec top A) as TB. lia. Qed.
Lemma sqrt_close c x y : 0 <= c -> 0 <= x -> 0 <= y -> Rabs (y - x) <= c * u * x + b (3 - top - prec) -> Rabs (sqrt y - sqrt x) <= c * u * sqrt x + u.
Proof.
  intros C X Y H. pose proof eta_u as E. assert (U : 0 < u) by apply u_pos. pose proof (sqrt_sqrt x X) as SX. pose proof (sqrt_sqrt y Y) as SY. pose proof (sqrt_pos x) as PX. pose proof (sqrt_pos y) as PY.
  set (s := sqrt x) in *. set (t := sqrt y) in *. set (w := c * u). assert (W0 : 0 <= w) by (unfold w; nra). fold w in H |- *.
  assert (H' : Rabs (t * t - s * s) <= w * (s * s) + u * u) by (rewrite SX, SY; lra). clearbody s t w. apply Rabs_le_inv in H'. apply Rabs_le. split.
  - destruct (Rle_dec (w * s + u) s) as [D|D]; [|lra]. apply Rnot_lt_le. intros L. assert (t < s - (w * s + u)) by lra.
    assert (t * t <= (s - (w * s + u)) * (s - (w * s + u))) by (apply Rmult_le_compat; lra). assert (0 <= w * s) by now apply Rmult_le_pos. assert (U1 : u <= s) by lra.
    assert ((s - (w * s + u)) * (s - (w * s + u)) < (s - (w * s + u)) * s) by (apply Rmult_lt_compat_l; lra). assert (u * u <= u * s) by (apply Rmult_le_compat_l; lra). nra.
  - apply Rnot_lt_le. intros L. assert (0 <= w * s) by now apply Rmult_le_pos. assert (Q : (s + (w * s + u)) * (s + (w * s + u)) < t * t) by (apply Rmult_le_0_lt_compat; lra).
    assert (0 <= u * s) by (apply Rmult_le_pos; lra). nra.
Qed.
(** the rounded root of a number with relative error *)
Lemma about_sqrt c m x y : 0 <= c -> (0 <= m)%Z -> (m + 1 <= top)%Z -> float y -> 0 <= y -> 0 <= x -> y <= b m * b m -> x <= b m * b m -> Rabs (y - x) <= c * u * x + b (3 - top - prec) ->
  about m (c * u * sqrt x + u + u * b m / 2) (sqrt x) (fsqrt prec top (Fi y)).
Proof.
  intros C M T F Y X By Bx H. pose proof A as (_ & P3 & _). pose proof (top_big prec top A) as TB. pose proof (bpow_gt_0 radix2 m) as B0. assert (Ry : sqrt y <= b m) by (rewrite <- (sqrt_square (b m)) by lra; now apply sqrt_le_1_alt).
  assert (Rx : sqrt x <= b m) by (rewrite <- (sqrt_square (b m)) by lra; now apply sqrt_le_1_alt). pose proof (sqrt_pos x). pose proof (sqrt_pos y).
  unfold fsqrt. destruct (Rlt_dec y 0); [lra|]. assert (V : Rabs (sqrt y) <= b m) by (rewrite Rabs_pos_eq; lra).
  destruct (float_near prec top A (sqrt y)) as (-> & Fz); [eapply Rle_trans; [exact V|apply bpow_le; lia]|]. exists (near (sqrt y)). split; [reflexivity|]. split; [exact Fz|].
  split; [apply near_bpow; [exact W|lia|exact V]|]. split; [rewrite Rabs_pos_eq; lra|].
  pose proof (near_binade prec top A _ m ltac:(lia) V) as N. pose proof (sqrt_close c x y C X Y H) as S. apply Rabs_le_inv in N, S. apply Rabs_le. split; lra.
Qed.
Lemma about_sqrt_float m y : (0 <= m)%Z -> (m + 1 <= top)%Z -> float y -> 0 <= y <= b m * b m -> about m (u * b m / 2) (sqrt y) (fsqrt prec top (Fi y)).
Proof.
  intros M T F (Y & By). pose proof A as (_ & P3 & _). pose proof (top_big prec top A) as TB. pose proof (bpow_gt_0 radix2 m) as B0. assert (Ry : sqrt y <= b m) by (rewrite <- (sqrt_square (b m)) by lra; now apply sqrt_le_1_alt). pose proof (sqrt_pos y).
  unfold fsqrt. destruct (Rlt_dec y 0); [lra|]. assert (V : Rabs (sqrt y) <= b m) by (rewrite Rabs_pos_eq; lra).
  destruct (float_near prec top A (sqrt y)) as (-> & Fz); [eapply Rle_trans; [exact V|apply bpow_le; lia]|]. exists (near (sqrt y)). split; [reflexivity|]. split; [exact Fz|].
  split; [apply near_bpow; [exact W|lia|exact V]|]. split; [exact V|]. exact (near_binade prec top A _ m ltac:(lia) V).
Qed.

(** ** Positions that stay inside a power of two, however many increments are added *)
Lemma add_bounded e m a a' : (m + prec + 1 <= e)%Z -> (0 <= m)%Z -> (e + 1 <= top)%Z -> within e a -> within m a' -> within e (fadd prec top a a').
Proof.
  intros E M T (y & -> & F & H) (y' & -> & F' & H'). pose proof A as (_ & P3 & _). assert (V : Rabs (near (y + y')) <= b e).
  { apply (near_past prec top A); [lia|]. eapply Rle_lt_trans; [apply Rabs_triang|]. assert (b m < b e * u); [|lra]. unfold unit_roundoff. rewrite <- bpow_plus. apply bpow_lt. lia. }
  exists (near (y + y')). unfold fadd. cbn [eadd rounded]. assert (V' : Rabs (near (y + y')) < b top) by (eapply Rle_lt_trans; [exact V|apply bpow_lt; lia]).
  rewrite overflow_small by exact V'. repeat split; try assumption. apply near_fmt. exact W.
Qed.

(** ** SGLD *)
Lemma lr_root lr : float lr -> 0 <= lr <= 1 -> about 0 (u / 2) (sqrt lr) (fsqrt prec top (Fi lr)).
Proof.
  intros F H. pose proof (top_big prec top A) as TB. pose proof A as (_ & p3 & _). apply (about_le 0 0 (u * b 0 / 2)); [lia|cbn; lra|]. apply about_sqrt_float; try lia; [exact F|cbn; lra].
Qed.
Lemma float_bpow e : (3 - top - prec <= e)%Z -> (e < top)%Z -> float (b e).
Proof. intros L T. split; [now apply (fmt_bpow prec top W)|]. rewrite Rabs_pos_eq by apply bpow_ge_0. now apply bpow_lt. Qed.
Lemma about_half : about (-1) 0 (1 / 2) (Fi (1 / 2)).
Proof.
  pose proof (top_big prec top A) as TB. pose proof A as (_ & p3 & _). replace (1 / 2) with (b (-1)) by (cbn; lra). apply about_float; [apply float_bpow; lia|]. rewrite Rabs_pos_eq by apply bpow_ge_0. apply Rle_refl.
Qed.
Lemma about_lr lr : float lr -> 0 <= lr <= 1 -> about 0 0 lr (Fi lr).
Proof. intros F H. apply about_float; [exact F|]. rewrite Rabs_pos_eq; cbn; lra. Qed.
Lemma about_half_lr lr : float lr -> 0 <= lr <= 1 -> about 0 (u / 2) (1 / 2 * lr) (fmul prec top (Fi (1 / 2)) (Fi lr)).
Proof.
  intros F H. pose proof (top_big prec top A) as TB. pose proof A as (_ & p3 & _). assert (U : 0 < u) by apply u_pos. pose proof (about_mul (-1) 0 0 0 _ _ _ _ ltac:(lia) ltac:(lia) about_half (about_lr lr F H)) as M.
  revert M. apply about_le; [lia|]. cbn. lra.
Qed.
Lemma about_random m e z s a : (0 <= m)%Z -> (m + 1 <= top)%Z -> within m z -> about 0 e s a -> exists y, z = Fi y /\ about m (e * b m + u * b m / 2) (y * s) (random_normal prec top z a).
Proof.
  intros M T Hz Hs. pose proof (top_big prec top A) as TB. pose proof A as (_ & p3 & _). apply within_about in Hz as (y & E & F & Hy). exists y. split; [exact E|].
  pose proof (about_mul m 0 0 e _ _ _ _ ltac:(lia) ltac:(lia) Hy Hs) as R. rewrite Z.add_0_r in R. revert R. apply about_le; [lia|]. cbn. lra.
Qed.
Section Tame.
Variables (k : Z) (x : step_input).
Hypothesis K0 : (0 <= k)%Z.
Hypothesis K1 : (k + 1 <= top)%Z.
Hypothesis X : tame prec top k x.
Lemma tame_noise i : exists lr z, s_lr x = Fi lr /\ float lr /\ 0 <= lr <= 1 /\ s_normal x i = Fi z /\ float z /\ Rabs z <= b k /\
  about k (u * b k) (z * sqrt lr) (random_normal prec top (s_normal x i) (fsqrt prec top (s_lr x))).
Proof.
  destruct X as ((lr & E & F & H) & _ & Z & _). destruct (about_random k _ _ _ _ K0 K1 (Z i) (lr_root lr F H)) as (z & Ez & R). exists lr, z. rewrite E. destruct (Z i) as (z' & Ez' & Fz & Bz). assert (z' = z) by congruence. subst z'.
  repeat split; try tauto; try apply F; try apply Fz; try assumption. revert R. apply about_le; [lia|]. lra.
Qed.
Lemma tame_gradient q i : finite_vec prec top q -> exists lr g, s_lr x = Fi lr /\ s_grad x q i = Fi g /\ float g /\ Rabs g <= b k /\
  about k (u * b k) (1 / 2 * lr * g) (fmul prec top (fmul prec top (Fi (1 / 2)) (s_lr x)) (s_grad x q i)) /\
  about k (u * b k / 2) (lr * g) (fmul prec top (s_lr x) (s_grad x q i)).
Proof.
  intros Hq. pose proof (top_big prec top A) as TB. pose proof A as (_ & p3 & _). assert (U : 0 < u) by apply u_pos. pose proof (bpow_gt_0 radix2 k) as B0.
  destruct X as ((lr & E & F & H) & G & _). specialize (G q Hq i). apply within_about in G as (g & Eg & Fg & Hg). exists lr, g. rewrite E. repeat split; try assumption; try apply Fg.
  - destruct Hg as (g' & Eg' & _ & Bg & _). congruence.
  - pose proof (about_mul 0 k _ _ _ _ _ _ ltac:(lia) ltac:(lia) (about_half_lr lr F H) Hg) as M. revert M. apply about_le; [lia|]. cbn [Z.add]. lra.
  - pose proof (about_mul 0 k _ _ _ _ _ _ ltac:(lia) ltac:(lia) (about_lr lr F H) Hg) as M. revert M. apply about_le; [lia|]. cbn [Z.add]. lra.
Qed.
End Tame.
Lemma within_finite e q : (forall i, within e (q i)) -> finite_vec prec top q.
Proof. intros H i. destruct (H i) as (y & E & F & _). eauto. Qed.
Lemma sgld_bounded k e x q : (0 <= k)%Z -> (k + prec + 1 <= e)%Z -> (e + 1 <= top)%Z -> tame prec top k x ->
  (forall i, within e (q i)) -> forall i, within e (fsgld prec top q x i).
Proof.
  intros K0 K1 E X H i. pose proof A as (_ & p3 & _). unfold fsgld. destruct (tame_noise k x K0 ltac:(lia) X i) as (lr & z & _ & _ & _ & _ & _ & _ & N). destruct (tame_gradient k x K0 ltac:(lia) X q i (within_finite e q H)) as (lr' & g & _ & _ & _ & _ & G & _).
  apply about_within in N, G. apply (add_bounded e k); try lia; [|exact N]. apply (add_bounded e k); try lia; [apply H|exact G].
Qed.

(** ** PSGLD *)
Section PSGLD.
Variable libsquare : R -> R.
Hypothesis FS : forall x, float x -> faithful_at prec top libsquare (fun x => x * x) x.
Variables (d d1 eps : R) (j k : Z).
Hypothesis Fd : float d.
Hypothesis Fd1 : float d1.
Hypothesis D0 : 0 <= d.
Hypothesis D1 : 0 <= d1 <= 1.
Hypothesis DD : d + d1 / 2 <= 1.
Hypothesis Fe : float eps.
Hypothesis E0 : b (- j) <= eps <= 1.
Hypothesis J0 : (0 <= j)%Z.
Hypothesis K0 : (0 <= k)%Z.
Hypothesis K2 : (2 * k + 2 <= top)%Z.
Hypothesis K3 : (k + 4 <= top)%Z.
Hypothesis J1 : (j + k + 1 <= top)%Z.
Notation rms := (frms prec top libsquare (Fi d) (Fi d1)).
Notation pre := (fpreconditioner prec top (Fi eps)).
Lemma scale_exact y e : fmt y -> (0 <= e)%Z -> near (y * b e) = y * b e.
Proof. intros F E. apply (near_id prec top). apply Mult_error.mult_bpow_pos_exact_FLT; [exact F|exact E]. Qed.
Lemma b_2k : b (2 * k) = b k * b k. Proof. rewrite <- bpow_plus. f_equal. lia. Qed.
Lemma square_spec g : float g -> Rabs g <= b k -> exists s, fsquare top libsquare (Fi g) = Fi s /\ float s /\ 0 <= s <= b (2 * k) /\ Rabs (s - g * g) <= u * b (2 * k).
Proof.
  intros F G. pose proof (top_big prec top A) as TB. pose proof A as (_ & p3 & _). pose proof (FS g F) as S. assert (Q : 0 <= g * g <= b (2 * k)).
  { split; [apply Rle_0_sqr|]. rewrite b_2k. rewrite <- (Rabs_pos_eq (g * g)) by apply Rle_0_sqr. rewrite Rabs_mult. apply Rmult_le_compat; auto using Rabs_pos. }
  pose proof (fmt_bpow prec top W (2 * k) ltac:(lia)) as Fb. pose proof (faithful_le prec top W _ _ _ _ S Fb (proj2 Q)) as U. pose proof (faithful_ge prec top W _ _ _ 0 S (fmt_0 prec top) (proj1 Q)) as L.
  assert (O : Rabs (libsquare g) < b top) by (rewrite Rabs_pos_eq by exact L; eapply Rle_lt_trans; [exact U|apply bpow_lt; lia]). exists (libsquare g).
  cbn [fsquare]. rewrite (overflow_small top) by exact O. split; [reflexivity|]. split; [split; [exact (faithful_fmt prec top W _ _ _ S)|exact O]|]. split; [lra|].
  destruct (proj2 Q) as [Q2|Q2].
  - destruct (Req_dec (g * g) 0) as [Z|Z].
    + pose proof (faithful_le prec top W _ _ _ 0 S (fmt_0 prec top) ltac:(cbv beta; lra)) as L'. rewrite Z. replace (libsquare g) with 0 by lra. rewrite Rminus_0_r, Rabs_R0. pose proof (bpow_gt_0 radix2 (2 * k)). pose proof (u_pos prec). apply Rmult_le_pos; lra.
    + eapply Rle_trans; [exact (faithful_err prec top W _ _ _ S)|]. rewrite ulp_neq_0 by exact Z. unfold unit_roundoff. rewrite <- bpow_plus. apply bpow_le. unfold cexp, fexpo, FLT_exp.
      assert (mag radix2 (g * g) <= 2 * k)%Z by (apply mag_le_bpow; [exact Z|rewrite Rabs_pos_eq; lra]). lia.
  - pose proof (faithful_ge prec top W _ _ _ _ S Fb ltac:(cbv beta; lra)) as L'. rewrite Q2. replace (libsquare g) with (b (2 * k)) by lra. rewrite Rminus_diag_eq, Rabs_R0 by reflexivity. pose proof (bpow_gt_0 radix2 (2 * k)). pose proof (u_pos prec). apply Rmult_le_pos; lra.
Qed.
Lemma rms_spec a g : float a -> 0 <= a <= b (2 * k + 1) -> float g -> Rabs g <= b k ->
  exists a', rms (Fi a) (Fi g) = Fi a' /\ float a' /\ 0 <= a' <= b (2 * k + 1) /\ Rabs (a' - (d * a + d1 * (g * g))) <= 4 * u * b (2 * k).
Proof.
  intros Fa Ha Fg Hg. pose proof (top_big prec top A) as TB. pose proof A as (_ & p3 & _). assert (U : 0 < u) by apply u_pos. pose proof (bpow_gt_0 radix2 (2 * k)) as B0. pose proof (b_1 (2 * k)) as B1.
  destruct (square_spec g Fg Hg) as (s & Es & Fs & Hs & As). unfold frms. rewrite Es.
  assert (D2 : d <= 1) by lra.
  assert (V1 : Rabs (d * a) <= b (2 * k + 1)) by (rewrite Rabs_pos_eq by (apply Rmult_le_pos; lra); nra).
  assert (V2 : Rabs (d1 * s) <= b (2 * k)) by (rewrite Rabs_pos_eq by (apply Rmult_le_pos; lra); nra).
  destruct (fmul_near prec top A d a (2 * k + 1) ltac:(lia) ltac:(lia) V1) as (-> & F1 & _). destruct (fmul_near prec top A d1 s (2 * k) ltac:(lia) ltac:(lia) V2) as (-> & F2 & _).
  assert (M1 : 0 <= near (d * a) <= d * b (2 * k + 1)).
  { split; [apply (near_nonneg prec top W), Rmult_le_pos; lra|]. rewrite <- (scale_exact d (2 * k + 1)) by (try lia; apply Fd). apply (near_le prec top W). apply Rmult_le_compat_l; lra. }
  assert (M2 : 0 <= near (d1 * s) <= d1 * b (2 * k)).
  { split; [apply (near_nonneg prec top W), Rmult_le_pos; lra|]. rewrite <- (scale_exact d1 (2 * k)) by (try lia; apply Fd1). apply (near_le prec top W). apply Rmult_le_compat_l; lra. }
  assert (M3 : d * b (2 * k + 1) + d1 * b (2 * k) <= b (2 * k + 1)) by (rewrite B1; replace (d * (2 * b (2 * k)) + d1 * b (2 * k)) with ((d + d1 / 2) * (2 * b (2 * k))) by field; nra).
  assert (V3 : Rabs (near (d * a) + near (d1 * s)) <= b (2 * k + 1)) by (rewrite Rabs_pos_eq; lra).
  destruct (fadd_near prec top A _ _ (2 * k + 1) ltac:(lia) ltac:(lia) V3) as (-> & F3 & H3). eexists. split; [reflexivity|]. split; [exact F3|]. split.
  { split; [apply (near_nonneg prec top W); lra|]. apply Rabs_le_inv in H3. lra. }
  pose proof (near_binade prec top A _ (2 * k + 1) ltac:(lia) V1) as N1. pose proof (near_binade prec top A _ (2 * k) ltac:(lia) V2) as N2. pose proof (near_binade prec top A _ (2 * k + 1) ltac:(lia) V3) as N3.
  assert (N4 : Rabs (d1 * (s - g * g)) <= u * b (2 * k)) by (rewrite Rabs_mult, (Rabs_pos_eq d1) by lra; assert (d1 * Rabs (s - g * g) <= 1 * (u * b (2 * k))) by (apply Rmult_le_compat; auto using Rabs_pos; lra); lra).
  rewrite B1 in N1, N3. assert (UB : 0 < u * b (2 * k)) by (apply Rmult_lt_0_compat; assumption). apply Rabs_le_inv in N1, N2, N3, N4. apply Rabs_le. split; lra.
Qed.
Lemma root_factor a : float a -> 0 <= a -> exists f, near (sqrt a) = sqrt a * f /\ Rabs (f - 1) <= 1 * u.
Proof.
  intros Fa Ha. pose proof (top_big prec top A) as TB. pose proof A as (_ & p3 & _). assert (U : 0 < u) by apply u_pos. destruct (Req_dec a 0) as [->|N].
  - exists 1. rewrite sqrt_0, (near_id prec top) by apply (fmt_0 prec top). rewrite Rminus_diag_eq, Rabs_R0 by reflexivity. split; lra.
  - apply (factor_normal prec top A). assert (P : b (3 - top - prec) <= a) by (apply (float_pos prec top); [exact Fa|lra]). rewrite Rabs_pos_eq by apply sqrt_pos.
    rewrite <- (sqrt_square (b (2 - top))) by apply bpow_ge_0. apply sqrt_le_1_alt. rewrite <- bpow_plus. eapply Rle_trans; [|exact P]. apply bpow_le. lia.
Qed.
Lemma pre_spec a : float a -> 0 <= a <= b (2 * k + 1) -> exists g, pre (Fi a) = Fi g /\ float g /\ 0 < g <= b j /\ Rabs (g * (eps + sqrt a) - 1) <= 4 * u.
Proof.
  intros Fa Ha. pose proof (top_big prec top A) as TB. pose proof A as (_ & p3 & _). assert (U : 0 < u) by apply u_pos. pose proof (u_eighth prec top A) as U8. pose proof (bpow_gt_0 radix2 (- j)) as Bj.
  pose proof (sqrt_pos a) as S0. assert (S1 : sqrt a <= b (k + 1)).
  { rewrite <- (sqrt_square (b (k + 1))) by apply bpow_ge_0. apply sqrt_le_1_alt. rewrite <- bpow_plus. eapply Rle_trans; [apply Ha|]. apply bpow_le. lia. }
  unfold fpreconditioner, fsqrt. destruct (Rlt_dec a 0); [lra|]. assert (V : Rabs (sqrt a) <= b (k + 1)) by (rewrite Rabs_pos_eq; lra).
  destruct (float_near prec top A (sqrt a)) as (-> & Fr); [eapply Rle_trans; [exact V|apply bpow_le; lia]|].
  assert (R1 : 0 <= near (sqrt a) <= b (k + 1)) by (pose proof (near_bpow prec top W _ (k + 1) ltac:(lia) V) as Q; apply Rabs_le_inv in Q; split; [now apply (near_nonneg prec top W)|lra]).
  destruct (root_factor a Fa (proj1 Ha)) as (f1 & E1 & H1). set (r := near (sqrt a)) in *.
  assert (One : 1 <= b (k + 1)) by (apply (bpow_le radix2 0); lia). pose proof (b_1 (k + 1)) as B1.
  assert (V2 : Rabs (eps + r) <= b (k + 1 + 1)) by (rewrite Rabs_pos_eq by lra; lra).
  destruct (fadd_near prec top A eps r (k + 1 + 1) ltac:(lia) ltac:(lia) V2) as (-> & Fs & Hs). destruct (factor_add prec top A eps r (proj1 Fe) (proj1 Fr)) as (f2 & E2 & H2).
  assert (S2 : eps <= near (eps + r)) by (apply (near_ge_fmt prec top W); [apply Fe|lra]). set (s := near (eps + r)) in *. apply Rabs_le_inv in Hs.
  rewrite (fdiv_fi prec top) by lra. assert (I1 : 1 / s <= b j) by (unfold Rdiv; rewrite Rmult_1_l; rewrite <- (Z.opp_involutive j), bpow_opp; apply Rinv_le; lra).
  assert (I0 : 0 < 1 / s) by (apply Rdiv_lt_0_compat; lra).
  assert (I2 : b (2 - top) <= Rabs (1 / s)).
  { rewrite Rabs_pos_eq by lra. apply Rle_trans with (b (- (k + 1 + 1))); [apply bpow_le; lia|]. rewrite bpow_opp. unfold Rdiv. rewrite Rmult_1_l. apply Rinv_le; lra. }
  assert (V3 : Rabs (1 / s) <= b j) by (rewrite Rabs_pos_eq; lra). destruct (float_near prec top A (1 / s)) as (-> & Fg); [eapply Rle_trans; [exact V3|apply bpow_le; lia]|].
  destruct (factor_normal prec top A (1 / s) I2) as (f3 & E3 & H3). exists (near (1 / s)). split; [reflexivity|]. split; [exact Fg|].
  pose proof (near_bpow prec top W _ j ltac:(lia) V3) as B3. rewrite Rmult_1_l in H1, H2, H3. apply Rabs_le_inv in H1, H2, H3, B3.
  split; [split; [rewrite E3; apply Rmult_lt_0_compat; lra|lra]|]. rewrite E3, E2, E1. set (t := sqrt a) in *. clearbody t.
  assert (Q0 : 0 < eps + t) by lra. assert (Q1 : Rabs ((eps + t * f1) / (eps + t) - 1) <= u).
  { replace ((eps + t * f1) / (eps + t) - 1) with ((t / (eps + t)) * (f1 - 1)) by (field; lra). rewrite Rabs_mult. rewrite (Rabs_pos_eq (t / (eps + t))) by (apply Rmult_le_pos; [lra|left; now apply Rinv_0_lt_compat]).
    assert (t / (eps + t) <= 1) by (apply (Rmult_le_reg_r (eps + t)); [lra|unfold Rdiv; rewrite Rmult_assoc, Rinv_l by lra; lra]). assert (Rabs (f1 - 1) <= u) by (apply Rabs_le; lra).
    rewrite <- (Rmult_1_l u). apply Rmult_le_compat; auto using Rabs_pos. apply Rmult_le_pos; [lra|left; now apply Rinv_0_lt_compat]. }
  set (f4 := (eps + t * f1) / (eps + t)) in *. assert (E4 : eps + t * f1 = (eps + t) * f4) by (unfold f4; field; lra). apply Rabs_le_inv in Q1.
  rewrite E4. replace (1 / ((eps + t) * f4 * f2) * f3 * (eps + t) - 1) with ((f3 - f4 * f2) / (f4 * f2)) by (field; repeat split; lra).
  assert (P1 : 49 / 64 <= f4 * f2) by (apply Rle_trans with ((1 - u) * (1 - u)); [nra|apply Rmult_le_compat; lra]).
  assert (P2 : (1 - u) * (1 - u) <= f4 * f2 <= (1 + u) * (1 + u)) by (split; apply Rmult_le_compat; lra).
  unfold Rdiv. rewrite Rabs_mult, Rabs_inv, (Rabs_pos_eq (f4 * f2)) by lra. apply (Rmult_le_reg_r (f4 * f2)); [lra|]. rewrite Rmult_assoc, Rinv_l, Rmult_1_r by lra.
  assert (u * u <= u / 8) by nra. assert (4 * u * ((1 - u) * (1 - u)) <= 4 * u * (f4 * f2)) by (apply Rmult_le_compat_l; lra). assert (49 / 64 * (4 * u) <= 4 * u * (f4 * f2)) by nra. apply Rabs_le. split; nra.
Qed.
Lemma psgld_bounded e x q aux : (j + k + prec + 1 <= e)%Z -> (e + 1 <= top)%Z -> tame prec top k x ->
  (forall i, within e (q i)) -> (forall i, exists a, aux i = Fi a /\ float a /\ 0 <= a <= b (2 * k + 1)) ->
  let s := fpsgld prec top libsquare (Fi d) (Fi d1) (Fi eps) (q, aux) x in
  (forall i, within e (fst s i)) /\ (forall i, exists a, snd s i = Fi a /\ float a /\ 0 <= a <= b (2 * k + 1)).
Proof.
  intros E1 E2 X Hq Ha. pose proof (top_big prec top A) as TB. pose proof A as (_ & p3 & _). cbn [fpsgld fst snd].
  assert (Aux : forall i, exists a, rms (aux i) (s_grad x q i) = Fi a /\ float a /\ 0 <= a <= b (2 * k + 1)).
  { intros i. destruct (Ha i) as (a & -> & Fa & Ra). destruct X as (_ & G & _). destruct (G q (within_finite e q Hq) i) as (g & -> & Fg & Bg). destruct (rms_spec a g Fa Ra Fg Bg) as (a' & Ea & F & R & _). eauto. }
  split; [|exact Aux]. intros i. destruct (Aux i) as (a & -> & Fa & Ra). destruct (pre_spec a Fa Ra) as (g & -> & Fg & Hg & _).
  pose proof X as ((lr & El & Fl & Hl) & G & Z & _). rewrite El. assert (Hg' : within j (Fi g)) by (exists g; repeat split; try apply Fg; rewrite Rabs_pos_eq; lra).
  apply (add_bounded e (j + k)); try lia; [apply (add_bounded e (j + k)); try lia; [apply Hq|]|].
  - apply within_mul; try lia; [|apply G, (within_finite e q Hq)]. apply (within_mul 0 j); try lia; [|exact Hg']. exact (about_within _ _ _ _ (about_half_lr lr Fl Hl)).
  - unfold random_normal. rewrite Z.add_comm. apply within_mul; try lia; [apply Z|]. assert (L : within j (fmul prec top (Fi lr) (Fi g))) by (apply (within_mul 0 j); try lia; [exact (about_within _ _ _ _ (about_lr lr Fl Hl))|exact Hg']).
    assert (L0 : fmul prec top (Fi lr) (Fi g) = Fi (near (lr * g)) /\ float (near (lr * g)) /\ Rabs (near (lr * g)) <= b j).
    { apply (fmul_near prec top A); try lia. rewrite Rabs_mult, !Rabs_pos_eq by lra. nra. }
    destruct L0 as (-> & F0 & B0). apply Rabs_le_inv in B0. assert (P0 : 0 <= near (lr * g)) by (apply (near_nonneg prec top W), Rmult_le_pos; lra).
    apply (about_within j (u * b j / 2) (sqrt (near (lr * g)))). apply about_sqrt_float; try lia; [exact F0|]. assert (1 <= b j) by (apply (bpow_le radix2 0); lia). split; [exact P0|nra].
Qed.
End PSGLD.

(** ** SGHMC *)
Lemma noise_root c w lr f : 0 <= c <= 1 -> float w -> w = c * f -> Rabs (f - 1) <= 1 * u -> 0 <= w <= 1 -> float lr -> 0 <= lr <= 1 ->
  about 1 (6 * u) (sqrt (2 * c * lr)) (fsqrt prec top (fmul prec top (fmul prec top (Fi 2) (Fi w)) (Fi lr))).
Proof.
  intros C Fw Ew Hf Hw Fl Hl. pose proof (top_big prec top A) as TB. pose proof A as (_ & p3 & _). assert (U : 0 < u) by apply u_pos. pose proof (u_eighth prec top A) as U8.
  assert (F2 : float (2 * w)).
  { split; [apply (fmt_twice prec top), Fw|]. apply Rle_lt_trans with (b 1); [rewrite Rabs_pos_eq by lra; cbn; lra|apply bpow_lt; lia]. }
  assert (E2 : fmul prec top (Fi 2) (Fi w) = Fi (2 * w)) by (unfold fmul; cbn [emul]; now apply (rounded_float prec top)). rewrite E2.
  assert (P : 0 <= 2 * w * lr <= 2) by (split; [apply Rmult_le_pos; lra|nra]). destruct (fmul_near prec top A (2 * w) lr 1 ltac:(lia) ltac:(lia)) as (-> & Fy & By); [rewrite Rabs_pos_eq by lra; cbn; lra|].
  destruct (factor_mul prec top A (2 * w * lr)) as (f2 & e & Ey & H2 & He). pose proof (close_mult f f2 1 1 u ltac:(lra) ltac:(lra) ltac:(lra) Hf H2) as FF.
  assert (Q0 : 0 <= 2 * c * lr <= 2) by (split; [apply Rmult_le_pos; lra|nra]).
  assert (S : sqrt (2 * c * lr) <= 3 / 2) by (rewrite <- (sqrt_square (3 / 2)) by lra; apply sqrt_le_1_alt; lra). pose proof (sqrt_pos (2 * c * lr)) as S0.
  apply (about_le 1 1 ((1 + 1 + 1 * 1 / 8) * u * sqrt (2 * c * lr) + u + u * b 1 / 2)); [lia|cbn; nra|]. apply about_sqrt; try lia; try lra.
  - exact Fy.
  - apply (near_nonneg prec top W). lra.
  - apply Rabs_le_inv in By. cbn in By |- *. lra.
  - cbn. lra.
  - rewrite Ey, Ew. replace (2 * (c * f) * lr * f2 + e - 2 * c * lr) with (2 * c * lr * (f * f2 - 1) + e) by ring. eapply Rle_trans; [apply Rabs_triang|]. rewrite Rabs_mult, (Rabs_pos_eq (2 * c * lr)) by lra.
    pose proof (bpow_gt_0 radix2 (3 - top - prec)) as Eta. assert (2 * c * lr * Rabs (f * f2 - 1) <= 2 * c * lr * ((1 + 1 + 1 * 1 / 8) * u)) by (apply Rmult_le_compat_l; lra). lra.
Qed.
Lemma damped a v x y t k m : float a -> 0 <= a <= 1 - 15 / 16 * t -> fmt v -> Rabs v <= b m -> fmt x -> Rabs x <= b k -> fmt y -> Rabs y <= 2 * b k ->
  0 < t <= 1 -> u <= t / 8 -> b m * t = 16 * b k -> (0 <= m)%Z -> Rabs (near (near (near (a * v) + x) + y)) <= b m.
Proof.
  intros Fa Ha Fv Hv Fx Hx Fy Hy T Ut E M. assert (U : 0 < u) by apply u_pos. pose proof (bpow_gt_0 radix2 k) as B0. pose proof (bpow_gt_0 radix2 m) as BM.
  assert (N1 : Rabs (near (a * v)) <= a * b m).
  { assert (Up : forall v, v <= b m -> near (a * v) <= a * b m) by (intros w Hw; rewrite <- (scale_exact a m) by (try exact M; apply Fa); apply (near_le prec top W), Rmult_le_compat_l; lra).
    apply Rabs_le_inv in Hv. apply Rabs_le. split; [|apply Up; lra]. pose proof (Up (- v) ltac:(lra)) as Q. rewrite Ropp_mult_distr_r_reverse, (near_opp prec top) in Q. lra. }
  destruct (factor_add prec top A (near (a * v)) x (near_fmt prec top W _) Fx) as (f1 & E1 & H1). destruct (factor_add prec top A _ y (near_fmt prec top W (near (a * v) + x)) Fy) as (f2 & E2 & H2).
  rewrite E2, Rabs_mult. rewrite Rmult_1_l in H1, H2. assert (G1 : Rabs f1 <= 1 + u) by (apply Rabs_le_inv in H1; apply Rabs_le; pose proof (u_eighth prec top A); lra).
  assert (G2 : Rabs f2 <= 1 + u) by (apply Rabs_le_inv in H2; apply Rabs_le; pose proof (u_eighth prec top A); lra).
  assert (X1 : Rabs (near (near (a * v) + x)) <= (a * b m + b k) * (1 + u)).
  { rewrite E1, Rabs_mult. apply Rmult_le_compat; auto using Rabs_pos. eapply Rle_trans; [apply Rabs_triang|lra]. }
  apply Rle_trans with (((a * b m + b k) * (1 + u) + 2 * b k) * (1 + u)); [apply Rmult_le_compat; auto using Rabs_pos; eapply Rle_trans; [apply Rabs_triang|lra]|].
  assert (U1 : (1 + u) * (1 + u) <= 1 + t / 4 + t / 64) by nra.
  assert (U2 : a * ((1 + u) * (1 + u)) <= 1 - t / 2).
  { apply Rle_trans with ((1 - 15 / 16 * t) * (1 + t / 4 + t / 64)); [apply Rmult_le_compat; try lra; nra|nra]. }
  replace (((a * b m + b k) * (1 + u) + 2 * b k) * (1 + u)) with (b m * (a * ((1 + u) * (1 + u))) + b k * ((1 + u) * (1 + u)) + 2 * b k * (1 + u)) by ring.
  assert (b m * (a * ((1 + u) * (1 + u))) <= b m * (1 - t / 2)) by (apply Rmult_le_compat_l; lra). assert (b k * ((1 + u) * (1 + u)) <= b k * (1 + t / 4 + t / 64)) by (apply Rmult_le_compat_l; lra).
  assert (u <= 1 / 8) by lra. assert (2 * b k * (1 + u) <= 2 * b k * (9 / 8)) by (apply Rmult_le_compat_l; lra). assert (b k * (1 + t / 4 + t / 64) <= b k * 2) by (apply Rmult_le_compat_l; lra). lra.
Qed.
Section SGHMC.
Variable libexp : R -> R.
Hypothesis FE : faithful_exp prec top libexp.
Variables (alpha beta : R) (j k : Z).
Hypothesis Fa : float alpha.
Hypothesis Fb : float beta.
Hypothesis Ha : b (- j) <= alpha <= 1.
Hypothesis Hb : 0 <= beta <= alpha.
Hypothesis J0 : (0 <= j)%Z.
Hypothesis J1 : (j + 5 <= prec)%Z.
Hypothesis K0 : (0 <= k)%Z.
Hypothesis K1 : (k + 3 <= top)%Z.
Lemma friction_noise lr : float lr -> 0 <= lr <= 1 ->
  about 1 (6 * u) (sqrt (2 * (alpha - beta) * lr)) (fsqrt prec top (fmul prec top (fmul prec top (Fi 2) (fsub prec top (Fi alpha) (Fi beta))) (Fi lr))).
Proof.
  intros Fl Hl. pose proof (top_big prec top A) as TB. pose proof A as (_ & p3 & _). destruct (fsub_near prec top A alpha beta 0 ltac:(lia) ltac:(lia)) as (-> & Fw & Bw); [rewrite Rabs_pos_eq; cbn; lra|].
  destruct (factor_sub prec top A alpha beta (proj1 Fa) (proj1 Fb)) as (f & E & H). apply (noise_root (alpha - beta) _ lr f); try assumption; [lra|]. split; [apply (near_nonneg prec top W); lra|apply Rabs_le_inv in Bw; cbn in Bw; lra].
Qed.
Definition kept : R := near (1 - alpha).
Lemma kept_spec : fsub prec top (Fi 1) (Fi alpha) = Fi kept /\ float kept /\ 0 <= kept <= 1 /\ Rabs (kept - (1 - alpha)) <= u / 2.
Proof.
  pose proof (top_big prec top A) as TB. pose proof (bpow_gt_0 radix2 (- j)) as Bj. assert (V : Rabs (1 - alpha) <= b 0) by (rewrite Rabs_pos_eq; cbn; lra).
  destruct (fsub_near prec top A 1 alpha 0 ltac:(lia) ltac:(lia) V) as (E & F & B). split; [exact E|]. split; [exact F|]. split; [split; [apply (near_nonneg prec top W); lra|apply Rabs_le_inv in B; cbn in B; unfold kept; lra]|].
  pose proof (near_binade prec top A _ 0 ltac:(lia) V) as N. cbn in N. unfold kept. lra.
Qed.
Definition halved : R := libexp (- alpha / 2).
Lemma halved_spec : feexp top libexp (fmul prec top (Fi (-1/2)) (Fi alpha)) = Fi halved /\ float halved /\ 0 <= halved <= 1 - b (- j - 2) /\ Rabs (halved - exp (- alpha / 2)) <= u.
Proof.
  pose proof (top_big prec top A) as TB. pose proof A as (_ & p3 & _). pose proof (bpow_gt_0 radix2 (- j)) as Bj.
  assert (Fh : float (- alpha / 2)).
  { split; [replace (- alpha / 2) with (- (1 / 2 * alpha)) by field; apply fmt_opp, (fmt_half prec top); [apply Fa|eapply Rle_trans; [|apply Ha]; apply bpow_le; lia]|].
    apply Rle_lt_trans with (b 0); [unfold Rdiv; rewrite Rabs_mult, Rabs_Ropp, !Rabs_pos_eq by lra; cbn; lra|apply bpow_lt; lia]. }
  assert (E : fmul prec top (Fi (-1/2)) (Fi alpha) = Fi (- alpha / 2)).
  { unfold fmul. cbn [emul]. replace (-1 / 2 * alpha) with (- alpha / 2) by field. now apply (rounded_float prec top). }
  rewrite E. destruct (lib_exp_spec prec top W libexp _ FE Fh ltac:(lra)) as (F & H & Er & _). fold halved in F, H, Er. cbn [feexp]. fold halved.
  assert (O : Rabs halved < b top) by (apply (below_top prec top W); rewrite Rabs_pos_eq; lra). rewrite (overflow_small top) by exact O. split; [reflexivity|]. split; [split; assumption|]. split; [|exact Er]. split; [lra|].
  assert (B2 : b (- j - 2) = b (- j) / 4) by (unfold Z.sub; rewrite bpow_plus; cbn; lra).
  assert (B3 : b (- j) <= 1) by (change 1 with (b 0); apply bpow_le; lia).
  apply (faithful_le prec top W _ _ _ _ (FE _ Fh)).
  - replace (1 - b (- j - 2)) with (IZR (2 ^ (j + 2) - 1) * b (- j - 2)).
    + apply (fmt_grid prec top W); [|lia]. assert (1 <= 2 ^ (j + 2))%Z by (apply (Z.pow_le_mono_r 2 0); lia). assert (2 ^ (j + 2) <= 2 ^ prec)%Z by (apply Z.pow_le_mono_r; lia). lia.
    + rewrite minus_IZR. change (2 ^ (j + 2))%Z with (Zpower radix2 (j + 2)). rewrite (IZR_Zpower radix2) by lia. rewrite Rmult_minus_distr_r, <- bpow_plus. replace (j + 2 + (- j - 2))%Z with 0%Z by lia. cbn. ring.
  - set (z := b (- j) / 2). apply Rle_trans with (exp (- z)); [apply exp_le; unfold z; lra|]. rewrite exp_Ropp. pose proof (exp_ineq1_le z) as X.
    apply Rle_trans with (/ (1 + z)); [apply Rinv_le; unfold z in *; lra|]. apply (Rmult_le_reg_r (1 + z)); [unfold z; lra|]. rewrite Rinv_l by (unfold z; lra). rewrite B2. unfold z. nra.
Qed.
Lemma old_bounded m x v : (k <= m)%Z -> tame prec top k x -> (forall i, within m (v i)) -> forall i, within m (fold_v prec top v x i).
Proof.
  intros M ((lr & E & F & H) & _ & _ & Z) V i. unfold fold_v. destruct (s_resample x) as [z|]; [|apply V]. unfold fmomentum0. rewrite E.
  destruct (about_random k _ _ _ _ K0 ltac:(lia) (Z z eq_refl i) (lr_root lr F H)) as (y & _ & R). apply about_within in R. revert R. now apply within_le.
Qed.
Lemma gaussian_bounded x i : tame prec top k x ->
  within (k + 1) (random_normal prec top (s_normal x i) (fsqrt prec top (fmul prec top (fmul prec top (Fi 2) (fsub prec top (Fi alpha) (Fi beta))) (s_lr x)))).
Proof.
  intros ((lr & E & F & H) & _ & Z & _). pose proof (top_big prec top A) as TB. rewrite E. apply within_mul; try lia; [apply Z|]. exact (about_within _ _ _ _ (friction_noise lr F H)).
Qed.
Lemma sghmc_bounded second e x q v : (k + j + 6 + prec + 1 <= e)%Z -> (e + 1 <= top)%Z -> tame prec top k x ->
  (forall i, within e (q i)) -> (forall i, within (k + j + 6) (v i)) ->
  let s := fsghmc prec top libexp (Fi alpha) (Fi beta) second (q, v) x in
  (forall i, within e (fst s i)) /\ (forall i, within (k + j + 6) (snd s i)).
Proof.
  intros E1 E2 X Hq Hv. pose proof (top_big prec top A) as TB. pose proof A as (_ & p3 & _). set (m := (k + j + 6)%Z) in *.
  assert (Ho := old_bounded m x v ltac:(lia) X Hv). pose proof (bpow_gt_0 radix2 (- j)) as Bj.
  set (t := b (- j - 2)). assert (T : 0 < t <= 1) by (split; [apply bpow_gt_0|change 1 with (b 0); apply bpow_le; lia]).
  assert (T4 : b (- j) = 4 * t) by (unfold t, Z.sub; rewrite bpow_plus; cbn; lra).
  assert (Ut : u <= t / 8) by (replace (t / 8) with (b (- j - 5)) by (unfold t, Z.sub; rewrite !bpow_plus; cbn; lra); apply bpow_le; lia).
  assert (Bt : b m * t = 16 * b k) by (unfold t; rewrite <- bpow_plus; replace (m + (- j - 2))%Z with (k + 4)%Z by lia; rewrite bpow_plus; cbn; lra).
  assert (New : forall a g q', float a -> 0 <= a <= 1 - 15 / 16 * t -> finite_vec prec top q' -> g = s_grad x q' -> forall i,
    within m (fadd prec top (fadd prec top (fmul prec top (Fi a) (fold_v prec top v x i)) (fmul prec top (s_lr x) (g i)))
      (random_normal prec top (s_normal x i) (fsqrt prec top (fmul prec top (fmul prec top (Fi 2) (fsub prec top (Fi alpha) (Fi beta))) (s_lr x)))))).
  { intros a g q' Fn Hn Fq' -> i. destruct (gaussian_bounded x i X) as (y & -> & Fy & By). destruct (tame_gradient k x K0 ltac:(lia) X q' i Fq') as (lr & g & _ & _ & _ & _ & _ & G). apply about_within in G as (w & -> & Fw & Bw).
    destruct (Ho i) as (o & -> & Fo & Bo). assert (V : Rabs (a * o) <= b m) by (rewrite Rabs_mult, (Rabs_pos_eq a) by lra; pose proof (Rabs_pos o); nra).
    destruct (fmul_near prec top A a o m ltac:(lia) ltac:(lia) V) as (-> & Fao & Bao). assert (Bkm : b k <= b m) by (apply bpow_le; lia). pose proof (b_1 m) as B1.
    assert (V2 : Rabs (near (a * o) + w) <= b (m + 1)) by (rewrite B1; eapply Rle_trans; [apply Rabs_triang|lra]).
    destruct (fadd_near prec top A _ w (m + 1) ltac:(lia) ltac:(lia) V2) as (-> & Fs & Bs). rewrite (b_1 k) in By.
    pose proof (damped a o w y t k m Fn Hn (proj1 Fo) Bo (proj1 Fw) Bw (proj1 Fy) By T Ut Bt ltac:(lia)) as D. exists (near (near (near (a * o) + w) + y)). unfold fadd. cbn [eadd rounded].
    assert (D' : Rabs (near (near (near (a * o) + w) + y)) < b top) by (eapply Rle_lt_trans; [exact D|apply bpow_lt; lia]). rewrite (overflow_small top) by exact D'. repeat split; try assumption. apply (near_fmt prec top W). }
  unfold fsghmc. destruct second; cbn [negb fst snd].
  - destruct halved_spec as (-> & Fh & Hh & _). fold t in Hh.
    assert (Q1 : forall i, within e (fadd prec top (q i) (fmul prec top (Fi (1 / 2)) (fold_v prec top v x i)))).
    { intros i. apply (add_bounded e m); try lia; [apply Hq|]. apply (within_le (-1 + m)); [lia|]. apply within_mul; try lia; [exact (about_within _ _ _ _ about_half)|apply Ho]. }
    assert (V : forall i, within m (fmul prec top (Fi halved) (fadd prec top (fadd prec top (fmul prec top (Fi halved) (fold_v prec top v x i)) (fmul prec top (s_lr x) (s_grad x (fun i => fadd prec top (q i) (fmul prec top (Fi (1 / 2)) (fold_v prec top v x i))) i)))
      (random_normal prec top (s_normal x i) (fsqrt prec top (fmul prec top (fmul prec top (Fi 2) (fsub prec top (Fi alpha) (Fi beta))) (s_lr x))))))).
    { intros i. apply (within_mul 0 m); try lia; [exists halved; repeat split; try apply Fh; rewrite Rabs_pos_eq; cbn; lra|]. eapply New; [exact Fh|lra|apply (within_finite e), Q1|reflexivity]. }
    split; [|exact V]. intros i. apply (add_bounded e m); try lia; [apply Q1|]. apply (within_le (-1 + m)); [lia|]. apply within_mul; try lia; [exact (about_within _ _ _ _ about_half)|apply V].
  - destruct kept_spec as (-> & Fk & Hk & Ek). apply Rabs_le_inv in Ek.
    assert (V := fun i => New kept _ q Fk ltac:(lra) (within_finite e q Hq) eq_refl i). split; [|exact V]. intros i. apply (add_bounded e m); try lia; [apply Hq|apply V].
Qed.
End SGHMC.

(** ** Accuracy of a step *)
Lemma velocity r k ea en a o lg n a' o' g' n' : (0 <= k <= r)%Z -> (r + 4 <= top)%Z -> 0 <= ea -> about 0 ea a a' -> about r 0 o o' -> about k (u * b k / 2) lg g' -> about (k + 1) (en * u * b k) n n' -> 0 <= en ->
  about (r + 2) ((ea + (4 + en) * u) * b r) (a * o + lg + n) (fadd prec top (fadd prec top (fmul prec top a' o') g') n').
Proof.
  intros K R Ea Ha Ho Hg Hn En. pose proof (top_big prec top A) as TB. pose proof A as (_ & p3 & _). assert (U : 0 < u) by apply u_pos. assert (B : b k <= b r) by (apply bpow_le; lia). pose proof (bpow_gt_0 radix2 k) as B0.
  assert (UB : u * b k <= u * b r) by (apply Rmult_le_compat_l; lra). assert (EB : en * (u * b k) <= en * (u * b r)) by (apply Rmult_le_compat_l; lra).
  pose proof (about_mul 0 r _ _ _ _ _ _ ltac:(lia) ltac:(lia) Ha Ho) as M. cbn [Z.add] in M. apply (about_le k r _ (u * b r / 2)) in Hg; [|lia|lra].
  pose proof (about_add r _ _ _ _ _ _ ltac:(lia) ltac:(lia) M Hg) as S. apply (about_le (k + 1) (r + 1) _ (en * u * b r)) in Hn; [|lia|lra].
  pose proof (about_add (r + 1) _ _ _ _ _ _ ltac:(lia) ltac:(lia) S Hn) as V. revert V. apply about_le; [lia|]. rewrite (b_1 r). change (b 0) with 1. lra.
Qed.
Lemma drift m ed e' q q' v v' : (0 <= m)%Z -> (m + 2 <= top)%Z -> about m ed q q' -> about m e' v v' -> about (m + 1) (ed + e' + u * b m) (q + v) (fadd prec top q' v').
Proof. intros M T. pose proof (top_big prec top A) as TB. pose proof A as (_ & p3 & _). apply about_add; lia. Qed.
Lemma half_of m e v v' : (0 <= m)%Z -> (m + 1 <= top)%Z -> about (m + 1) e v v' -> about m (e / 2 + u * b m / 2) (1 / 2 * v) (fmul prec top (Fi (1 / 2)) v').
Proof.
  intros M T H. pose proof (top_big prec top A) as TB. pose proof A as (_ & p3 & _). pose proof (about_mul (-1) (m + 1) _ _ _ _ _ _ ltac:(lia) ltac:(lia) about_half H) as P. replace (-1 + (m + 1))%Z with m in P by lia. revert P. apply about_le; [lia|]. change (b (-1)) with (/ 2). lra.
Qed.

(** ** Updates that are lost *)
Lemma fmt_multiple y e : fmt y -> b (e - 1) <= Rabs y -> exists n, y = IZR n * b (e - prec).
Proof.
  intros F H. assert (M : (e <= mag radix2 y)%Z) by now apply mag_ge_bpow. assert (C : (e - prec <= cexp radix2 (fexpo prec top) y)%Z) by (unfold cexp, fexpo, FLT_exp; lia).
  set (c := cexp radix2 (fexpo prec top) y) in *. exists (Ztrunc (scaled_mantissa radix2 (fexpo prec top) y) * 2 ^ (c - (e - prec)))%Z.
  rewrite mult_IZR. change (2 ^ (c - (e - prec)))%Z with (Zpower radix2 (c - (e - prec))). rewrite (IZR_Zpower radix2) by lia. rewrite Rmult_assoc, <- bpow_plus. replace (c - (e - prec) + (e - prec))%Z with c by lia. exact F.
Qed.
Lemma near_absorb q d e : fmt q -> b e <= Rabs q -> Rabs d < b (e - prec - 1) -> near (q + d) = q.
Proof.
  intros F Q D. pose proof A as (_ & p3 & _). set (x := q + d). set (f := near x). assert (Ff : fmt f) by apply (near_fmt prec top W).
  assert (N : Rabs (f - x) <= Rabs (q - x)) by (apply (proj2 (round_N_pt radix2 (fexpo prec top) (fun z => negb (Z.even z)) x)); exact F).
  replace (q - x) with (- d) in N by (unfold x; ring). rewrite Rabs_Ropp in N. assert (B : b (e - prec) = 2 * b (e - prec - 1)) by (rewrite <- b_1; f_equal; lia).
  assert (C : Rabs (f - q) < b (e - prec)) by (replace (f - q) with ((f - x) + d) by (unfold x; ring); eapply Rle_lt_trans; [apply Rabs_triang|lra]).
  assert (B2 : b (e - prec) <= b (e - 1)) by (apply bpow_le; lia). assert (B3 : b e = 2 * b (e - 1)) by (rewrite <- b_1; f_equal; lia).
  destruct (fmt_multiple q e F) as (n & En); [pose proof (bpow_gt_0 radix2 (e - 1)); lra|]. destruct (fmt_multiple f e Ff) as (n' & En').
  { pose proof (Rabs_triang_inv q (q - f)) as T. replace (q - (q - f)) with f in T by ring. rewrite (Rabs_minus_sym q f) in T. lra. }
  pose proof (bpow_gt_0 radix2 (e - prec)) as P. rewrite En, En' in C. rewrite <- Rmult_minus_distr_r, Rabs_mult, (Rabs_pos_eq (b (e - prec))) in C by lra.
  assert (C' : Rabs (IZR n' - IZR n) < 1) by (apply (Rmult_lt_reg_r (b (e - prec))); lra). rewrite <- minus_IZR, <- abs_IZR in C'. apply lt_IZR in C'. assert (n' = n) by lia. subst n'. now rewrite En', En.
Qed.
Lemma fadd_absorb q d e : float q -> b e <= Rabs q -> Rabs d < b (e - prec - 1) -> fadd prec top (Fi q) (Fi d) = Fi q.
Proof. intros F Q D. unfold fadd. cbn [eadd rounded]. rewrite (near_absorb q d e) by (try apply F; assumption). apply (overflow_small top), F. Qed.
End Proofs.
