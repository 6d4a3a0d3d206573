(** Lemmas for C67. *)
From Coq Require Import List Arith Bool Reals ZArith Lra Lia Permutation.
From Flocq Require Import Core.
From Verif Require Import ModelExt ModelSpecial ModelNum ModelTensor ModelFloat ModelFloatSample ModelDist ModelFlow ModelFloatFlow SpecFloat SpecFloatImportance SpecFloatFlow ProofFlow ProofFloat ProofFloatSample ProofFloatDensity ProofFloatTune ProofFloatImportance.
Import ListNotations.
Local Open Scope R_scope.

Lemma ln_close x y m : 0 < m -> m <= x -> m <= y -> Rabs (ln x - ln y) <= Rabs (x - y) / m.
Proof.
  intros M X Y. assert (H : forall x y, m <= x -> m <= y -> ln x - ln y <= Rabs (x - y) / m).
  { clear - M. intros x y X Y. replace (ln x - ln y) with (ln (x / y)) by (unfold Rdiv; rewrite ln_mult, ln_Rinv by (try apply Rinv_0_lt_compat; lra); ring). eapply Rle_trans; [apply ln_le_sub; apply Rdiv_lt_0_compat; lra|]. replace (x / y - 1) with ((x - y) * / y) by (field; lra). eapply Rle_trans; [apply Rle_abs|]. rewrite Rabs_mult, (Rabs_pos_eq (/ y)) by (left; apply Rinv_0_lt_compat; lra). apply Rmult_le_compat_l; [apply Rabs_pos|]. apply Rinv_le; lra. }
  apply Rabs_le. pose proof (H x y X Y). pose proof (H y x Y X) as H'. rewrite Rabs_minus_sym in H'. lra.
Qed.
Lemma ln_2_ge : 1 / 2 <= ln 2.
Proof. pose proof (ln_le_sub (/ 2) ltac:(lra)) as H. rewrite ln_Rinv in H by lra. lra. Qed.
Lemma softplus_close x y : Rabs (ln (exp x + 1) - ln (exp y + 1)) <= Rabs (x - y).
Proof.
  assert (H : forall x y, x <= y -> ln (exp x + 1) <= ln (exp y + 1) <= ln (exp x + 1) + (y - x)).
  { clear. intros x y L. pose proof (exp_pos x). split; [apply ln_le'; [lra|]; pose proof (exp_le _ _ L); lra|]. replace (ln (exp x + 1) + (y - x)) with (ln ((exp x + 1) * exp (y - x))) by (rewrite ln_mult, ln_exp by (try lra; apply exp_pos); reflexivity). apply ln_le'; [pose proof (exp_pos y); lra|].
    pose proof (exp_ineq1_le (y - x)). replace y with (x + (y - x)) at 1 by ring. rewrite exp_plus. nra. }
  destruct (Rle_or_lt x y) as [L|L]; [specialize (H x y L)|specialize (H y x ltac:(lra))]; unfold Rabs; repeat destruct (Rcase_abs _); lra.
Qed.
Lemma tanh_close x y : Rabs (tanh x - tanh y) <= Rabs (x - y).
Proof.
  assert (H : forall x y, x < y -> Rabs (tanh y - tanh x) <= y - x).
  { clear. intros x y L. destruct (MVT_cor2 tanh (fun z => 1 - tanh z * tanh z) x y L) as (z & E & _). { intros z _. apply Coquelicot.Derive.is_derive_Reals, derive_tanh. }
    rewrite E. pose proof (tanh_sq z). rewrite Rabs_mult, (Rabs_pos_eq (y - x)), Rabs_pos_eq by lra. nra. }
  destruct (Rtotal_order x y) as [L|[->|L]]; [|rewrite !Rminus_diag_eq, Rabs_R0 by reflexivity; lra|].
  - rewrite Rabs_minus_sym, (Rabs_minus_sym x). rewrite (Rabs_pos_eq (y - x)) by lra. now apply H.
  - rewrite (Rabs_pos_eq (x - y)) by lra. now apply H.
Qed.
Lemma dot_le a c x : 0 <= a -> forall y, length x = length y -> (forall i, (i < length x)%nat -> Rabs (nth i x 0) <= a /\ Rabs (nth i y 0) <= c) -> Rabs (dot x y) <= INR (length x) * (a * c).
Proof.
  intros A0. induction x as [|p x IH]; intros [|q y] L H; try discriminate; [cbn; rewrite Rabs_R0; lra|]. rewrite dot_cons. cbn [length]. rewrite S_INR. eapply Rle_trans; [apply Rabs_triang|].
  pose proof (IH y ltac:(now injection L) (fun i I => H (S i) ltac:(cbn; lia))) as IH'. destruct (H 0%nat ltac:(cbn; lia)) as (P & Q). cbn in P, Q. rewrite Rabs_mult. assert (Rabs p * Rabs q <= a * c) by (apply Rmult_le_compat; auto using Rabs_pos). lra.
Qed.
Lemma nth_combine {X Y Z} (f : X * Y -> Z) x : forall y i dx dy dz, length y = length x -> (i < length x)%nat -> nth i (map f (combine x y)) dz = f (nth i x dx, nth i y dy).
Proof. induction x as [|a x IH]; intros [|c y] i dx dy dz L I; cbn in *; try discriminate; try lia. destruct i as [|i]; [reflexivity|]. apply IH; [now injection L|lia]. Qed.
Lemma dot_sub x : forall y x', length x = length y -> length x' = length y -> dot x y - dot x' y = dot (map (fun q => fst q - snd q) (combine x x')) y.
Proof. induction x as [|p x IH]; intros [|q y] [|p' x'] L L'; try discriminate; [cbn; ring|]. cbn [combine map fst snd]. rewrite !dot_cons, <- (IH y x') by (now injection L; injection L'). ring. Qed.
Lemma dot_close d e c x x' y : 0 <= e -> near_vectors d e x x' -> length y = d -> (forall i, (i < d)%nat -> Rabs (nth i y 0) <= c) -> Rabs (dot x y - dot x' y) <= INR d * (e * c).
Proof.
  intros E0 (L & L' & H) Ly C. rewrite dot_sub by congruence. assert (Lc : length (map (fun q : R * R => fst q - snd q) (combine x x')) = d) by (rewrite map_length, combine_length; lia). replace (INR d) with (INR (length (map (fun q : R * R => fst q - snd q) (combine x x')))) by now rewrite Lc. apply dot_le; [exact E0|congruence|]. rewrite Lc. intros i I. split; [|now apply C].
  rewrite (nth_combine _ x x' i 0 0 0) by lia. cbn [fst snd]. now apply H.
Qed.

Section Format.
Variables prec top : Z.
Hypothesis A : ample prec top.
Let W : wide prec top := proj1 A.
Notation u := (unit_roundoff prec).
Notation float := (is_float prec top).
Notation fmt := (generic_format radix2 (fexpo prec top)).
Notation near := (nearest prec top).
Notation b e := (bpow radix2 e).

Lemma near_abs x X : Rabs x <= X -> 1 <= X -> Rabs (near x - x) <= 5 / 4 * u * X.
Proof. intros H X1. eapply Rle_trans; [apply (near_err_half prec top A)|]. pose proof (eta_small prec top W). pose proof (u_pos prec). assert (u * Rabs x <= u * X) by (apply Rmult_le_compat_l; lra). assert (u * 1 <= u * X) by (apply Rmult_le_compat_l; lra). lra. Qed.
Lemma near_size x X : Rabs x <= X -> 1 <= X -> Rabs (near x) <= 5 / 4 * X.
Proof. intros H X1. pose proof (near_abs x X H X1) as N. pose proof (u_eighth prec top A) as U. apply Rabs_le_inv in N, H. apply Rabs_le. nra. Qed.
Lemma near_fi x X : Rabs x <= X -> 1 <= X -> 2 * X <= b top -> rounded prec top (Fi x) = Fi (near x) /\ float (near x) /\ Rabs (near x - x) <= 5 / 4 * u * X.
Proof. intros H X1 T. pose proof (near_size x X H X1) as S. assert (L : Rabs (near x) < b top) by lra. split; [cbn [rounded]; now apply overflow_small|]. split; [split; [apply (near_fmt prec top W)|exact L]|now apply near_abs]. Qed.

Section Size.
Variables (d : nat) (r : Z).
Hypothesis D1 : (1 <= d)%nat.
Hypothesis R0 : (0 <= r)%Z.
Hypothesis RT : (2 * r + prec + 5 <= top)%Z.
Hypothesis DP : (Z.of_nat d <= 2 ^ prec)%Z.
Let D := INR d * b (2 * r).
Let v := INR d * u.
Notation M := (b r).
Lemma d_1 : 1 <= INR d. Proof. apply (le_INR 1). exact D1. Qed.
Lemma M_1 : 1 <= M. Proof. apply (bpow_le radix2 0). exact R0. Qed.
Lemma MM : b (2 * r) = M * M. Proof. replace (2 * r)%Z with (r + r)%Z by lia. apply bpow_plus. Qed.
Lemma M_D : INR d * M <= D. Proof. unfold D. rewrite MM. pose proof M_1. pose proof d_1. apply Rmult_le_compat_l; nra. Qed.
Lemma M_le : 1 <= M <= D. Proof. pose proof M_1. pose proof M_D. pose proof d_1. split; nra. Qed.
Lemma u_v : 0 < u <= v. Proof. pose proof (u_pos prec). pose proof d_1. unfold v. split; nra. Qed.
Lemma v_1 : v <= 1. Proof. apply (nu_1 prec top A). exact DP. Qed.
Lemma D_top : 32 * D <= b top.
Proof. unfold D. assert (H : INR d <= b prec) by (rewrite INR_IZR_INZ, <- (pow_prec prec top A); now apply IZR_le). apply Rle_trans with (b 5 * (b prec * b (2 * r))); [change (b 5) with 32; pose proof (bpow_gt_0 radix2 (2 * r)); nra|]. rewrite <- !bpow_plus. apply bpow_le. lia. Qed.

Lemma vector_nth x i : vector prec top r d x -> (i < d)%nat -> float (nth i x 0) /\ Rabs (nth i x 0) <= M.
Proof. intros (L & H) I. rewrite Forall_forall in H. apply H, nth_In. lia. Qed.
Lemma dot_bound x y : length x = d -> length y = d -> (forall i, (i < d)%nat -> Rabs (nth i x 0) <= M /\ Rabs (nth i y 0) <= M) -> Rabs (dot x y) <= D.
Proof. intros L L' H. unfold D. rewrite MM, <- L. apply dot_le; [pose proof M_1; lra|congruence|]. now rewrite L. Qed.
Lemma fdot_spec p x y : vector prec top r d x -> vector prec top r d y -> adds_up p d ->
  exists s, fdot prec top p (map Fi x) (map Fi y) = Fi s /\ float s /\ Rabs (s - dot x y) <= 3 * v * D /\ Rabs (dot x y) <= D.
Proof.
  intros Hx Hy P. pose proof A as (_ & p3 & _). pose proof (top_big prec top A) as TB. pose proof Hx as (Lx & Fx). pose proof Hy as (Ly & Fy). set (ts := map (fun q => near (fst q * snd q)) (combine x y)). assert (Lt : length ts = d) by (unfold ts; rewrite map_length, combine_length; lia).
  assert (Pr : forall q, In q (combine x y) -> fmul prec top (Fi (fst q)) (Fi (snd q)) = Fi (near (fst q * snd q)) /\ float (near (fst q * snd q)) /\ Rabs (near (fst q * snd q)) <= b (2 * r) /\ Rabs (near (fst q * snd q) - fst q * snd q) <= u * b (2 * r) / 2).
  { intros (p', q') I. cbn [fst snd]. rewrite Forall_forall in Fx, Fy. destruct (Fx _ (in_combine_l _ _ _ _ I)) as (_ & B1). destruct (Fy _ (in_combine_r _ _ _ _ I)) as (_ & B2).
    assert (B : Rabs (p' * q') <= b (2 * r)) by (rewrite Rabs_mult, MM; apply Rmult_le_compat; auto using Rabs_pos). destruct (fmul_near prec top A p' q' (2 * r)) as (E1 & E2 & E3); [lia|lia|exact B|]. split; [exact E1|]. split; [exact E2|]. split; [exact E3|]. apply (near_binade prec top A); [lia|exact B]. }
  destruct (list_sum prec top A ts p (2 * r)) as (s & Es & Fs & Bs).
  - apply Forall_forall. intros t I. apply in_map_iff in I as (q & <- & I). apply (near_fmt prec top W).
  - apply Forall_forall. intros t I. apply in_map_iff in I as (q & <- & I). apply (Pr q I).
  - now rewrite Lt.
  - now rewrite Lt.
  - lia.
  - exists s. split; [|split; [exact Fs|split; [|apply dot_bound; [exact Lx|exact Ly|]; intros i I; split; now apply vector_nth]]].
    + unfold fdot. rewrite <- Es. f_equal. unfold ts. rewrite map_map. assert (Q : forall x y, combine (map Fi x) (map Fi y) = map (fun q : R * R => (Fi (fst q), Fi (snd q))) (combine x y)) by (clear; induction x as [|a x IH]; intros [|c y]; cbn; [easy..|]; now rewrite IH). rewrite Q, map_map. apply map_ext_in. intros q I. cbn [fst snd]. now apply Pr.
    + rewrite Lt in Bs. assert (E : Rabs (rsum ts - dot x y) <= INR d * (u * b (2 * r) / 2)).
      { replace (INR d) with (INR (length (combine x y))) by (f_equal; rewrite combine_length; lia). unfold ts, dot, rsum, sumR. clear - Pr. induction (combine x y) as [|q l IH]; [cbn; rewrite Rminus_0_r, Rabs_R0; lra|]. cbn [map fold_right length]. rewrite S_INR. destruct (Pr q (or_introl eq_refl)) as (_ & _ & _ & E). specialize (IH (fun q I => Pr q (or_intror I))).
        match goal with |- Rabs (?p + ?a - (?q + ?c)) <= _ => replace (p + a - (q + c)) with ((p - q) + (a - c)) by ring end. eapply Rle_trans; [apply Rabs_triang|]. lra. }
      replace (s - dot x y) with ((s - rsum ts) + (rsum ts - dot x y)) by ring. eapply Rle_trans; [apply Rabs_triang|]. pose proof u_v. pose proof M_le. unfold v, D in *. pose proof d_1. assert (0 < b (2 * r)) by apply bpow_gt_0. nra.
Qed.

Variables libexp liblog libtanh : R -> R.
Hypothesis FE : faithful_exp prec top libexp.
Hypothesis FL : faithful_log prec top liblog.
Hypothesis FT : faithful_tanh prec top libtanh.
Lemma tanh_spec x : float x -> fmt (libtanh x) /\ Rabs (libtanh x) <= 1 /\ Rabs (libtanh x - tanh x) <= 5 / 2 * u.
Proof.
  intros F. pose proof (FT x F) as H. pose proof (tanh_bound x) as T. pose proof (fmt_1 prec top W) as F1. split; [exact (faithful_fmt prec top W _ _ _ H)|]. split.
  - apply Rabs_le. split; [apply (faithful_ge prec top W _ _ _ _ H); [now apply (fmt_opp prec top)|lra]|apply (faithful_le prec top W _ _ _ _ H F1); lra].
  - eapply Rle_trans; [exact (faithful_err prec top W _ _ _ H)|]. eapply Rle_trans; [apply (ulp_bound prec top W)|]. pose proof (eta_small prec top W). pose proof (u_pos prec). assert (Rabs (tanh x) <= 1) by (apply Rabs_le; lra). nra.
Qed.
Lemma mul_close a a' c c' : Rabs (a * c - a' * c') <= Rabs (a - a') * Rabs c + Rabs a' * Rabs (c - c').
Proof. replace (a * c - a' * c') with ((a - a') * c + a' * (c - c')) by ring. rewrite <- !Rabs_mult. apply Rabs_triang. Qed.

Lemma log_big x : float x -> 1 <= x -> Rabs (liblog x - ln x) <= 2 * u * ln x + u / 2.
Proof.
  intros F X. pose proof (FL x F ltac:(lra)) as H. eapply Rle_trans; [exact (faithful_err prec top W _ _ _ H)|]. eapply Rle_trans; [apply (ulp_bound prec top W)|]. pose proof (eta_small prec top W). assert (0 <= ln x) by (rewrite <- ln_1; apply ln_le'; lra). rewrite Rabs_pos_eq by assumption. lra.
Qed.
Section Params.
Variables (p : planar_params) (k : flow_plans) (om : R).
Hypothesis Hw : vector prec top r d (p_w p).
Hypothesis Ha : vector prec top r d (p_aux_u p).
Hypothesis K : multiplies k d.
Hypothesis OM : 0 < om <= 1.
Hypothesis OR : b (- r) <= om.
Hypothesis ON : om <= dot (p_w p) (p_w p).
Let q := dot (p_w p) (p_aux_u p).
Hypothesis QT : q + 1 <= (IZR top - 2) / 2.
Hypothesis US : forall i, (i < d)%nat -> Rabs (nth i (planar_u p) 0) <= M.
Let eps := 100 * v * (D * D * D) / (om * om).
Hypothesis ES : eps <= 1.
Let amount := ln (exp q + 1) - 1 - q.

Lemma D_ge1 : 1 <= D. Proof. pose proof M_le. lra. Qed.
Lemma eps_eq : 100 * (v * (D * D * D)) <= eps * (om * om) /\ 0 < om * om <= om.
Proof. assert (0 < om * om <= om) by nra. split; [|assumption]. right. unfold eps. field. lra. Qed.
Lemma params_small : 0 < v * D /\ v * D <= v * (D * D) /\ v * (D * D) <= v * (D * D * D) /\ 100 * (v * (D * D * D)) <= om * om.
Proof.
  pose proof D_ge1. pose proof u_v as (U & V). assert (0 < v * D) by (apply Rmult_lt_0_compat; lra). pose proof eps_eq as (E & O). split; [assumption|]. split; [rewrite <- Rmult_assoc; nra|]. split; [|nra]. apply Rmult_le_compat_l; [lra|]. nra.
Qed.
Lemma amount_spec : exists a, (let dot_prod := fdot prec top (p_dot k) (map Fi (p_w p)) (map Fi (p_aux_u p)) in fsub prec top (fsub prec top (felog top liblog (fadd prec top (feexp top libexp dot_prod) (Fi 1))) (Fi 1)) dot_prod) = Fi a /\ float a /\ Rabs (a - amount) <= 45 * (v * D) /\ Rabs amount <= 4 * D.
Proof.
  pose proof A as (_ & p3 & _). pose proof (top_big prec top A) as TB. pose proof params_small as (S0 & S1 & S2 & S3). pose proof D_ge1 as D1'. pose proof u_v as (U & V). pose proof D_top as DT. destruct K as (K1 & _). assert (om1 : om * om <= 1) by nra. assert (uD : u * D <= v * D) by (apply Rmult_le_compat_r; lra). assert (u1 : u <= u * D) by nra. pose proof (u_eighth prec top A) as U8.
  destruct (fdot_spec (p_dot k) _ _ Hw Ha K1) as (q' & -> & Fq & Eq & Bq). fold q in Eq, Bq. cbv zeta. pose proof (exp_pos q') as ep.
  assert (Xb : exp q' <= b (top - 2)). { apply Rle_trans with (exp (IZR (top - 2) * / 2)); [apply exp_le; rewrite minus_IZR; apply Rabs_le_inv in Eq; lra|]. rewrite bpow_exp. apply exp_le. cbn [radix_val radix2]. apply Rmult_le_compat_l; [apply IZR_le; lia|]. pose proof ln_2_ge. lra. }
  pose proof (FE q' Fq) as Hx. set (X := libexp q') in *. assert (X0 : 0 <= X <= b (top - 2)) by (split; [apply (faithful_ge prec top W _ _ _ _ Hx (fmt_0 prec top)); lra|apply (faithful_le prec top W _ _ _ _ Hx); [apply (fmt_bpow prec top W); lia|exact Xb]]).
  assert (b2 : b top = 4 * b (top - 2)) by (change 4 with (b 2); rewrite <- bpow_plus; f_equal; lia). assert (b3 : 8 <= b (top - 2)) by (apply (bpow_le radix2 3); lia).
  assert (EX : Rabs (X - exp q') <= 2 * u * exp q' + u / 2). { eapply Rle_trans; [exact (faithful_err prec top W _ _ _ Hx)|]. eapply Rle_trans; [apply (ulp_bound prec top W)|]. pose proof (eta_small prec top W). rewrite Rabs_pos_eq by lra. lra. }
  unfold feexp. cbn match. fold X. rewrite overflow_small by (rewrite Rabs_pos_eq; lra). destruct (near_fi (X + 1) (X + 1)) as (Y1 & Y2 & Y3); [rewrite Rabs_pos_eq; lra|lra|lra|]. unfold fadd. cbn [eadd]. rewrite Y1. set (Y := near (X + 1)) in *.
  assert (Yge : 1 <= Y) by (apply (near_ge_fmt prec top W); [apply (fmt_1 prec top W)|lra]). assert (EY : Rabs (Y - (exp q' + 1)) <= 4 * u * (exp q' + 1)). { assert (X <= 13 / 10 * (exp q' + 1)) by (apply Rabs_le_inv in EX; nra). replace (Y - (exp q' + 1)) with ((Y - (X + 1)) + (X - exp q')) by ring. eapply Rle_trans; [apply Rabs_triang|]. nra. }
  assert (LY : Rabs (ln Y - ln (exp q' + 1)) <= 8 * u). { eapply Rle_trans; [apply (ln_close _ _ ((exp q' + 1) / 2)); [lra| |lra]; apply Rabs_le_inv in EY; nra|]. unfold Rdiv. apply (Rmult_le_reg_r ((exp q' + 1) / 2)); [lra|]. unfold Rdiv. rewrite Rmult_assoc, Rinv_l by lra. lra. }
  pose proof (softplus_close q' q) as SC. assert (SB : 0 <= ln (exp q + 1) <= 1 + D). { pose proof (exp_pos q). split; [rewrite <- ln_1; apply ln_le'; lra|]. pose proof (softplus_close q 0) as S. rewrite exp_0 in S. replace (1 + 1) with 2 in S by ring. pose proof ln_2_le. rewrite Rminus_0_r in S. apply Rabs_le_inv in S. apply Rabs_le_inv in Bq. assert (Rabs q <= D) by (apply Rabs_le; lra). lra. }
  assert (lnY : 0 <= ln Y <= 3 * D). { split; [rewrite <- ln_1; apply ln_le'; lra|]. apply Rabs_le_inv in LY, SC. assert (Rabs (q' - q) <= 3 * v * D) by exact Eq. lra. }
  pose proof (log_big Y Y2 Yge) as EL. assert (uY : u * ln Y <= u * (3 * D)) by (apply Rmult_le_compat_l; lra). assert (BL : Rabs (liblog Y) <= 4 * D) by (apply Rabs_le_inv in EL; apply Rabs_le; nra).
  unfold felog. destruct (Rlt_dec 0 Y); [|lra]. rewrite overflow_small by lra.
  destruct (near_fi (liblog Y + - (1)) (5 * D)) as (Z1 & Z2 & Z3); [eapply Rle_trans; [apply Rabs_triang|]; rewrite Rabs_Ropp, Rabs_R1; lra|lra|lra|]. unfold fsub at 2, esub. cbn [eneg eadd]. rewrite Z1.
  destruct (near_fi (near (liblog Y + - (1)) + - q') (8 * D)) as (V1 & V2 & V3); [|lra|lra|]. { eapply Rle_trans; [apply Rabs_triang|]. rewrite Rabs_Ropp. assert (Rabs (near (liblog Y + - (1))) <= 5 / 4 * (5 * D)) by (apply near_size; [|lra]; eapply Rle_trans; [apply Rabs_triang|]; rewrite Rabs_Ropp, Rabs_R1; lra). assert (Rabs q' <= D + 3 * v * D) by (apply Rabs_le_inv in Eq, Bq; apply Rabs_le; lra). lra. }
  exists (near (near (liblog Y + - (1)) + - q')). unfold fsub, esub. cbn [eneg eadd]. split; [exact V1|]. split; [exact V2|]. split; [|unfold amount; apply Rabs_le_inv in Bq; apply Rabs_le; lra].
  set (P := near (liblog Y + - (1))) in *. unfold amount. replace (near (P + - q') - (ln (exp q + 1) - 1 - q)) with ((near (P + - q') - (P + - q')) + (P - (liblog Y + - (1))) + (liblog Y - ln Y) + (ln Y - ln (exp q' + 1)) + (ln (exp q' + 1) - ln (exp q + 1)) + - (q' - q)) by ring.
  apply Rabs_le_inv in V3, Z3, EL, LY, SC, Eq. assert (Q : Rabs (q' - q) <= 3 * v * D) by (apply Rabs_le; lra). apply Rabs_le. lra.
Qed.
Lemma params_spec : exists uu, fplanar_u prec top libexp liblog k (float_params p) = map Fi uu /\ Forall float uu /\ near_vectors d eps uu (planar_u p).
Proof.
  pose proof A as (_ & p3 & _). pose proof params_small as (S0 & S1 & S2 & S3). pose proof D_ge1 as D1'. pose proof u_v as (U & V). pose proof D_top as DT. pose proof M_le as ML. pose proof eps_eq as (EE & O). destruct amount_spec as (a & Ea & Fa & Da & Ba). destruct K as (_ & K2 & _ & _). destruct (fdot_spec (p_norm k) _ _ Hw Hw K2) as (n' & En & Fn & Dn & Bn). assert (uD : u * D <= v * D) by (apply Rmult_le_compat_r; lra). assert (om1 : om * om <= 1) by nra.
  pose proof Hw as (Lw & _). pose proof Ha as (La & _). set (n := dot (p_w p) (p_w p)) in *. assert (n2 : om / 2 <= n') by (apply Rabs_le_inv in Dn; lra). assert (io : / om <= M). { apply (Rmult_le_reg_r om); [lra|]. rewrite Rinv_l by lra. apply Rle_trans with (M * b (- r)); [rewrite <- bpow_plus; replace (r + - r)%Z with 0%Z by lia; right; reflexivity|]. apply Rmult_le_compat_l; lra. }
  assert (i1 : 1 <= / om) by (rewrite <- Rinv_1; apply Rinv_le; lra). assert (in' : 0 < / n' <= 2 * / om). { split; [apply Rinv_0_lt_compat; lra|]. replace (2 * / om) with (/ (om / 2)) by (field; lra). apply Rinv_le; lra. } assert (inn : 0 < / n <= / om) by (split; [apply Rinv_0_lt_compat; lra|apply Rinv_le; lra]).
  assert (bD : M * M <= D). { rewrite <- MM. unfold D. pose proof d_1. pose proof (bpow_gt_0 radix2 (2 * r)). nra. }
  assert (Di : Rabs (/ n' - / n) <= 6 * (v * D) * (/ om * / om)). { replace (/ n' - / n) with ((n - n') * (/ n' * / n)) by (field; lra). rewrite Rabs_mult, Rabs_minus_sym, (Rabs_pos_eq (/ n' * / n)) by (apply Rmult_le_pos; lra). apply Rle_trans with (3 * v * D * (2 * / om * / om)); [|right; ring]. apply Rmult_le_compat; [apply Rabs_pos|apply Rmult_le_pos; lra|exact Dn|]. apply Rmult_le_compat; lra. }
  set (amt := amount) in *. set (io2 := / om * / om) in *. assert (io2_1 : 1 <= io2) by (unfold io2; nra). assert (EI : eps = 100 * (v * (D * D * D)) * io2) by (unfold eps, io2; field; lra).
  assert (St : forall x y, float x -> Rabs x <= M -> Rabs y <= M -> float y -> Rabs (x + y / n * amt) <= M -> exists z, fadd prec top (Fi x) (fmul prec top (fdiv prec top (Fi y) (Fi n')) (Fi a)) = Fi z /\ float z /\ Rabs (z - (x + y / n * amt)) <= eps).
  { intros x y Fx Bx By Fy Bu. rewrite fdiv_fi by lra. assert (Bh : Rabs (y / n') <= 2 * D). { unfold Rdiv. rewrite Rabs_mult, (Rabs_pos_eq (/ n')) by lra. apply Rle_trans with (M * (2 * M)); [apply Rmult_le_compat; try lra; apply Rabs_pos|lra]. }
    destruct (near_fi (y / n') (2 * D)) as (H1 & H2 & H3); [exact Bh|lra|lra|]. rewrite H1. set (hh := near (y / n')) in *. assert (Bhn : Rabs (y / n) <= M * / om) by (unfold Rdiv; rewrite Rabs_mult, (Rabs_pos_eq (/ n)) by lra; apply Rmult_le_compat; try lra; apply Rabs_pos).
    assert (Dh : Rabs (hh - y / n) <= 9 * (v * (D * D)) * io2). { assert (Q : Rabs (y / n' - y / n) <= M * (6 * (v * D) * io2)) by (unfold Rdiv; rewrite <- Rmult_minus_distr_l, Rabs_mult; apply Rmult_le_compat; auto using Rabs_pos). assert (Q1 : M * (6 * (v * D) * io2) <= 6 * (v * (D * D)) * io2). { replace (6 * (v * (D * D)) * io2) with (D * (6 * (v * D) * io2)) by ring. apply Rmult_le_compat_r; [|lra]. apply Rmult_le_pos; lra. } assert (Q2 : v * (D * D) * 1 <= v * (D * D) * io2) by (apply Rmult_le_compat_l; lra).
      replace (hh - y / n) with ((hh - y / n') + (y / n' - y / n)) by ring. eapply Rle_trans; [apply Rabs_triang|]. lra. }
    assert (Ba' : Rabs a <= 5 * D) by (apply Rabs_le_inv in Da, Ba; apply Rabs_le; lra). pose proof (mul_close hh (y / n) a amt) as MC. assert (Q1 : Rabs (hh - y / n) * Rabs a <= 9 * (v * (D * D)) * io2 * (5 * D)) by (apply Rmult_le_compat; auto using Rabs_pos).
    assert (Q2 : Rabs (y / n) * Rabs (a - amt) <= 45 * (v * (D * D * D)) * io2). { apply Rle_trans with (M * / om * (45 * (v * D))); [apply Rmult_le_compat; auto using Rabs_pos|]. assert (M * / om <= D * io2) by (unfold io2; apply Rmult_le_compat; try lra; nra). apply Rle_trans with (D * io2 * (45 * (v * D))); [apply Rmult_le_compat_r; lra|]. replace (D * io2 * (45 * (v * D))) with (45 * (v * (D * D)) * io2) by ring. apply Rmult_le_compat_r; lra. }
    assert (MC' : Rabs (hh * a - y / n * amt) <= 90 * (v * (D * D * D)) * io2) by (eapply Rle_trans; [exact MC|]; lra). assert (G1 : v * (D * D * D) * io2 <= 1 / 100) by (rewrite EI in ES; lra).
    assert (Bp : Rabs (hh * a) <= 3 * M) by (apply Rabs_le_inv in MC', Bu, Bx; apply Rabs_le; lra). destruct (near_fi (hh * a) (3 * M)) as (P1 & P2 & P3); [exact Bp|lra|lra|]. unfold fmul. cbn [emul]. rewrite P1.
    assert (uM : u * M <= v * D) by (apply Rmult_le_compat; lra). assert (vDi : v * (D * D * D) * 1 <= v * (D * D * D) * io2) by (apply Rmult_le_compat_l; lra).
    destruct (near_fi (x + near (hh * a)) (5 * M)) as (R1 & R2 & R3); [|lra|lra|]. { assert (Rabs (near (hh * a)) <= 5 / 4 * (3 * M)) by (apply near_size; lra). eapply Rle_trans; [apply Rabs_triang|]. lra. }
    exists (near (x + near (hh * a))). unfold fadd. cbn [eadd]. split; [exact R1|]. split; [exact R2|]. rewrite EI. apply Rabs_le_inv in R3, P3, MC'. apply Rabs_le. lra. }
  assert (Nu : forall i, (i < d)%nat -> nth i (planar_u p) 0 = nth i (p_aux_u p) 0 + nth i (p_w p) 0 / n * amt) by (intros i I; unfold planar_u; rewrite (nth_combine _ (p_aux_u p) (p_w p) i 0 0 0) by lia; reflexivity).
  assert (Ex : forall i, exists z, (i < d)%nat -> fadd prec top (Fi (nth i (p_aux_u p) 0)) (fmul prec top (fdiv prec top (Fi (nth i (p_w p) 0)) (Fi n')) (Fi a)) = Fi z /\ float z /\ Rabs (z - nth i (planar_u p) 0) <= eps).
  { intros i. destruct (lt_dec i d) as [I|I]; [|exists 0; intros; lia]. destruct (vector_nth _ i Ha I) as (F1 & B1). destruct (vector_nth _ i Hw I) as (F2 & B2). destruct (St _ (nth i (p_w p) 0) F1 B1 B2 F2) as (z & E1 & E2 & E3'); [rewrite <- Nu by exact I; now apply US|]. exists z. intros _. rewrite Nu by exact I. auto. }
  assert (Ls : exists uu : list R, length uu = d /\ forall i, (i < d)%nat -> fadd prec top (Fi (nth i (p_aux_u p) 0)) (fmul prec top (fdiv prec top (Fi (nth i (p_w p) 0)) (Fi n')) (Fi a)) = Fi (nth i uu 0) /\ float (nth i uu 0) /\ Rabs (nth i uu 0 - nth i (planar_u p) 0) <= eps).
  { clear - Ex. 
    set (P := fun i z => fadd prec top (Fi (nth i (p_aux_u p) 0)) (fmul prec top (fdiv prec top (Fi (nth i (p_w p) 0)) (Fi n')) (Fi a)) = Fi z /\ float z /\ Rabs (z - nth i (planar_u p) 0) <= eps) in *. change (exists uu : list R, length uu = d /\ forall i, (i < d)%nat -> P i (nth i uu 0)). change (forall i, exists z, (i < d)%nat -> P i z) in Ex. clearbody P. assert (G : forall m, (m <= d)%nat -> exists uu : list R, length uu = m /\ forall i, (i < m)%nat -> P i (nth i uu 0)); [|now apply G].
    induction m as [|m IH]; intros Hm; [exists []; split; [reflexivity|intros; lia]|]. destruct (IH ltac:(lia)) as (uu & L & H). destruct (Ex m) as (z & Hz). exists (uu ++ [z]). split; [rewrite app_length; cbn; lia|]. intros i I. destruct (Nat.eq_dec i m) as [->|N]; [rewrite app_nth2, L, Nat.sub_diag by lia; apply Hz; lia|rewrite app_nth1 by lia; apply H; lia]. }
  destruct Ls as (uu & Lu & Hu). exists uu. split; [|split].
  - unfold fplanar_u, float_params. cbn [f_w f_aux_u]. cbv zeta in Ea |- *. rewrite Ea, En. apply (nth_ext _ _ NaN NaN); [rewrite !map_length, combine_length, !map_length; lia|]. rewrite map_length, combine_length, !map_length. intros i I. rewrite (nth_combine _ _ _ i NaN NaN NaN) by (rewrite !map_length; lia). cbn [fst snd]. rewrite !nth_Fi by lia. apply Hu. lia.
  - apply Forall_forall. intros x I. apply (In_nth _ _ 0) in I as (i & I & <-). apply Hu. lia.
  - split; [exact Lu|]. split; [unfold planar_u; rewrite map_length, combine_length; lia|]. intros i I. now apply Hu.
Qed.
End Params.

Section Step.
Variables (w uu ux z zx : list R) (bb l lx c e eps B : R) (k : flow_plans) (h : Z) (j : nat) (aux : list ext).
Hypothesis Hw : vector prec top r d w.
Hypothesis Hb : float bb /\ Rabs bb <= M.
Hypothesis Hu : vector prec top r d uu.
Hypothesis Hux : forall i, (i < d)%nat -> Rabs (nth i ux 0) <= M.
Hypothesis Hz : vector prec top r d z.
Hypothesis E0 : 0 <= e.
Hypothesis Ez : near_vectors d e z zx.
Hypothesis P0 : 0 <= eps.
Hypothesis Eu : near_vectors d eps uu ux.
Hypothesis K : multiplies k d.
Hypothesis C1 : 0 < c <= 1.
Hypothesis CS : c <= 1 + dot ux w.
Let E3 := 33 * v * (D * D) + D * eps + 2 * (D * D) * e.
Hypothesis CE : 2 * E3 <= c.
Let L0 := 5 * D + 2 / c.
Hypothesis LB : L0 <= B.
Hypothesis UB : 8 * u * B <= 1.
Hypothesis Hl : float l /\ Rabs l <= B.
Let t := tanh (dot zx w + bb).

Lemma Dpos : 1 <= D. Proof. pose proof M_le. lra. Qed.
Lemma vD : 0 < v * D <= v * (D * D).
Proof. pose proof Dpos. pose proof u_v as (U & V). assert (0 < v * D) by (apply Rmult_lt_0_compat; lra). split; [assumption|]. rewrite <- Rmult_assoc. nra. Qed.
Lemma small : 66 * (v * (D * D)) <= 1 /\ D * eps <= 1 / 2.
Proof. pose proof Dpos. assert (0 <= D * eps) by (apply Rmult_le_pos; lra). assert (0 <= D * D) by nra. assert (0 <= 2 * (D * D) * e) by (apply Rmult_le_pos; lra). pose proof vD. unfold E3 in CE. split; lra. Qed.
Lemma act_spec : exists a, fetanh libtanh (fadd prec top (fdot prec top (p_score k) (map Fi z) (map Fi w)) (Fi bb)) = Fi a /\ fmt a /\ Rabs a <= 1 /\ Rabs (a - t) <= 10 * (v * D) + D * e.
Proof.
  pose proof small as (S1 & _). pose proof vD as VD. pose proof Dpos as D1'. pose proof u_v as (U & V). destruct K as (_ & _ & _ & K4). destruct (fdot_spec (p_score k) z w Hz Hw K4) as (s & -> & Fs & Es & Bs). pose proof M_le as ML. destruct Hb as (Fb & Bb).
  destruct (near_fi (s + bb) (3 * D)) as (E1 & E2 & E4); [|lra|pose proof D_top; lra|]. { apply Rabs_le_inv in Es, Bs, Bb. apply Rabs_le. lra. }
  unfold fadd. cbn [eadd]. rewrite E1. cbn [fetanh]. destruct (tanh_spec _ E2) as (T1 & T2 & T3). exists (libtanh (near (s + bb))). split; [reflexivity|]. split; [exact T1|]. split; [exact T2|].
  pose proof (tanh_close (near (s + bb)) (dot zx w + bb)) as T4. fold t in T4. pose proof (dot_close d e M z zx w E0 Ez (proj1 Hw) (fun i I => proj2 (vector_nth w i Hw I))) as T5. assert (T6 : INR d * (e * M) <= D * e) by (pose proof M_D; nra).
  assert (T7 : u * D <= v * D) by (apply Rmult_le_compat_r; lra). assert (T8 : u <= v * D) by nra.
  assert (T9 : Rabs (near (s + bb) - (dot zx w + bb)) <= 5 / 4 * u * (3 * D) + 3 * v * D + D * e).
  { replace (near (s + bb) - (dot zx w + bb)) with ((near (s + bb) - (s + bb)) + (s - dot z w) + (dot z w - dot zx w)) by ring. eapply Rle_trans; [apply Rabs_triang|]. eapply Rle_trans; [apply Rplus_le_compat_r, Rabs_triang|]. lra. }
  replace (libtanh (near (s + bb)) - t) with ((libtanh (near (s + bb)) - tanh (near (s + bb))) + (tanh (near (s + bb)) - t)) by ring. eapply Rle_trans; [apply Rabs_triang|]. lra.
Qed.

Let det := dot ux w * (1 - t * t) + 1.
Lemma det_ge : c <= det /\ Rabs det <= D + 1.
Proof.
  pose proof (tanh_sq (dot zx w + bb)) as T. fold t in T. pose proof (dot_bound ux w (proj1 (proj2 Eu)) (proj1 Hw) (fun i I => conj (Hux i I) (proj2 (vector_nth w i Hw I)))) as S. unfold det. split; [nra|]. eapply Rle_trans; [apply Rabs_triang|]. rewrite Rabs_R1, Rabs_mult, (Rabs_pos_eq (1 - t * t)) by lra. pose proof (Rabs_pos (dot ux w)). nra.
Qed.
Lemma det_spec a : fmt a -> Rabs a <= 1 -> Rabs (a - t) <= 10 * (v * D) + D * e ->
  exists s x, fdot prec top (p_scalar k) (map Fi uu) (map Fi w) = Fi s /\ -1 <= s /\ fadd prec top (fmul prec top (Fi s) (fsub prec top (Fi 1) (fmul prec top (Fi a) (Fi a)))) (Fi 1) = Fi x /\ float x /\ Rabs (x - det) <= E3.
Proof.
  intros Fa Ba Ea. pose proof small as (S1 & S2). pose proof vD as VD. pose proof Dpos as D1'. pose proof u_v as (U & V). pose proof D_top as DT. destruct K as (_ & _ & K3 & _). destruct (fdot_spec (p_scalar k) uu w Hu Hw K3) as (s & -> & Fs & Es & Bs). pose proof M_le as ML.
  pose proof (dot_bound ux w (proj1 (proj2 Eu)) (proj1 Hw) (fun i I => conj (Hux i I) (proj2 (vector_nth w i Hw I)))) as Bx. pose proof (dot_close d eps M uu ux w P0 Eu (proj1 Hw) (fun i I => proj2 (vector_nth w i Hw I))) as Ed. assert (Ed' : INR d * (eps * M) <= D * eps) by (pose proof M_D; nra).
  assert (Es' : Rabs (s - dot ux w) <= 3 * (v * D) + D * eps) by (replace (s - dot ux w) with ((s - dot uu w) + (dot uu w - dot ux w)) by ring; eapply Rle_trans; [apply Rabs_triang|]; lra). assert (Bs' : Rabs s <= 2 * D) by (apply Rabs_le_inv in Es, Bs; apply Rabs_le; lra).
  assert (D2e : 0 <= 2 * (D * D) * e) by (apply Rmult_le_pos; nra). assert (De : 0 <= D * eps) by (apply Rmult_le_pos; lra).
  exists s. assert (sq : 0 <= a * a <= 1) by (apply Rabs_le_inv in Ba; nra).
  destruct (near_fi (a * a) 1) as (M1 & M2 & M3); [rewrite Rabs_pos_eq; lra|lra|lra|]. unfold fmul at 2. cbn [emul]. rewrite M1. assert (m0 : 0 <= near (a * a) <= 1) by (split; [apply (near_nonneg prec top W); lra|apply (near_le_fmt prec top W); [apply (fmt_1 prec top W)|lra]]).
  destruct (near_fi (1 + - near (a * a)) 1) as (N1 & N2 & N3); [rewrite Rabs_pos_eq; lra|lra|lra|]. unfold fsub, esub. cbn [eneg eadd]. rewrite N1. set (o := near (1 + - near (a * a))) in *. assert (o0 : 0 <= o <= 1) by (split; [apply (near_nonneg prec top W); lra|apply (near_le_fmt prec top W); [apply (fmt_1 prec top W)|lra]]).
  assert (Bp : Rabs (s * o) <= 2 * D) by (rewrite Rabs_mult, (Rabs_pos_eq o) by lra; pose proof (Rabs_pos s); nra).
  destruct (near_fi (s * o) (2 * D)) as (Q1 & Q2 & Q3); [exact Bp|lra|lra|]. unfold fmul. cbn [emul]. rewrite Q1. assert (uD : u * D <= v * (D * D)) by (apply Rle_trans with (v * D); [apply Rmult_le_compat_r; lra|lra]).
  destruct (near_fi (near (s * o) + 1) (4 * D)) as (X1 & X2 & X3); [apply Rabs_le_inv in Q3, Bp; apply Rabs_le; lra|lra|lra|]. exists (near (near (s * o) + 1)). split; [reflexivity|]. split; [apply Rabs_le_inv in Es'; unfold E3 in CE; lra|]. unfold fadd. cbn [eadd]. split; [exact X1|]. split; [exact X2|].
  pose proof (tanh_bound (dot zx w + bb)) as TB'. fold t in TB'. assert (Eo : Rabs (o - (1 - t * t)) <= 2 * (10 * (v * D) + D * e) + 5 / 2 * u).
  { assert (Rabs (a * a - t * t) <= 2 * (10 * (v * D) + D * e)). { replace (a * a - t * t) with ((a - t) * (a + t)) by ring. rewrite Rabs_mult, (Rmult_comm 2). apply Rmult_le_compat; auto using Rabs_pos. apply Rabs_le_inv in Ba. apply Rabs_le. lra. }
    replace (o - (1 - t * t)) with ((o - (1 + - near (a * a))) + - ((near (a * a) - a * a) + (a * a - t * t))) by ring. eapply Rle_trans; [apply Rabs_triang|]. rewrite Rabs_Ropp. pose proof (Rabs_triang (near (a * a) - a * a) (a * a - t * t)). lra. }
  pose proof (mul_close s (dot ux w) o (1 - t * t)) as Pr. rewrite (Rabs_pos_eq o) in Pr by lra. assert (Pr1 : Rabs (s - dot ux w) * o <= 3 * (v * D) + D * eps) by (pose proof (Rabs_pos (s - dot ux w)); nra).
  assert (Pr2 : Rabs (dot ux w) * Rabs (o - (1 - t * t)) <= D * (2 * (10 * (v * D) + D * e) + 5 / 2 * u)) by (apply Rmult_le_compat; auto using Rabs_pos).
  unfold det. replace (near (near (s * o) + 1) - (dot ux w * (1 - t * t) + 1)) with ((near (near (s * o) + 1) - (near (s * o) + 1)) + (near (s * o) - s * o) + (s * o - dot ux w * (1 - t * t))) by ring.
  eapply Rle_trans; [apply Rabs_triang|]. eapply Rle_trans; [apply Rplus_le_compat_r, Rabs_triang|]. unfold E3. lra.
Qed.
Lemma log_spec x : float x -> Rabs (x - det) <= E3 -> exists l', fsub prec top (Fi l) (felog top liblog (Fi x)) = Fi l' /\ float l' /\ Rabs (l' - (l - ln det)) <= 2 * E3 / c + 5 * u * L0 + 5 / 4 * u * B /\ Rabs (ln det) <= L0.
Proof.
  intros Fx Ex. pose proof det_ge as (G1 & G2). pose proof small as (S1 & S2). pose proof vD as VD. pose proof Dpos as D1'. pose proof u_v as (U & V). assert (uD : u * D <= v * (D * D)) by (apply Rle_trans with (v * D); [apply Rmult_le_compat_r; lra|lra]). assert (uu1 : u <= u * D) by nra.
  assert (D2e : 0 <= 2 * (D * D) * e) by (apply Rmult_le_pos; nra). assert (De : 0 <= D * eps) by (apply Rmult_le_pos; lra). assert (E3p : 0 < E3) by (unfold E3; lra). assert (E3u : 33 * u <= E3) by (unfold E3; lra).
  assert (X1 : c / 2 <= x <= 3 * D) by (apply Rabs_le_inv in Ex, G2; lra). assert (bp : b prec * u = 1) by (unfold unit_roundoff; rewrite <- bpow_plus; replace (prec + - prec)%Z with 0%Z by lia; reflexivity). assert (bp0 : 0 < b prec) by apply bpow_gt_0.
  assert (xp : x <= b prec) by (apply (Rmult_le_reg_r u); [exact U|]; nra). destruct (lib_log_spec prec top W liblog x FL Fx) as (-> & Fl & _ & El & _); [split; [fold (unit_roundoff prec); lra|exact xp]|].
  assert (Q : forall y, c / 2 <= y <= 5 * D + 1 -> Rabs (ln y) <= L0). { intros y Y. assert (y0 : 0 < y) by lra. pose proof (ln_le_sub y y0). pose proof (ln_le_sub (/ y) (Rinv_0_lt_compat _ y0)) as I. rewrite ln_Rinv in I by exact y0. assert (/ y <= 2 / c). { apply (Rmult_le_reg_r y); [exact y0|]. rewrite Rinv_l by lra. unfold Rdiv. apply Rle_trans with (2 * / c * (c / 2)); [right; field; lra|]. apply Rmult_le_compat_l; [|lra]. apply Rmult_le_pos; [lra|]. left. apply Rinv_0_lt_compat. lra. } assert (0 < / y) by now apply Rinv_0_lt_compat. unfold L0. apply Rabs_le. lra. }
  assert (L5 : 7 <= L0). { unfold L0. assert (2 <= 2 / c). { apply (Rmult_le_reg_r c); [lra|]. unfold Rdiv. rewrite Rmult_assoc, Rinv_l by lra. lra. } lra. }
  pose proof (Q x ltac:(lra)) as Qx. assert (Bl : Rabs (liblog x) <= 2 * L0). { replace (liblog x) with ((liblog x - ln x) + ln x) by ring. eapply Rle_trans; [apply Rabs_triang|]. pose proof (u_eighth prec top A). pose proof (Rabs_pos (ln x)). nra. }
  destruct Hl as (Fl' & Bl'). assert (BT : 6 * B <= b top). { apply Rle_trans with (b prec); [apply (Rmult_le_reg_r u); [exact U|]; lra|apply bpow_le; pose proof W; unfold wide in *; lia]. }
  destruct (near_fi (l + - liblog x) (B + 2 * L0)) as (Y1 & Y2 & Y3); [|lra|lra|]. { eapply Rle_trans; [apply Rabs_triang|]. rewrite Rabs_Ropp. lra. }
  exists (near (l + - liblog x)). unfold fsub, esub. cbn [eneg eadd]. split; [exact Y1|]. split; [exact Y2|]. split; [|apply Q; apply Rabs_le_inv in G2; lra].
  pose proof (ln_close x det (c / 2) ltac:(lra) ltac:(lra) ltac:(lra)) as LC. assert (LC' : Rabs (ln x - ln det) <= 2 * E3 / c). { eapply Rle_trans; [exact LC|]. replace (2 * E3 / c) with (E3 * / (c / 2)) by (field; lra). apply Rmult_le_compat_r; [|exact Ex]. left. apply Rinv_0_lt_compat. lra. }
  replace (near (l + - liblog x) - (l - ln det)) with ((near (l + - liblog x) - (l + - liblog x)) + - (liblog x - ln x) + - (ln x - ln det)) by ring. eapply Rle_trans; [apply Rabs_triang|]. eapply Rle_trans; [apply Rplus_le_compat_r, Rabs_triang|]. rewrite !Rabs_Ropp.
  assert (u * Rabs (ln x) <= u * L0) by (apply Rmult_le_compat_l; lra). assert (u * 7 <= u * L0) by (apply Rmult_le_compat_l; lra). lra.
Qed.

Hypothesis H0 : (0 <= h)%Z.
Hypothesis HT : (h + prec < top)%Z.
Hypothesis J : (Z.of_nat (S (S j)) <= 2 ^ prec)%Z.
Hypothesis Hzj : forall i, (i < d)%nat -> Rabs (nth i z 0) <= INR (S j) * b h.
Hypothesis Huh : forall i, (i < d)%nat -> Rabs (nth i uu 0) <= b h.
Definition exact_move (ux w : list R) (bb : R) (zx : list R) : list R := map (fun q => fst q + tanh (dot zx w + bb) * snd q) (combine zx ux).
Lemma move_spec a : fmt a -> Rabs a <= 1 -> Rabs (a - t) <= 10 * (v * D) + D * e ->
  exists z', map (fun zu => fadd prec top (fst zu) (fmul prec top (Fi a) (snd zu))) (combine (map Fi z) (map Fi uu)) = map Fi z' /\ Forall float z' /\ (forall i, (i < d)%nat -> Rabs (nth i z' 0) <= INR (S (S j)) * b h) /\
    near_vectors d (e * (1 + D * D) + 15 * (v * (D * D)) + eps) z' (exact_move ux w bb zx).
Proof.
  intros Fa Ba Ea. pose proof A as (_ & p3 & _). pose proof Dpos as D1'. pose proof u_v as (U & V). pose proof M_le as ML. pose proof vD as VD. pose proof Hz as (Lz & _). pose proof Hu as (Lu & _). destruct Ez as (_ & Lzx & Ez'). destruct Eu as (_ & Lux & Eu'). pose proof D_top as DT.
  assert (b0 : 0 < b h) by apply bpow_gt_0. assert (FH : fmt (b h)) by (apply (fmt_bpow prec top W); lia). assert (JB : fmt (INR (S (S j)) * b h) /\ INR (S (S j)) * b h < b top).
  { rewrite INR_IZR_INZ. split; [apply (fmt_grid prec top W); [rewrite Z.abs_eq by lia; exact J|lia]|]. apply Rle_lt_trans with (b prec * b h); [apply Rmult_le_compat_r; [lra|]; rewrite <- (pow_prec prec top A); now apply IZR_le|]. rewrite <- bpow_plus. apply bpow_lt. lia. } destruct JB as (JF & JT).
  assert (T1 : Rabs t <= 1) by (pose proof (tanh_bound (dot zx w + bb)) as TB'; fold t in TB'; apply Rabs_le; lra).
  set (g := fun q : R * R => near (fst q + near (a * snd q))). set (z' := map g (combine z uu)). assert (Lz' : length z' = d) by (unfold z'; rewrite map_length, combine_length; lia).
  assert (Nz' : forall i, (i < d)%nat -> nth i z' 0 = near (nth i z 0 + near (a * nth i uu 0))) by (intros i I; unfold z'; rewrite (nth_combine g z uu i 0 0 0) by lia; reflexivity).
  assert (St : forall i, (i < d)%nat -> fadd prec top (Fi (nth i z 0)) (fmul prec top (Fi a) (Fi (nth i uu 0))) = Fi (nth i z' 0) /\ float (nth i z' 0) /\ Rabs (nth i z' 0) <= INR (S (S j)) * b h /\ Rabs (nth i z' 0 - (nth i z 0 + a * nth i uu 0)) <= 5 * u * M).
  { intros i I. rewrite (Nz' i I). destruct (vector_nth z i Hz I) as (Fz & Bz). destruct (vector_nth uu i Hu I) as (Fu & Bu). specialize (Huh i I). specialize (Hzj i I). set (y := nth i uu 0) in *. set (x := nth i z 0) in *.
    assert (Pb : forall q, Rabs y <= q -> Rabs (a * y) <= q) by (intros q Hq; rewrite Rabs_mult; pose proof (Rabs_pos y); nra). destruct (near_fi (a * y) M) as (E1 & E2 & E4); [now apply Pb|lra|lra|]. unfold fmul. cbn [emul]. rewrite E1.
    assert (Nb : Rabs (near (a * y)) <= b h) by (apply (near_bpow prec top W); [lia|now apply Pb]). assert (N2 : Rabs (near (a * y)) <= 5 / 4 * M) by (apply near_size; [now apply Pb|lra]).
    destruct (near_fi (x + near (a * y)) (3 * M)) as (E5 & E6 & E7); [eapply Rle_trans; [apply Rabs_triang|]; lra|lra|lra|]. unfold fadd. cbn [eadd]. split; [exact E5|]. split; [exact E6|]. split.
    - assert (Q : Rabs (x + near (a * y)) <= INR (S (S j)) * b h) by (eapply Rle_trans; [apply Rabs_triang|]; rewrite (S_INR (S j)); lra). apply Rabs_le_inv in Q. apply Rabs_le. split; [apply (near_ge_fmt prec top W); [now apply (fmt_opp prec top)|lra]|apply (near_le_fmt prec top W); [exact JF|lra]].
    - replace (near (x + near (a * y)) - (x + a * y)) with ((near (x + near (a * y)) - (x + near (a * y))) + (near (a * y) - a * y)) by ring. eapply Rle_trans; [apply Rabs_triang|]. lra. }
  exists z'. split; [|split; [|split]].
  - apply (nth_ext _ _ NaN NaN); [rewrite !map_length, combine_length, !map_length; lia|]. rewrite map_length, combine_length, !map_length. intros i I. assert (I' : (i < d)%nat) by lia. rewrite (nth_combine _ _ _ i NaN NaN NaN) by (rewrite !map_length; lia). cbn [fst snd]. rewrite !(nth_Fi _ _) by lia. now apply St.
  - apply Forall_forall. intros x I. apply (In_nth _ _ 0) in I as (i & I & <-). rewrite Lz' in I. now apply St.
  - intros i I. now apply St.
  - split; [exact Lz'|]. split; [unfold exact_move; rewrite map_length, combine_length; lia|]. intros i I. unfold exact_move. rewrite (nth_combine _ zx ux i 0 0 0) by lia. cbn [fst snd]. fold t. destruct (St i I) as (_ & _ & _ & S4). destruct (vector_nth uu i Hu I) as (_ & Bu).
    pose proof (mul_close a t (nth i uu 0) (nth i ux 0)) as MC. specialize (Ez' i I). specialize (Eu' i I).
    assert (Q1 : Rabs (a - t) * Rabs (nth i uu 0) <= (10 * (v * D) + D * e) * D) by (apply Rmult_le_compat; auto using Rabs_pos; lra). assert (Q2 : Rabs t * Rabs (nth i uu 0 - nth i ux 0) <= 1 * eps) by (apply Rmult_le_compat; auto using Rabs_pos).
    assert (Q3 : u * M <= v * (D * D)) by (apply Rle_trans with (v * D); [apply Rmult_le_compat; lra|lra]).
    replace (nth i z' 0 - (nth i zx 0 + t * nth i ux 0)) with ((nth i z' 0 - (nth i z 0 + a * nth i uu 0)) + (nth i z 0 - nth i zx 0) + (a * nth i uu 0 - t * nth i ux 0)) by ring. eapply Rle_trans; [apply Rabs_triang|]. eapply Rle_trans; [apply Rplus_le_compat_r, Rabs_triang|]. lra.
Qed.
Lemma step_spec : exists z' l', fplanar_step prec top liblog libtanh k (map Fi uu) (FPlanar (map Fi w) aux (Fi bb)) (map Fi z, Fi l) = Some (map Fi z', Fi l') /\ Forall float z' /\ float l' /\
  (forall i, (i < d)%nat -> Rabs (nth i z' 0) <= INR (S (S j)) * b h) /\ near_vectors d (e * (1 + D * D) + 15 * (v * (D * D)) + eps) z' (exact_move ux w bb zx) /\
  Rabs (l' - (lx - ln det)) <= Rabs (l - lx) + (2 * E3 / c + 5 * u * L0 + 5 / 4 * u * B) /\ Rabs (ln det) <= L0.
Proof.
  destruct act_spec as (a & Ea & Fa & Ba & Da). destruct (det_spec a Fa Ba Da) as (s & x & Es & S1 & Ex & Fx & Dx). destruct (log_spec x Fx Dx) as (l' & El & Fl & Dl & Bl). destruct (move_spec a Fa Ba Da) as (z' & Em & Fz & Bz & Dz).
  exists z', l'. split.
  - unfold fplanar_step. cbn [f_w f_b fst snd]. rewrite Es. cbn [eleb]. destruct (Rle_dec (-1) s); [|contradiction]. rewrite Ea, Ex, Em, El. reflexivity.
  - split; [exact Fz|]. split; [exact Fl|]. split; [exact Bz|]. split; [exact Dz|]. split; [|exact Bl]. replace (l' - (lx - ln det)) with ((l - lx) + (l' - (l - ln det))) by ring. eapply Rle_trans; [apply Rabs_triang|]. lra.
Qed.
End Step.

Section Rows.
Variables (om c l0 : R) (h : Z) (N : nat).
Hypothesis OM : 0 < om <= 1.
Hypothesis OR : b (- r) <= om.
Hypothesis C1 : 0 < c <= 1.
Hypothesis H0 : (0 <= h)%Z.
Hypothesis HN : INR (S N) * b h <= M.
Hypothesis ES : parameter_error prec d r om <= 1.
Hypothesis CE : 2 * det_error prec d r om N <= c.
Hypothesis UB : 8 * u * log_prob_size d r c N l0 <= 1.
Notation eps := (parameter_error prec d r om).
Notation L0 := (log_det_size d r c).
Notation B := (log_prob_size d r c N l0).
Let g := 15 * (v * (D * D)) + eps.
Let err j := INR j * (1 + D * D) ^ j * g.
Let lam := 2 * det_error prec d r om N / c + 5 * u * L0 + 5 / 4 * u * B.

Lemma eps_0 : 0 <= eps.
Proof. pose proof D_ge1. pose proof u_v as (U & V). unfold parameter_error. change (dots d r) with D. fold v. apply Rmult_le_pos; [|left; apply Rinv_0_lt_compat; nra]. apply Rmult_le_pos; [lra|]. apply Rmult_le_pos; nra. Qed.
Lemma g_0 : 0 <= g.
Proof. pose proof eps_0. pose proof D_ge1. pose proof u_v as (U & V). unfold g. assert (0 <= v * (D * D)) by (apply Rmult_le_pos; nra). lra. Qed.
Lemma pow_1 j : 1 <= (1 + D * D) ^ j.
Proof. pose proof D_ge1. apply pow_R1_Rle. nra. Qed.
Lemma err_0 j : 0 <= err j.
Proof. unfold err. pose proof g_0. pose proof (pow_1 j). pose proof (pos_INR j). apply Rmult_le_pos; [apply Rmult_le_pos; lra|assumption]. Qed.
Lemma err_S j : err j * (1 + D * D) + g <= err (S j).
Proof.
  unfold err. rewrite S_INR. pose proof g_0 as G. pose proof (pow_1 (S j)) as P. cbn [pow] in *. replace ((INR j + 1) * ((1 + D * D) * (1 + D * D) ^ j) * g) with (INR j * (1 + D * D) ^ j * g * (1 + D * D) + (1 + D * D) * (1 + D * D) ^ j * g) by ring. apply Rplus_le_compat_l. nra.
Qed.
Lemma err_le j n : (j <= n)%nat -> err j <= err n.
Proof.
  induction 1 as [|m H IH]; [apply Rle_refl|]. pose proof (err_S m) as S. pose proof (err_0 m) as Z. pose proof g_0 as G. pose proof D_ge1 as D1'. assert (Q : err m * 1 <= err m * (1 + D * D)) by (apply Rmult_le_compat_l; [exact Z|nra]).
  rewrite Rmult_1_r in Q. eapply Rle_trans; [exact IH|]. eapply Rle_trans; [exact Q|]. eapply Rle_trans; [|exact S]. rewrite <- (Rplus_0_r (err m * _)) at 1. apply Rplus_le_compat_l, G.
Qed.
Lemma L0_7 : 7 <= L0.
Proof. pose proof D_ge1. unfold log_det_size. change (dots d r) with D. assert (2 <= 2 / c). { apply (Rmult_le_reg_r c); [lra|]. unfold Rdiv. rewrite Rmult_assoc, Rinv_l by lra. lra. } lra. Qed.
Lemma row_spec : forall ps j z zx l lx, (j + length ps = N)%nat -> (forall k p, In (k, p) ps -> sound_layer prec top d r h om c p /\ multiplies k d) -> length z = d -> Forall float z -> (forall i, (i < d)%nat -> Rabs (nth i z 0) <= INR (S j) * b h) ->
  near_vectors d (err j) z zx -> float l -> Rabs (l - lx) <= INR j * lam -> Rabs lx <= Rabs l0 + INR j * L0 ->
  exists z' l' zx' lx', fplanar_row prec top libexp liblog libtanh (map (fun q => (fst q, float_params (snd q))) ps) (map Fi z, Fi l) = Some (map Fi z', Fi l') /\ planar_row (map snd ps) (zx, lx) = Some (zx', lx') /\
    Forall float z' /\ float l' /\ near_vectors d (err N) z' zx' /\ Rabs (l' - lx') <= INR N * lam.
Proof.
  induction ps as [|(k, p) ps IH]; intros j z zx l lx Hj Hps Lz Fz Bz Nz Fl Dl Bx.
  - cbn [length] in Hj. replace N with j by lia. exists z, l, zx, lx. cbn. auto 10.
  - cbn [length] in Hj. destruct (Hps k p (or_introl eq_refl)) as ((Hw & Ha & Fb & Bb & On & Qt & Cl & Us) & K). pose proof A as (_ & p3 & _). pose proof D_ge1 as D1'. pose proof u_v as (U & V). pose proof M_le as ML. pose proof eps_0 as e0. pose proof g_0 as g0. pose proof L0_7 as L7. assert (b0 : 0 < b h) by apply bpow_gt_0.
    assert (n1 : 1 <= INR N) by (apply (le_INR 1); lia). assert (hM : b h <= M) by (rewrite S_INR in HN; nra). assert (hr : (h <= r)%Z) by (apply (le_bpow radix2); exact hM). assert (LB : L0 <= B) by (unfold log_prob_size; pose proof (Rabs_pos l0); nra).
    assert (NP : (Z.of_nat (S N) <= 2 ^ prec)%Z). { apply le_IZR. rewrite <- INR_IZR_INZ, (pow_prec prec top A), S_INR. apply (Rmult_le_reg_r u); [exact U|]. replace (b prec * u) with 1 by (unfold unit_roundoff; rewrite <- bpow_plus; replace (prec + - prec)%Z with 0%Z by lia; reflexivity). assert (INR N * 9 <= B) by (unfold log_prob_size; pose proof (Rabs_pos l0); nra). nra. }
    destruct (params_spec p k om Hw Ha K OM OR On Qt) as (uu & Eu & Fu & Nu); [intros i I; specialize (Us i I); lra|exact ES|]. change (100 * v * (D * D * D) / (om * om)) with eps in Nu.
    assert (ux_h : forall i, (i < d)%nat -> Rabs (nth i (planar_u p) 0) <= b h - 1) by (intros i I; specialize (Us i I); lra).
    assert (uu_h : forall i, (i < d)%nat -> Rabs (nth i uu 0) <= b h). { intros i I. destruct Nu as (_ & _ & Q). specialize (Q i I). specialize (ux_h i I). apply Rabs_le_inv in Q, ux_h. apply Rabs_le. lra. }
    assert (Vu : vector prec top r d uu). { split; [apply Nu|]. apply Forall_forall. intros x I. rewrite Forall_forall in Fu. split; [now apply Fu|]. apply (In_nth _ _ 0) in I as (i & I & <-). destruct Nu as (L & _). rewrite L in I. specialize (uu_h i I). lra. }
    assert (jN : INR (S j) * b h <= M) by (eapply Rle_trans; [|exact HN]; apply Rmult_le_compat_r; [lra|]; apply le_INR; lia).
    assert (Vz : vector prec top r d z). { split; [exact Lz|]. apply Forall_forall. intros x I. rewrite Forall_forall in Fz. split; [now apply Fz|]. apply (In_nth _ _ 0) in I as (i & I & <-). rewrite Lz in I. specialize (Bz i I). lra. }
    assert (nz : dot (p_w p) (p_w p) <> 0) by lra. assert (La : length (p_aux_u p) = length (p_w p)) by (destruct Ha as (-> & _), Hw as (-> & _); reflexivity).
    assert (CS : c <= 1 + dot (planar_u p) (p_w p)) by (rewrite (planar_scalar p La nz); lra).
    assert (EE : 33 * v * (D * D) + D * eps + 2 * (D * D) * err j <= det_error prec d r om N). { unfold det_error. change (dots d r) with D. fold v. apply Rplus_le_compat_l. apply Rmult_le_compat_l; [nra|]. exact (err_le j N ltac:(lia)). }
    assert (l2 : lam <= 2). { unfold lam. assert (2 * det_error prec d r om N / c <= 1) by (apply (Rmult_le_reg_r c); [lra|]; unfold Rdiv; rewrite Rmult_assoc, Rinv_l by lra; lra). assert (u * L0 <= u * B) by (apply Rmult_le_compat_l; lra). lra. }
    assert (Bl : Rabs l <= B). { replace l with ((l - lx) + lx) by ring. eapply Rle_trans; [apply Rabs_triang|]. assert (INR j <= INR N) by (apply le_INR; lia). pose proof (pos_INR j). unfold log_prob_size. nra. }
    destruct (step_spec (p_w p) uu (planar_u p) z zx (p_b p) l lx c (err j) eps B k h j (map Fi (p_aux_u p))) as (z' & l' & E & Fz' & Fl' & Bz' & Nz' & Dl' & Bd); try assumption; [now split|intros i I; specialize (ux_h i I); lra|apply err_0|lra|now split|lia|lia|].
    set (det := dot (planar_u p) (p_w p) * (1 - tanh (dot zx (p_w p) + p_b p) * tanh (dot zx (p_w p) + p_b p)) + 1) in *.
    destruct (IH (S j) z' (exact_move (planar_u p) (p_w p) (p_b p) zx) l' (lx - ln det)) as (z2 & l2' & zx2 & lx2 & R1 & R2 & R3); [lia|intros k' p' I; apply Hps; now right|apply Nz'|exact Fz'|exact Bz'| |exact Fl'| | |].
    + destruct Nz' as (Q1 & Q2 & Q3). split; [exact Q1|]. split; [exact Q2|]. intros i I. eapply Rle_trans; [exact (Q3 i I)|]. pose proof (err_S j) as S. unfold g in S. lra.
    + rewrite S_INR. eapply Rle_trans; [exact Dl'|]. assert (2 * (33 * v * (D * D) + D * eps + 2 * (D * D) * err j) / c + 5 * u * L0 + 5 / 4 * u * B <= lam). { unfold lam. do 2 apply Rplus_le_compat_r. apply Rmult_le_compat_r; [left; apply Rinv_0_lt_compat; lra|lra]. } change (5 * D + 2 / c) with L0. lra.
    + rewrite S_INR. unfold Rminus. eapply Rle_trans; [apply Rabs_triang|]. rewrite Rabs_Ropp. change (5 * D + 2 / c) with L0 in Bd. lra.
    + exists z2, l2', zx2, lx2. split; [|split; [|exact R3]].
      * cbn [map fst snd fplanar_row]. unfold fplanar_layer. rewrite Eu. unfold float_params at 1. rewrite E. cbn [obind]. exact R1.
      * cbn [map snd planar_row]. rewrite planar_layer_eq by assumption. cbn [obind]. exact R2.
Qed.
End Rows.
End Size.
End Format.
(** ** Where the invertibility constraint is lost *)
Section Lost.
Variables prec top : Z.
Hypothesis A : ample prec top.
Notation u := (unit_roundoff prec).
Notation float := (is_float prec top).
Notation near := (nearest prec top).
Notation b e := (bpow radix2 e).
Variables libexp liblog libtanh : R -> R.
Hypothesis HE : faithful_exp prec top libexp.
Hypothesis HL : faithful_log prec top liblog.
Hypothesis HT : faithful_tanh prec top libtanh.
Lemma log_1 : felog top liblog (Fi 1) = Fi 0.
Proof.
  pose proof A as (W & p3 & _). assert (b0 : b (- prec) <= 1 <= b prec) by (split; [apply (bpow_le radix2 (- prec) 0)|apply (bpow_le radix2 0 prec)]; lia).
  destruct (lib_log_spec prec top W liblog 1 HL (float_1 prec top A) b0) as (E & _ & _ & _ & P & Q). rewrite E. f_equal. specialize (P ltac:(lra)). specialize (Q ltac:(lra)). lra.
Qed.
Lemma tanh_lib_0 : libtanh 0 = 0.
Proof.
  pose proof A as (W & _). pose proof (HT 0 (float_0 prec top)) as H. pose proof (fmt_0 prec top) as F. assert (T : tanh 0 = 0) by (unfold tanh, sinh; rewrite Ropp_0; unfold Rdiv; rewrite Rminus_eq_0; ring). apply Rle_antisym; [apply (faithful_le prec top W _ _ _ _ H F)|apply (faithful_ge prec top W _ _ _ _ H F)]; lra.
Qed.
Lemma tiny_exp x : x <= - IZR (2 * prec) -> exp x <= b (- prec - 1).
Proof.
  intros Hx. pose proof A as (W & p3 & _). apply Rle_trans with (b (- (2 * prec))); [|apply bpow_le; lia]. rewrite bpow_exp. cbn [radix_val radix2]. apply exp_le. rewrite opp_IZR. pose proof ln_lt_2. assert (ln 2 <= 1) by (pose proof (ln_le_sub 2 ltac:(lra)); lra). assert (0 <= IZR (2 * prec)) by (apply IZR_le; lia). nra.
Qed.
Lemma softplus_lost x : float x -> exp x <= b (- prec - 1) -> felog top liblog (fadd prec top (feexp top libexp (Fi x)) (Fi 1)) = Fi 0.
Proof.
  intros Fx L. pose proof A as (W & p3 & _). pose proof (top_big prec top A) as TB. assert (F : generic_format radix2 (fexpo prec top) (b (- prec - 1))) by (apply (fmt_bpow prec top W); lia).
  pose proof (HE x Fx) as H. assert (l0 : 0 <= libexp x) by (apply (faithful_ge prec top W _ _ _ _ H (fmt_0 prec top)); left; apply exp_pos). assert (l1 : libexp x <= b (- prec - 1)) by exact (faithful_le prec top W _ _ _ _ H F L).
  assert (b1 : b (- prec - 1) < u) by (apply bpow_lt; lia). assert (u1 : u <= 1) by (apply (bpow_le radix2 (- prec) 0); lia). unfold feexp. rewrite overflow_small by (apply (below_top prec top W); rewrite Rabs_pos_eq; lra). unfold fadd. cbn [eadd rounded].
  assert (N : near (libexp x + 1) = 1). { apply Rle_antisym; [|apply (near_ge_fmt prec top W); [apply (fmt_1 prec top W)|lra]]. eapply Rle_trans; [apply Rle_abs|]. apply (near_past prec top A _ 0); [lia|]. change (b 0) with 1. rewrite Rabs_pos_eq by lra. lra. }
  rewrite N, overflow_small by (apply (below_top prec top W); rewrite Rabs_R1; lra). apply log_1.
Qed.
Lemma exp_top x : float x -> IZR top <= x -> feexp top libexp (Fi x) = PInf.
Proof.
  intros Fx Hx. pose proof A as (W & p3 & _). pose proof (top_big prec top A) as TB. assert (L : b top <= libexp x). { apply (faithful_ge prec top W _ _ _ _ (HE x Fx)); [apply (fmt_bpow prec top W); lia|]. rewrite bpow_exp. cbn [radix_val radix2]. apply exp_le. assert (ln 2 <= 1) by (pose proof (ln_le_sub 2 ltac:(lra)); lra). assert (0 <= IZR top) by (apply IZR_le; lia). pose proof ln_lt_2. nra. }
  pose proof (bpow_gt_0 radix2 top). cbn. unfold overflow. rewrite Rabs_pos_eq by lra. destruct (Rlt_dec _ _); [lra|]. destruct (Rlt_dec 0 _); [reflexivity|lra].
Qed.
Lemma int_ops n m : (0 <= n <= 2 ^ prec)%Z -> (0 <= m <= 2 ^ prec)%Z -> (Z.abs (n - m) <= 2 ^ prec)%Z -> fsub prec top (Fi (IZR n)) (Fi (IZR m)) = Fi (IZR (n - m)).
Proof.
  intros Hn Hm H. unfold fsub, esub. cbn [eneg eadd]. replace (IZR n + - IZR m) with (IZR (n - m)) by (rewrite minus_IZR; ring). apply rounded_float. destruct (Z_le_dec 0 (n - m)) as [L|L]; [apply (float_count prec top A); lia|]. replace (n - m)%Z with (- (m - n))%Z by lia. rewrite opp_IZR. apply float_opp, (float_count prec top A). lia.
Qed.
End Lost.
(** Rounding to nearest of a number that need not be dyadic. *)
Lemma near_real prec top x m c : wide prec top -> (3 - top - prec <= c)%Z -> bpow radix2 (c + prec - 1) <= x < bpow radix2 (c + prec) -> Rabs (x - IZR m * bpow radix2 c) < / 2 * bpow radix2 c ->
  nearest prec top x = IZR m * bpow radix2 c.
Proof.
  intros W C R H. assert (P : (2 <= prec)%Z) by (destruct W; lia). pose proof (bpow_gt_0 radix2 (c + prec - 1)) as P0. pose proof (bpow_gt_0 radix2 c) as c0.
  assert (X : cexp radix2 (fexpo prec top) x = c) by (unfold cexp; rewrite (mag_unique_pos radix2 _ (c + prec)) by exact R; unfold fexpo, FLT_exp; lia).
  unfold nearest, round. rewrite X. unfold F2R. cbn [Fnum Fexp]. f_equal. f_equal. apply Znearest_imp. unfold scaled_mantissa. rewrite X. apply (Rmult_lt_reg_r (bpow radix2 c)); [exact c0|]. eapply Rle_lt_trans; [|exact H]. right.
  transitivity (Rabs (x * bpow radix2 (- c) - IZR m) * Rabs (bpow radix2 c)); [rewrite (Rabs_pos_eq (bpow radix2 c)); [reflexivity|lra]|]. rewrite <- Rabs_mult. f_equal. rewrite Rmult_minus_distr_r, Rmult_assoc, <- bpow_plus. replace (- c + c)%Z with 0%Z by lia. change (bpow radix2 0) with 1. ring.
Qed.
