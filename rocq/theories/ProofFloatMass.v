(** Lemmas for C61: the moving variance in floating-point arithmetic. *)
From Coq Require Import List Arith Bool Reals ZArith Lra Lia Permutation.
From Flocq Require Import Core Relative Plus_error Mult_error.
From Verif Require Import ModelExt ModelSpecial ModelNum ModelFloat ModelFloatSample ModelFloatTune ModelFloatMass ModelHMC SpecFloat
  ProofFloat ProofFloatSample ProofFloatDensity ProofFloatTune.
Import ListNotations.
Local Open Scope R_scope.

Section Proofs.
Variables prec top : Z.
Hypothesis A : ample prec top.
Let W : wide prec top := proj1 A.
Notation u := (unit_roundoff prec).
Notation fmt := (generic_format radix2 (fexpo prec top)).
Notation float := (is_float prec top).
Notation near := (nearest prec top).
Notation b e := (bpow radix2 e).
Local Instance prec_gt_0' : Prec_gt_0 prec. Proof. unfold Prec_gt_0. destruct W; lia. Qed.
Local Instance valid_exp' : Valid_exp (fexpo prec top). Proof. apply FLT_exp_valid. unfold Prec_gt_0. destruct W; lia. Qed.
Variable libpow : R -> R -> R.
Hypothesis FP : faithful_pow prec top libpow.
Variable d : R.
Hypothesis Fd : float d.
Hypothesis Hd : 16 * u <= d <= 1 - 16 * u.

Lemma over_1 x : x / 1 = x.
Proof. unfold Rdiv. rewrite Rinv_1. ring. Qed.
Lemma u32 : 0 < u <= 1 / 32.
Proof. pose proof (u_pos prec). split; [assumption|lra]. Qed.
Lemma pow_int n : (1 <= n)%Z -> exists k, Z.of_nat (S k) = n /\ Rpower d (IZR n) = d ^ S k /\ 0 < d ^ S k <= d /\ ((2 <= n)%Z -> d ^ S k <= d * d).
Proof.
  intros N. destruct u32. exists (Z.to_nat (n - 1)). assert (E : Z.of_nat (S (Z.to_nat (n - 1))) = n) by lia. split; [exact E|]. rewrite <- E at 1. rewrite <- INR_IZR_INZ, Rpower_pow by lra.
  split; [reflexivity|]. assert (P : forall k, 0 < d ^ k <= 1) by (intros k; split; [apply pow_lt; lra|]; rewrite <- (pow1 k); apply pow_incr; lra).
  split; [cbn [pow]; specialize (P (Z.to_nat (n - 1))); split; [apply Rmult_lt_0_compat; lra|nra]|]. intros N2. replace (Z.to_nat (n - 1)) with (S (Z.to_nat (n - 2))) by lia. cbn [pow].
  specialize (P (Z.to_nat (n - 2))). rewrite <- Rmult_assoc. rewrite <- (Rmult_1_r (d * d)) at 2. apply Rmult_le_compat_l; nra.
Qed.
(** The weight of the n-th update. *)
Definition weight (n : Z) : R := near (near (1 - d) / near (1 - libpow d (IZR n))).
Definition exact_weight (n : Z) : R := (1 - d) / (1 - d ^ Z.to_nat n).
Lemma fmt_sub_unit j : (0 <= j <= 2 ^ prec)%Z -> fmt (1 - IZR j * u).
Proof.
  intros H. replace (1 - IZR j * u) with (IZR (2 ^ prec - j) * b (- prec)); [apply (fmt_grid prec top W); destruct W; lia|].
  rewrite minus_IZR, (pow_prec prec top A). unfold unit_roundoff. rewrite Rmult_minus_distr_r, <- bpow_plus, Z.add_opp_diag_r. reflexivity.
Qed.
Lemma weight_spec n : (1 <= n <= 2 ^ prec)%Z ->
  fweight prec top libpow (Fi d) (Fi (IZR n)) = Fi (weight n) /\ float (weight n) /\ 0 < weight n <= 1 /\ (n = 1%Z -> weight n = 1) /\
  ((2 <= n)%Z -> weight n <= 1 - 4 * u) /\
  1 - d <= exact_weight n <= 1 /\ Rabs (weight n - exact_weight n) <= 6 * (u / (1 - d)) * exact_weight n.
Proof.
  intros N. destruct u32 as (U0 & U1). destruct (pow_int n ltac:(lia)) as (k & Ek & Ep & Hp & Hp2).
  assert (Fn : float (IZR n)) by (apply (float_count prec top A); lia). pose proof (FP d (IZR n) Fd Fn ltac:(lra)) as FA. set (P := libpow d (IZR n)) in *.
  assert (P0 : 0 <= P) by (apply (faithful_ge prec top W _ _ _ _ FA); [apply generic_format_0|rewrite Ep; lra]).
  assert (P1 : P <= d) by (apply (faithful_le prec top W _ _ _ _ FA); [apply Fd|rewrite Ep; lra]).
  assert (Pe : Rabs (P - d ^ S k) <= u).
  { eapply Rle_trans; [rewrite <- Ep; apply (faithful_err prec top W _ _ _ FA)|]. apply (ulp_unit prec top W). rewrite Ep. lra. }
  assert (FP1 : fmt P) by (apply (faithful_fmt prec top W _ _ _ FA)).
  assert (Ex : exact_weight n = (1 - d) / (1 - d ^ S k)) by (unfold exact_weight; replace (Z.to_nat n) with (S k) by lia; reflexivity).
  set (D := d ^ S k) in *.
  destruct (factor_sub prec top A 1 d (fmt_1 prec top W) (proj1 Fd)) as (f1 & E1 & B1). destruct (factor_sub prec top A 1 P (fmt_1 prec top W) FP1) as (f2 & E2 & B2).
  assert (N1 : 0 < near (1 - d) <= 1).
  { split; [|apply (near_unit prec top W); lra]. apply Rlt_le_trans with (b (- prec)); [apply bpow_gt_0|]. apply near_ge_fmt; [exact W|apply (fmt_bpow prec top W); destruct W; lia|]. change (b (- prec)) with u. lra. }
  assert (N2 : near (1 - d) <= near (1 - P) <= 1) by (split; [apply (near_le prec top W); lra|apply (near_unit prec top W); lra]).
  assert (Q : 0 <= near (1 - d) / near (1 - P) <= 1) by (apply div_unit; lra).
  assert (Qu : u <= near (1 - d) / near (1 - P)).
  { apply Rle_trans with (near (1 - d)).
    - change u with (b (- prec)). apply near_ge_fmt; [exact W|apply (fmt_bpow prec top W); destruct W; lia|]. change (b (- prec)) with u. lra.
    - rewrite <- (over_1 (near (1 - d))) at 1. apply Rmult_le_compat_l; [lra|]. apply Rinv_le; lra. }
  destruct (rounded_unit prec top W _ Q) as (R1 & R2). fold (weight n) in R1, R2. assert (R3 : 0 < weight n <= 1).
  { split; [|apply (near_unit prec top W); exact Q]. apply Rlt_le_trans with (b (- prec)); [apply bpow_gt_0|]. apply near_ge_fmt; [exact W|apply (fmt_bpow prec top W); destruct W; lia|]. exact Qu. }
  assert (X : 1 - d <= exact_weight n <= 1).
  { rewrite Ex. split; [|apply div_unit; lra]. rewrite <- (over_1 (1 - d)) at 1. apply Rmult_le_compat_l; [lra|]. apply Rinv_le; lra. }
  split.
  { unfold fweight. cbn [fpow]. destruct (Rlt_dec 0 d); [|lra]. fold P. rewrite overflow_small by (apply (below_top prec top W); rewrite Rabs_pos_eq; lra).
    destruct (fsub_near prec top A 1 d 0 ltac:(pose proof (top_big prec top A); destruct W; lia) ltac:(pose proof (top_big prec top A); destruct W; lia)) as (-> & _); [cbn; apply Rabs_le; lra|].
    destruct (fsub_near prec top A 1 P 0 ltac:(pose proof (top_big prec top A); destruct W; lia) ltac:(pose proof (top_big prec top A); destruct W; lia)) as (-> & _); [cbn; apply Rabs_le; lra|].
    rewrite (fdiv_fi prec top) by lra. exact R1. }
  split; [exact R2|]. split; [exact R3|]. split.
  { intros ->. assert (Z : k = O) by lia. assert (Dd : D = d) by (unfold D; rewrite Z; cbn; ring).
    assert (Pd : P = d) by (apply Rle_antisym; [exact P1|]; apply (faithful_ge prec top W _ _ _ _ FA); [apply Fd|]; rewrite Ep, Dd; lra).
    unfold weight. fold P. rewrite Pd. unfold Rdiv. rewrite Rinv_r by lra. apply (near_id prec top), (fmt_1 prec top W). }
  split.
  { intros N2'. specialize (Hp2 N2'). apply Rabs_le_inv in Pe. apply Rabs_le_inv in B1. apply Rabs_le_inv in B2.
    assert (G : (1 - d) / (1 - P) <= 1 - 7 * u).
    { apply Rmult_le_reg_r with (1 - P); [lra|]. unfold Rdiv. rewrite Rmult_assoc, Rinv_l, Rmult_1_r by lra.
      assert (P <= d * d + u) by lra. destruct (Rle_dec d (1 / 2)) as [S|S].
      - assert (8 * u <= d * (1 - d)) by nra. nra.
      - assert (16 * u <= 1 - d) by lra. assert (7 * u * (1 - P) <= 7 / 32 * (1 - P)) by nra. assert ((1 - P) * (7 / 32) <= d - P); [|lra].
        assert (d * (1 - d) >= 1 / 2 * (1 - d)) by nra. nra. }
    assert (H : near (1 - d) / near (1 - P) <= 1 - 4 * u).
    { rewrite E1, E2. replace ((1 - d) * f1 / ((1 - P) * f2)) with ((1 - d) / (1 - P) * (f1 / f2)) by (field; lra).
      assert (F : f1 / f2 <= (1 + u) / (1 - u)).
      { unfold Rdiv. apply Rmult_le_compat; [lra|left; apply Rinv_0_lt_compat; lra|lra|apply Rinv_le; lra]. }
      apply Rle_trans with ((1 - 7 * u) * ((1 + u) / (1 - u))).
      - apply Rmult_le_compat; [|apply Rmult_le_pos; [lra|left; apply Rinv_0_lt_compat; lra]|exact G|exact F]. apply Rmult_le_pos; [lra|left; apply Rinv_0_lt_compat; lra].
      - apply Rmult_le_reg_r with (1 - u); [lra|]. replace ((1 - 7 * u) * ((1 + u) / (1 - u)) * (1 - u)) with ((1 - 7 * u) * (1 + u)) by (field; lra). nra. }
    apply near_le_fmt; [exact W|apply (fmt_sub_unit 4)|exact H]. pose proof A as (_ & p3 & _). assert (2 ^ 3 <= 2 ^ prec)%Z by (apply Z.pow_le_mono_r; lia). lia. }
  split; [exact X|].
  assert (V : u <= u / (1 - d) <= 1 / 16).
  { split; [rewrite <- (over_1 u) at 1; apply Rmult_le_compat_l; [lra|]; apply Rinv_le; lra|]. apply Rmult_le_reg_r with (1 - d); [lra|]. unfold Rdiv at 1. rewrite Rmult_assoc, Rinv_l by lra. lra. }
  set (v := u / (1 - d)) in *.
  destruct (factor_normal prec top A (near (1 - d) / near (1 - P))) as (f3 & E3 & B3).
  { rewrite Rabs_pos_eq by lra. apply Rle_trans with (b (- prec)); [apply bpow_le; destruct W; lia|exact Qu]. }
  assert (Dn : 1 - P = (1 - D) * (1 - (P - D) / (1 - D))) by (field; lra). set (g := (P - D) / (1 - D)) in *.
  assert (Bg : Rabs g <= v).
  { unfold g, v, Rdiv. rewrite Rabs_mult. apply Rmult_le_compat; [apply Rabs_pos|apply Rabs_pos|exact Pe|]. rewrite Rabs_pos_eq by (left; apply Rinv_0_lt_compat; lra). apply Rinv_le; lra. }
  assert (Ew : weight n = exact_weight n * (f1 * f3 * (/ f2 * / (1 - g)))).
  { unfold weight. fold P. rewrite E3, E1, E2, Dn, Ex. apply Rabs_le_inv in Bg. apply Rabs_le_inv in B2. field. lra. }
  assert (I2 : Rabs (/ f2 - 1) <= 8 / 7 * v).
  { apply Rabs_le_inv in B2. replace (/ f2 - 1) with ((1 - f2) * / f2) by (field; lra). rewrite Rabs_mult. assert (/ f2 <= 8 / 7) by (rewrite <- (Rinv_inv (8 / 7)); apply Rinv_le; lra).
    assert (0 < / f2) by (apply Rinv_0_lt_compat; lra). rewrite (Rabs_pos_eq (/ f2)) by lra. rewrite Rmult_comm. apply Rmult_le_compat; [lra|apply Rabs_pos|lra|apply Rabs_le; lra]. }
  assert (I3 : Rabs (/ (1 - g) - 1) <= 8 / 7 * v).
  { apply Rabs_le_inv in Bg. replace (/ (1 - g) - 1) with (g * / (1 - g)) by (field; lra). rewrite Rabs_mult. assert (/ (1 - g) <= 8 / 7) by (rewrite <- (Rinv_inv (8 / 7)); apply Rinv_le; lra).
    assert (0 < / (1 - g)) by (apply Rinv_0_lt_compat; lra). rewrite (Rabs_pos_eq (/ (1 - g))) by lra. rewrite Rmult_comm. apply Rmult_le_compat; [lra|apply Rabs_pos|lra|apply Rabs_le; lra]. }
  assert (J1 : Rabs (f1 * f3 - 1) <= (1 + 1 + 1 * 1 / 8) * v) by (apply close_mult; lra).
  assert (J2 : Rabs (/ f2 * / (1 - g) - 1) <= (8 / 7 + 8 / 7 + 8 / 7 * (8 / 7) / 8) * v) by (apply close_mult; lra).
  assert (J : Rabs (f1 * f3 * (/ f2 * / (1 - g)) - 1) <= 6 * v).
  { eapply Rle_trans; [apply (close_mult _ _ (1 + 1 + 1 * 1 / 8) (8 / 7 + 8 / 7 + 8 / 7 * (8 / 7) / 8) v); lra|]. apply Rmult_le_compat_r; lra. }
  rewrite Ew. replace (exact_weight n * (f1 * f3 * (/ f2 * / (1 - g))) - exact_weight n) with ((f1 * f3 * (/ f2 * / (1 - g)) - 1) * exact_weight n) by ring.
  rewrite Rabs_mult, (Rabs_pos_eq (exact_weight n)) by lra. apply Rmult_le_compat_r; lra.
Qed.

(** ** The mean moves towards the new position *)
Lemma near_0 : near 0 = 0. Proof. apply (near_id prec top), generic_format_0. Qed.
Lemma part_of w q m : fmt q -> fmt m -> 0 <= w <= 1 - 4 * u -> m <= q -> 0 <= near (w * near (q - m)) <= q - m.
Proof.
  intros Fq Fm Hw H. destruct u32 as (U0 & U1). set (D := q - m). assert (D0 : 0 <= D) by (unfold D; lra).
  assert (N0 : 0 <= near D) by (apply (near_nonneg prec top W); exact D0). split; [apply (near_nonneg prec top W), Rmult_le_pos; lra|].
  destruct (Rle_dec D (b (prec + (3 - top - prec)))) as [S|S].
  - assert (F : fmt D).
    { unfold D, Rminus. apply FLT_format_plus_small; [exact _|exact Fq|now apply generic_format_opp|]. fold (Rminus q m). fold D. rewrite Rabs_pos_eq; assumption. }
    rewrite (near_id prec top D) by exact F. apply near_le_fmt; [exact W|exact F|]. nra.
  - assert (E : Rabs (near D - D) <= u * Rabs D) by (apply near_sub; assumption). rewrite (Rabs_pos_eq D) in E by lra. apply Rabs_le_inv in E.
    assert (X : w * near D <= (1 - 3 * u) * D) by (apply Rle_trans with ((1 - 4 * u) * ((1 + u) * D)); [apply Rmult_le_compat; lra|]; assert (0 <= u * u * D) by (apply Rmult_le_pos; nra); lra).
    pose proof (near_err_half prec top A (w * near D)) as E2. rewrite (Rabs_pos_eq (w * near D)) in E2 by (apply Rmult_le_pos; lra). apply Rabs_le_inv in E2.
    assert (Y : b (3 - top - prec) <= 2 * (u * D)).
    { replace (prec + (3 - top - prec))%Z with (3 - top)%Z in S by lia. apply Rle_trans with (1 * (u * b (3 - top))); [|apply Rnot_le_lt in S; assert (u * b (3 - top) <= u * D) by (apply Rmult_le_compat_l; lra); assert (0 <= u * D) by nra; lra].
      right. rewrite Rmult_1_l. unfold unit_roundoff. rewrite <- bpow_plus. f_equal. lia. }
    assert (Z : (1 + u) * (w * near D) <= (1 + u) * ((1 - 3 * u) * D)) by (apply Rmult_le_compat_l; lra). assert (0 <= u * u * D) by (apply Rmult_le_pos; nra). lra.
Qed.
Lemma part_of' w q m : fmt q -> fmt m -> 0 <= w <= 1 - 4 * u -> q <= m -> q - m <= near (w * near (q - m)) <= 0.
Proof.
  intros Fq Fm Hw H. pose proof (part_of w (- q) (- m) (generic_format_opp _ _ _ Fq) (generic_format_opp _ _ _ Fm) Hw ltac:(lra)) as P.
  replace (- q - - m) with (- (q - m)) in P by ring. rewrite (near_opp prec top), Ropp_mult_distr_r_reverse, (near_opp prec top) in P. lra.
Qed.
(** One update of one entry with one chain; [w] is the weight. *)
Definition next_mean (w q m : R) : R := near (m + near (w * near (q - m))).
Definition next_var (w q m v : R) : R := near (near (near (1 - w) * v) + near (near (w * near (q - m)) * near (q - next_mean w q m))).
Lemma next_mean_between w q m : fmt q -> fmt m -> 0 <= w <= 1 - 4 * u ->
  (m <= q -> m <= next_mean w q m <= q) /\ (q <= m -> q <= next_mean w q m <= m).
Proof.
  intros Fq Fm Hw. unfold next_mean. split; intros H.
  - pose proof (part_of w q m Fq Fm Hw H). split; [apply near_ge_fmt|apply near_le_fmt]; try exact W; try assumption; lra.
  - pose proof (part_of' w q m Fq Fm Hw H). split; [apply near_ge_fmt|apply near_le_fmt]; try exact W; try assumption; lra.
Qed.
Variable k : Z.
Hypothesis K0 : (0 <= k)%Z.
Hypothesis K1 : (2 * k + 4 <= top)%Z.
Lemma Bk : 1 <= b k. Proof. apply (bpow_le radix2 0), K0. Qed.
Lemma square_bound : b (2 * k + 2) = 4 * (b k * b k).
Proof. replace (2 * k + 2)%Z with (k + k + 1 + 1)%Z by lia. rewrite !b_1, bpow_plus. ring. Qed.
Lemma near_scale x e : fmt x -> (0 <= e)%Z -> near (x * b e) = x * b e.
Proof. intros F E. apply (near_id prec top). apply mult_bpow_pos_exact_FLT; [exact F|exact E]. Qed.
Lemma near_mag x e : (3 - top <= e)%Z -> Rabs x <= b e -> Rabs (near x) <= b e.
Proof. intros E. apply (near_bpow prec top W). destruct W; lia. Qed.
Lemma next_var_range w q m v : fmt w -> fmt q -> fmt m -> 0 <= w <= 1 -> (w <= 1 - 4 * u \/ m = 0) -> Rabs q <= b k -> Rabs m <= b k -> 0 <= v <= b (2 * k + 2) ->
  Rabs (next_mean w q m) <= b k /\ 0 <= next_var w q m v <= b (2 * k + 2) /\
  0 <= near (w * near (q - m)) * near (q - next_mean w q m) <= w * b (2 * k + 2).
Proof.
  intros Fw Fq Fm Hw Hc Bq Bm Hv. destruct u32 as (U0 & U1). pose proof Bk as B1. pose proof square_bound as SB. pose proof (b_1 k) as B2. pose proof (b_1 (2 * k + 1)) as B3. replace (2 * k + 1 + 1)%Z with (2 * k + 2)%Z in B3 by lia.
  assert (Fi_ : fmt (near (w * near (q - m)))) by apply (near_fmt prec top W).
  assert (S : (m <= next_mean w q m <= q /\ 0 <= near (w * near (q - m)) /\ 0 <= q - next_mean w q m) \/ (q <= next_mean w q m <= m /\ near (w * near (q - m)) <= 0 /\ q - next_mean w q m <= 0) \/
              (m = 0 /\ Rabs (next_mean w q m) <= Rabs q /\ (0 <= q -> 0 <= near (w * near (q - m)) /\ 0 <= q - next_mean w q m) /\ (q <= 0 -> near (w * near (q - m)) <= 0 /\ q - next_mean w q m <= 0))).
  { destruct Hc as [Hc|Hc].
    - destruct (next_mean_between w q m Fq Fm ltac:(lra)) as (P1 & P2). destruct (Rle_dec m q) as [H|H].
      + left. specialize (P1 H). pose proof (part_of w q m Fq Fm ltac:(lra) H). lra.
      + right. left. assert (H' : q <= m) by lra. specialize (P2 H'). pose proof (part_of' w q m Fq Fm ltac:(lra) H'). lra.
    - right. right. split; [exact Hc|]. unfold next_mean. rewrite Hc, Rminus_0_r, Rplus_0_l, (near_id prec top q) by exact Fq. rewrite (near_id prec top (near (w * q))) by apply (near_fmt prec top W).
      assert (P : 0 <= q -> 0 <= near (w * q) <= q) by (intros H; split; [apply (near_nonneg prec top W); nra|apply near_le_fmt; [exact W|exact Fq|nra]]).
      assert (P' : q <= 0 -> q <= near (w * q) <= 0) by (intros H; split; [apply near_ge_fmt; [exact W|exact Fq|nra]|apply near_le_fmt; [exact W|apply generic_format_0|nra]]).
      repeat split; intros; try (specialize (P ltac:(assumption))); try (specialize (P' ltac:(assumption))); try lra.
      destruct (Rle_dec 0 q) as [H|H]; [specialize (P H); rewrite !Rabs_pos_eq by lra; lra|specialize (P' ltac:(lra)); rewrite !Rabs_left1 by lra; lra]. }
  assert (M : Rabs (next_mean w q m) <= b k).
  { apply Rabs_le_inv in Bm. apply Rabs_le_inv in Bq as Bq'. destruct S as [S|[S|S]]; [apply Rabs_le; lra|apply Rabs_le; lra|lra]. }
  assert (K3 : (3 - top <= k + 1)%Z) by lia. assert (K4 : (3 - top <= 2 * k + 2)%Z) by lia.
  assert (BD : Rabs (near (q - m)) <= b (k + 1)) by (apply near_mag; [exact K3|]; rewrite B2; apply Rabs_le_inv in Bm; apply Rabs_le_inv in Bq; apply Rabs_le; lra).
  assert (BE : Rabs (near (q - next_mean w q m)) <= b (k + 1)) by (apply near_mag; [exact K3|]; rewrite B2; apply Rabs_le_inv in M; apply Rabs_le_inv in Bq; apply Rabs_le; lra).
  assert (BI : Rabs (near (w * near (q - m))) <= w * b (k + 1)).
  { apply Rabs_le_inv in BD. rewrite <- (near_scale w (k + 1)) by (try exact Fw; lia). apply Rabs_le. rewrite <- (near_opp prec top). split; apply (near_le prec top W); nra. }
  assert (T : 0 <= near (w * near (q - m)) * near (q - next_mean w q m) <= w * b (2 * k + 2)).
  { assert (Sg : 0 <= near (w * near (q - m)) * near (q - next_mean w q m)).
    { assert (Pos : 0 <= q - next_mean w q m -> 0 <= near (q - next_mean w q m)) by apply (near_nonneg prec top W).
      assert (Neg : q - next_mean w q m <= 0 -> near (q - next_mean w q m) <= 0) by (intros H; apply near_le_fmt; [exact W|apply generic_format_0|exact H]).
      destruct S as [S|[S|(_ & _ & S1 & S2)]]; [apply Rmult_le_pos; [lra|apply Pos; lra]|specialize (Neg ltac:(lra)); nra|]. destruct (Rle_dec 0 q) as [H|H]; [destruct (S1 H); apply Rmult_le_pos; [lra|apply Pos; lra]|].
      destruct (S2 ltac:(lra)) as (S3 & S4). specialize (Neg S4). nra. }
    split; [exact Sg|]. rewrite <- (Rabs_pos_eq _ Sg), Rabs_mult. apply Rle_trans with (w * b (k + 1) * b (k + 1)); [apply Rmult_le_compat; auto using Rabs_pos|]. rewrite SB, B2. right. ring. }
  split; [exact M|]. split; [|exact T].
  set (c := near (1 - w)). assert (C1 : 0 <= c <= 1) by (apply (near_unit prec top W); lra).
  assert (C2 : c <= 1 - w + u / 2).
  { pose proof (near_binade prec top A (1 - w) 0 ltac:(destruct W; lia)) as E. cbn [bpow] in E. rewrite Rabs_pos_eq in E by lra. specialize (E ltac:(lra)). fold c in E. apply Rabs_le_inv in E. lra. }
  assert (V1 : 0 <= near (c * v) <= c * b (2 * k + 2)).
  { split; [apply (near_nonneg prec top W); nra|]. rewrite <- (near_scale c (2 * k + 2)) by (try apply (near_fmt prec top W); lia). apply (near_le prec top W). apply Rmult_le_compat_l; lra. }
  assert (V2 : 0 <= near (near (w * near (q - m)) * near (q - next_mean w q m)) <= w * b (2 * k + 2)).
  { split; [apply (near_nonneg prec top W); lra|]. rewrite <- (near_scale w (2 * k + 2)) by (try exact Fw; lia). apply (near_le prec top W). lra. }
  unfold next_var. fold c. split; [apply (near_nonneg prec top W); lra|]. eapply Rle_trans; [apply Rle_abs|]. apply (near_past prec top A); [lia|]. rewrite Rabs_pos_eq by lra.
  assert (c * b (2 * k + 2) <= (1 - w + u / 2) * b (2 * k + 2)) by (apply Rmult_le_compat_r; [apply bpow_ge_0|exact C2]). assert (0 < u * b (2 * k + 2)) by (apply Rmult_lt_0_compat; [lra|apply bpow_gt_0]). lra.
Qed.

(** ** The model with one chain *)
Lemma mean_one p f y : adds_up p 1 -> f O = Fi y -> float y -> fmean prec top 1 p f = Fi y.
Proof.
  intros P E F. unfold fmean. cbn [seq map]. rewrite E. assert (En : entries p = [O]) by (apply Permutation_sym, Permutation_length_1_inv in P; exact P).
  rewrite (proj2 (plan_one prec top y p F) En). unfold fdivn. cbn [ediv INR]. destruct (Req_EM_T 1 0); [lra|]. rewrite over_1. apply (rounded_float prec top), F.
Qed.
Variables pm pv : nat -> plan.
Variable i : nat.
Hypothesis Pm : adds_up (pm i) 1.
Hypothesis Pv : adds_up (pv i) 1.
Notation update := (fupdate prec top libpow 1 pm pv (Fi d)).
Definition count n := Z.min (n + 1) (2 ^ prec).
Lemma update_one s x n q m v : (0 <= n <= 2 ^ prec)%Z -> fv_t s = Fi (IZR n) -> fv_mean s i = Fi m -> fv_var s i = Fi v -> x O i = Fi q ->
  float q -> float m -> float v -> Rabs q <= b k -> Rabs m <= b k -> 0 <= v <= b (2 * k + 2) -> ((1 <= n)%Z \/ m = 0) ->
  let w := weight (count n) in
  fv_t (update s x) = Fi (IZR (count n)) /\ fv_mean (update s x) i = Fi (next_mean w q m) /\ fv_var (update s x) i = Fi (next_var w q m v) /\
  float (next_mean w q m) /\ float (next_var w q m v) /\ Rabs (next_mean w q m) <= b k /\ 0 <= next_var w q m v <= b (2 * k + 2) /\
  ((1 <= n)%Z -> w <= 1 - 4 * u).
Proof.
  intros N Et Em Ev Ex Fq Fm Fv Bq Bm Hv C w. destruct u32 as (U0 & U1). pose proof (pow_pos prec top A) as PP. assert (N' : (1 <= count n <= 2 ^ prec)%Z) by (unfold count; lia).
  assert (PB : (2 <= 2 ^ prec)%Z) by (pose proof A as (_ & p3 & _); assert (2 ^ 1 <= 2 ^ prec)%Z by (apply Z.pow_le_mono_r; lia); lia).
  destruct (weight_spec (count n) N') as (Ew & Fw & Hw & W1 & W2 & _). fold w in Ew, Fw, Hw, W1, W2.
  assert (Hw2 : (1 <= n)%Z -> w <= 1 - 4 * u) by (intros H; apply W2; unfold count; lia).
  assert (Hc : w <= 1 - 4 * u \/ m = 0) by (destruct C; auto).
  destruct (next_var_range w q m v (proj1 Fw) (proj1 Fq) (proj1 Fm) ltac:(lra) Hc Bq Bm Hv) as (M & V & T).
  pose proof Bk as B1. pose proof square_bound as SB. pose proof (b_1 k) as B2. pose proof (b_1 (2 * k + 2)) as B3.
  assert (V4 : w * b (2 * k + 2) <= b (2 * k + 2)) by (rewrite <- (Rmult_1_l (b (2 * k + 2))) at 2; apply Rmult_le_compat_r; [apply bpow_ge_0|lra]).
  assert (S1 : fadd prec top (Fi (IZR n)) (Fi 1) = Fi (IZR (count n))) by (apply (count_up prec top A); exact N).
  destruct (fsub_near prec top A q m (k + 1) ltac:(lia) ltac:(lia)) as (D1 & D2 & D3); [rewrite B2; apply Rabs_le_inv in Bm; apply Rabs_le_inv in Bq; apply Rabs_le; lra|].
  destruct (fmul_near prec top A w (near (q - m)) (k + 1) ltac:(lia) ltac:(lia)) as (I1 & I2 & I3); [rewrite Rabs_mult, (Rabs_pos_eq w) by lra; pose proof (Rabs_pos (near (q - m))); nra|].
  assert (Hm : Rabs (m + near (w * near (q - m))) <= b (k + 2)).
  { replace (k + 2)%Z with (k + 1 + 1)%Z by lia. rewrite b_1. eapply Rle_trans; [apply Rabs_triang|]. lra. }
  destruct (fadd_near prec top A m (near (w * near (q - m))) (k + 2) ltac:(lia) ltac:(lia) Hm) as (A1 & A2 & A3). fold (next_mean w q m) in A1, A2, A3.
  assert (Mean : fv_mean (update s x) i = Fi (next_mean w q m)).
  { unfold fupdate. cbn [fv_mean]. rewrite Et, S1, Ew, Em. erewrite mean_one; [exact A1|exact Pm| |exact I2]. cbn beta. rewrite Ex, D1. exact I1. }
  destruct (fsub_near prec top A q (next_mean w q m) (k + 1) ltac:(lia) ltac:(lia)) as (E1 & E2 & E3); [rewrite B2; apply Rabs_le_inv in M; apply Rabs_le_inv in Bq; apply Rabs_le; lra|].
  destruct (fmul_near prec top A (near (w * near (q - m))) (near (q - next_mean w q m)) (2 * k + 2) ltac:(lia) ltac:(lia)) as (P1 & P2 & P3); [rewrite Rabs_pos_eq; lra|].
  destruct (fsub_near prec top A 1 w 0 ltac:(lia) ltac:(lia)) as (C1 & C2 & C3); [cbn; apply Rabs_le; lra|]. assert (C4 : 0 <= near (1 - w) <= 1) by (apply (near_unit prec top W); lra).
  destruct (fmul_near prec top A (near (1 - w)) v (2 * k + 2) ltac:(lia) ltac:(lia)) as (O1 & O2 & O3); [rewrite Rabs_mult, !Rabs_pos_eq by lra; nra|].
  assert (Hv' : Rabs (near (near (1 - w) * v) + near (near (w * near (q - m)) * near (q - next_mean w q m))) <= b (2 * k + 2 + 1)) by (rewrite B3; eapply Rle_trans; [apply Rabs_triang|]; lra).
  destruct (fadd_near prec top A _ _ (2 * k + 2 + 1) ltac:(lia) ltac:(lia) Hv') as (V1 & V2 & _). fold (next_var w q m v) in V1, V2.
  split; [unfold fupdate; cbn [fv_t]; rewrite Et; exact S1|]. split; [exact Mean|]. split.
  { unfold fupdate in Mean |- *. cbn [fv_var fv_mean] in Mean |- *. rewrite Et, S1, Ew in Mean |- *. rewrite Ev, C1, O1. erewrite mean_one; [exact V1|exact Pv| |exact P2].
    cbn beta. rewrite Mean. rewrite Ex, Em, D1, I1, E1. exact P1. }
  split; [exact A2|]. split; [exact V2|]. split; [exact M|]. split; [exact V|exact Hw2].
Qed.

(** ** Accuracy *)
Notation B := (b k).
Lemma mean_step w q m : 0 <= w <= 1 -> Rabs q <= B -> Rabs m <= B -> Rabs (next_mean w q m) <= B ->
  Rabs (near (w * near (q - m)) - w * (q - m)) <= 2 * u * B /\ Rabs (next_mean w q m - (m + w * (q - m))) <= 3 * u * B.
Proof.
  intros Hw Bq Bm Bn. destruct u32 as (U0 & U1). pose proof Bk as B1. pose proof (b_1 k) as B2. assert (UB : 0 < u * B) by nra.
  assert (HD : Rabs (q - m) <= b (k + 1)) by (rewrite B2; apply Rabs_le_inv in Bm; apply Rabs_le_inv in Bq; apply Rabs_le; lra).
  pose proof (near_binade prec top A (q - m) (k + 1) ltac:(lia) HD) as E1. pose proof (near_mag (q - m) (k + 1) ltac:(lia) HD) as N1.
  assert (HI : Rabs (w * near (q - m)) <= b (k + 1)) by (rewrite Rabs_mult, (Rabs_pos_eq w) by lra; pose proof (Rabs_pos (near (q - m))); nra).
  pose proof (near_binade prec top A (w * near (q - m)) (k + 1) ltac:(lia) HI) as E2. rewrite B2 in E1, E2.
  assert (X : Rabs (near (w * near (q - m)) - w * (q - m)) <= 2 * u * B).
  { replace (near (w * near (q - m)) - w * (q - m)) with ((near (w * near (q - m)) - w * near (q - m)) + w * (near (q - m) - (q - m))) by ring.
    eapply Rle_trans; [apply Rabs_triang|]. rewrite Rabs_mult, (Rabs_pos_eq w) by lra. assert (w * Rabs (near (q - m) - (q - m)) <= 1 * (u * (2 * B) / 2)) by (apply Rmult_le_compat; auto using Rabs_pos; lra). lra. }
  split; [exact X|]. assert (S : Rabs (m + near (w * near (q - m))) <= b (k + 1)).
  { apply Rabs_le_inv in Bn. unfold next_mean in Bn. destruct (Rle_dec (Rabs (m + near (w * near (q - m)))) (b (k + 1))) as [H|H]; [exact H|exfalso]. apply Rnot_le_lt in H. rewrite B2 in H.
    set (y := m + near (w * near (q - m))) in *. assert (F2 : fmt (2 * B)) by (rewrite <- B2; apply (fmt_bpow prec top W); destruct W; lia).
    unfold Rabs in H. destruct (Rcase_abs y); [|assert (2 * B <= near y) by (apply near_ge_fmt; [exact W|exact F2|lra]); lra].
    assert (near y <= - (2 * B)) by (apply near_le_fmt; [exact W|apply generic_format_opp; exact F2|lra]). lra. }
  pose proof (near_binade prec top A _ (k + 1) ltac:(lia) S) as E3. rewrite B2 in E3. fold (next_mean w q m) in E3.
  replace (next_mean w q m - (m + w * (q - m))) with ((next_mean w q m - (m + near (w * near (q - m)))) + (near (w * near (q - m)) - w * (q - m))) by ring.
  eapply Rle_trans; [apply Rabs_triang|]. lra.
Qed.
Lemma var_step w q m v : fmt w -> fmt q -> fmt m -> 0 <= w <= 1 -> (w <= 1 - 4 * u \/ m = 0) -> Rabs q <= B -> Rabs m <= B -> 0 <= v <= b (2 * k + 2) ->
  Rabs (next_var w q m v - ((1 - w) * v + w * (q - m) * (q - next_mean w q m))) <= 16 * u * (B * B).
Proof.
  intros Fw Fq Fm Hw Hc Bq Bm Hv. destruct (next_var_range w q m v Fw Fq Fm Hw Hc Bq Bm Hv) as (M & V & T). destruct u32 as (U0 & U1). pose proof Bk as B1. pose proof square_bound as SB. pose proof (b_1 k) as B2. pose proof (b_1 (2 * k + 2)) as B3.
  destruct (mean_step w q m Hw Bq Bm M) as (EI & _). set (I := near (w * near (q - m))) in *.
  assert (BB : 0 < B * B) by nra. assert (UB : 0 < u * (B * B)) by nra.
  assert (HE : Rabs (q - next_mean w q m) <= b (k + 1)) by (rewrite B2; apply Rabs_le_inv in M; apply Rabs_le_inv in Bq; apply Rabs_le; lra).
  pose proof (near_binade prec top A _ (k + 1) ltac:(lia) HE) as E1. pose proof (near_mag _ (k + 1) ltac:(lia) HE) as N1. rewrite B2 in E1, N1, HE. set (E := near (q - next_mean w q m)) in *. set (e := q - next_mean w q m) in *.
  assert (HD : Rabs (q - m) <= 2 * B) by (apply Rabs_le_inv in Bm; apply Rabs_le_inv in Bq; apply Rabs_le; lra).
  assert (P : Rabs (I * E - w * (q - m) * e) <= 6 * (u * (B * B))).
  { replace (I * E - w * (q - m) * e) with ((I - w * (q - m)) * E + w * ((q - m) * (E - e))) by ring. eapply Rle_trans; [apply Rabs_triang|]. rewrite !Rabs_mult, (Rabs_pos_eq w) by lra.
    assert (Rabs (I - w * (q - m)) * Rabs E <= 2 * u * B * (2 * B)) by (apply Rmult_le_compat; auto using Rabs_pos).
    assert (Rabs (q - m) * Rabs (E - e) <= 2 * B * (u * (2 * B) / 2)) by (apply Rmult_le_compat; auto using Rabs_pos).
    assert (w * (Rabs (q - m) * Rabs (E - e)) <= 1 * (2 * B * (u * (2 * B) / 2))) by (apply Rmult_le_compat; [lra|apply Rmult_le_pos; apply Rabs_pos|lra|assumption]). lra. }
  assert (HT : Rabs (I * E) <= b (2 * k + 2)) by (rewrite Rabs_pos_eq by lra; assert (0 < b (2 * k + 2)) by apply bpow_gt_0; nra).
  pose proof (near_binade prec top A _ (2 * k + 2) ltac:(lia) HT) as E2.
  pose proof (near_binade prec top A (1 - w) 0 ltac:(lia)) as E3. cbn [bpow] in E3. specialize (E3 ltac:(apply Rabs_le; lra)).
  set (c := near (1 - w)) in *. assert (C1 : 0 <= c <= 1) by (apply (near_unit prec top W); lra).
  assert (HO : Rabs (c * v) <= b (2 * k + 2)) by (rewrite Rabs_pos_eq by nra; nra).
  pose proof (near_binade prec top A _ (2 * k + 2) ltac:(lia) HO) as E4. pose proof (near_mag _ (2 * k + 2) ltac:(lia) HO) as N4. pose proof (near_mag _ (2 * k + 2) ltac:(lia) HT) as N2.
  assert (HS : Rabs (near (c * v) + near (I * E)) <= b (2 * k + 2 + 1)) by (rewrite B3; eapply Rle_trans; [apply Rabs_triang|]; lra).
  pose proof (near_binade prec top A _ (2 * k + 2 + 1) ltac:(lia) HS) as E5. rewrite B3 in E5.
  assert (E6 : Rabs ((c - (1 - w)) * v) <= u / 2 * (4 * (B * B))) by (rewrite Rabs_mult; apply Rmult_le_compat; auto using Rabs_pos; [lra|rewrite Rabs_pos_eq; lra]).
  unfold next_var. change (near (q - next_mean w q m)) with E. fold I c. set (t := near (near (c * v) + near (I * E))) in *.
  replace (t - ((1 - w) * v + w * (q - m) * e)) with ((t - (near (c * v) + near (I * E))) + ((near (c * v) - c * v) + ((near (I * E) - I * E) + ((c - (1 - w)) * v + (I * E - w * (q - m) * e))))) by ring.
  rewrite SB in E2, E4, E5. apply Rabs_le_inv in E2, E4, E5, E6, P. apply Rabs_le. split; lra.
Qed.

Notation rho := (u / (1 - d)).
Lemma contract w e' e c : 0 <= w <= 1 -> Rabs e <= c -> Rabs e' <= (1 - w) * Rabs e + w * c -> Rabs e' <= c.
Proof. intros H1 H2 H3. assert ((1 - w) * Rabs e <= (1 - w) * c) by (apply Rmult_le_compat_l; lra). lra. Qed.
Lemma exact_one s q n : Z.of_nat (S (ew_t s)) = n ->
  ew_t (ewmv_update d s [q]) = S (ew_t s) /\
  ew_mean (ewmv_update d s [q]) = ew_mean s + exact_weight n * (q - ew_mean s) /\
  ew_var (ewmv_update d s [q]) = (1 - exact_weight n) * ew_var s + exact_weight n * (q - ew_mean s) * (q - ew_mean (ewmv_update d s [q])).
Proof.
  intros E. unfold exact_weight. rewrite <- E, Nat2Z.id. unfold ewmv_update, avg. cbn [ew_t ew_mean ew_var map combine length fold_right fst snd INR]. repeat split; rewrite ?over_1, ?Rplus_0_r; ring.
Qed.
Definition position (x : fstate) (q : R) : Prop := x O i = Fi q /\ float q /\ Rabs q <= B.
Definition tracked (s : fmoving) (e : ewmv) (qs : list R) : Prop :=
  fv_t s = Fi (IZR (Z.min (Z.of_nat (length qs)) (2 ^ prec))) /\ ew_t e = length qs /\
  exists m v, fv_mean s i = Fi m /\ fv_var s i = Fi v /\ float m /\ float v /\ Rabs m <= B /\ 0 <= v <= b (2 * k + 2) /\
    (qs = [] -> m = 0 /\ v = 0) /\ (length qs = 1%nat -> v = 0) /\
    (forall lo hi, qs <> [] -> (forall q, In q qs -> lo <= q <= hi) -> lo <= m <= hi) /\
    ((Z.of_nat (length qs) <= 2 ^ prec)%Z -> Rabs (ew_mean e) <= B /\ Rabs (m - ew_mean e) <= 15 * rho * B /\ Rabs (v - ew_var e) <= 124 * rho * (B * B)).
Lemma tracked_step s e qs x q : tracked s e qs -> position x q -> tracked (update s x) (ewmv_update d e [q]) (qs ++ [q]).
Proof.
  intros (Et & Ee & m & v & Em & Ev & Fm & Fv & Bm & Hv & H0 & H1 & HR & HA) (Ex & Fq & Bq). destruct u32 as (U0 & U1). pose proof Bk as B1. pose proof (pow_pos prec top A) as PP.
  set (n := Z.min (Z.of_nat (length qs)) (2 ^ prec)) in *. assert (N : (0 <= n <= 2 ^ prec)%Z) by (unfold n; lia).
  assert (C : (1 <= n)%Z \/ m = 0) by (destruct qs as [|q0 qs]; [right; apply H0; reflexivity|left; unfold n; cbn [length]; lia]).
  destruct (update_one s x n q m v N Et Em Ev Ex Fq Fm Fv Bq Bm Hv C) as (Ut & Um & Uv & Fm' & Fv' & Bm' & Hv' & Hw). set (w := weight (count n)) in *.
  assert (Ct : count n = Z.min (Z.of_nat (length (qs ++ [q]))) (2 ^ prec)) by (unfold count, n; rewrite app_length; cbn [length]; lia).
  assert (N' : (1 <= count n <= 2 ^ prec)%Z) by (unfold count; lia). destruct (weight_spec (count n) N') as (_ & Fw & Hw0 & Hw1 & _ & XW & AW). fold w in Fw, Hw0, Hw1, AW.
  assert (Hc : w <= 1 - 4 * u \/ m = 0) by (destruct C; auto).
  assert (Z0 : qs = [] -> w = 1 /\ next_mean w q m = q /\ next_var w q m v = 0).
  { intros E. destruct (H0 E) as (-> & ->). assert (C1 : count n = 1%Z) by (unfold count, n; rewrite E; cbn [length]; lia). specialize (Hw1 C1). split; [exact Hw1|].
    assert (M1 : next_mean w q 0 = q) by (unfold next_mean; rewrite Hw1, Rminus_0_r, Rplus_0_l, Rmult_1_l; rewrite !(near_id prec top q) by apply Fq; reflexivity).
    split; [exact M1|]. unfold next_var. rewrite M1. replace (q - q) with 0 by ring. rewrite near_0, !Rmult_0_r, near_0, Rplus_0_r. apply near_0. }
  split; [rewrite <- Ct; exact Ut|]. destruct (exact_one e q (Z.of_nat (length (qs ++ [q])))) as (X1 & X2 & X3); [rewrite Ee, app_length; cbn; lia|].
  split; [rewrite X1, Ee, app_length; cbn; lia|]. exists (next_mean w q m), (next_var w q m v). split; [exact Um|]. split; [exact Uv|]. split; [exact Fm'|]. split; [exact Fv'|]. split; [exact Bm'|]. split; [exact Hv'|].
  split; [intros E; destruct qs; discriminate|]. split; [intros E; apply Z0; rewrite app_length in E; destruct qs; [reflexivity|cbn in E; lia]|]. split.
  { intros lo hi _ HI. assert (Iq : lo <= q <= hi) by (apply HI, in_or_app; right; now left). destruct qs as [|q0 qs]; [destruct (Z0 eq_refl) as (_ & -> & _); exact Iq|].
    assert (Im : lo <= m <= hi) by (apply HR; [discriminate|]; intros y Hy; apply HI, in_or_app; now left). assert (Hw' : w <= 1 - 4 * u) by (apply Hw; unfold n; cbn [length]; lia).
    destruct (next_mean_between w q m (proj1 Fq) (proj1 Fm) ltac:(lra)) as (P1 & P2). destruct (Rle_dec m q) as [H|H]; [specialize (P1 H); lra|specialize (P2 ltac:(lra)); lra]. }
  intros L. assert (L0 : (Z.of_nat (length qs) <= 2 ^ prec)%Z) by (rewrite app_length in L; cbn in L; lia). destruct (HA L0) as (BM & A1 & A2).
  assert (Cn : Z.of_nat (length (qs ++ [q])) = count n) by (rewrite Ct; lia). rewrite Cn in X2, X3. set (X := exact_weight (count n)) in *. rewrite X3, X2 in *.
  set (M := ew_mean e) in *. set (V := ew_var e) in *. assert (Ur : u <= rho * X).
  { unfold Rdiv. rewrite Rmult_assoc. rewrite <- (Rmult_1_r u) at 1. apply Rmult_le_compat_l; [lra|]. apply Rmult_le_reg_l with (1 - d); [lra|]. rewrite <- Rmult_assoc, Rinv_r, Rmult_1_l by lra. lra. }
  assert (R0 : 0 < rho <= 1 / 16).
  { split; [apply Rmult_lt_0_compat; [lra|apply Rinv_0_lt_compat; lra]|]. apply Rmult_le_reg_r with (1 - d); [lra|]. unfold Rdiv at 1. rewrite Rmult_assoc, Rinv_l by lra. lra. }
  set (r := rho) in *. assert (RX : 0 < r * X) by (apply Rmult_lt_0_compat; lra).
  assert (BM' : Rabs (M + X * (q - M)) <= B).
  { replace (M + X * (q - M)) with ((1 - X) * M + X * q) by ring. eapply Rle_trans; [apply Rabs_triang|]. rewrite !Rabs_mult, (Rabs_pos_eq (1 - X)), (Rabs_pos_eq X) by lra.
    assert ((1 - X) * Rabs M <= (1 - X) * B) by (apply Rmult_le_compat_l; lra). assert (X * Rabs q <= X * B) by (apply Rmult_le_compat_l; lra). lra. }
  destruct (mean_step w q m ltac:(lra) Bq Bm Bm') as (_ & S1). set (m' := next_mean w q m) in *.
  assert (Dq : Rabs (q - m) <= 2 * B) by (apply Rabs_le_inv in Bq; apply Rabs_le_inv in Bm; apply Rabs_le; lra).
  assert (UB : u * B <= r * X * B) by (apply Rmult_le_compat_r; lra).
  assert (E1 : Rabs (m' - (M + X * (q - M))) <= 15 * r * B).
  { apply (contract X _ (m - M)); [lra|exact A1|]. 
    replace (m' - (M + X * (q - M))) with ((1 - X) * (m - M) + ((w - X) * (q - m) + (m' - (m + w * (q - m))))) by ring.
    eapply Rle_trans; [apply Rabs_triang|]. rewrite Rabs_mult, (Rabs_pos_eq (1 - X)) by lra. apply Rplus_le_compat_l. eapply Rle_trans; [apply Rabs_triang|]. rewrite Rabs_mult.
    assert (Rabs (w - X) * Rabs (q - m) <= 6 * r * X * (2 * B)) by (apply Rmult_le_compat; auto using Rabs_pos). lra. }
  split; [exact BM'|]. split; [exact E1|].
  pose proof (var_step w q m v (proj1 Fw) (proj1 Fq) (proj1 Fm) ltac:(lra) Hc Bq Bm Hv) as S2. fold m' in S2. set (v' := next_var w q m v) in *. set (M' := M + X * (q - M)) in *.
  pose proof square_bound as SB. assert (BB : 0 < B * B) by nra. assert (UBB : u * (B * B) <= r * X * (B * B)) by (apply Rmult_le_compat_r; lra).
  apply (contract X _ (v - V)); [lra|exact A2|].
  replace (v' - ((1 - X) * V + X * (q - M) * (q - M'))) with
    ((1 - X) * (v - V) + ((X - w) * v + ((w - X) * ((q - m) * (q - m')) + (X * ((M - m) * (q - m') + (q - M) * (M' - m')) + (v' - ((1 - w) * v + w * (q - m) * (q - m'))))))) by ring.
  assert (Dm' : Rabs (q - m') <= 2 * B) by (apply Rabs_le_inv in Bq; apply Rabs_le_inv in Bm'; apply Rabs_le; lra).
  assert (DM : Rabs (q - M) <= 2 * B) by (apply Rabs_le_inv in Bq; apply Rabs_le_inv in BM; apply Rabs_le; lra).
  assert (T1 : Rabs ((X - w) * v) <= 24 * (r * X * (B * B))).
  { rewrite Rabs_mult, (Rabs_minus_sym X w), (Rabs_pos_eq v) by lra. apply Rle_trans with (6 * r * X * (4 * (B * B))); [apply Rmult_le_compat; [apply Rabs_pos|lra|exact AW|lra]|lra]. }
  assert (T2 : Rabs ((w - X) * ((q - m) * (q - m'))) <= 24 * (r * X * (B * B))).
  { rewrite !Rabs_mult. apply Rle_trans with (6 * r * X * (2 * B * (2 * B))); [|lra]. apply Rmult_le_compat; [apply Rabs_pos|apply Rmult_le_pos; apply Rabs_pos|exact AW|]. apply Rmult_le_compat; auto using Rabs_pos. }
  assert (T3 : Rabs (X * ((M - m) * (q - m') + (q - M) * (M' - m'))) <= 60 * (r * X * (B * B))).
  { rewrite Rabs_mult, (Rabs_pos_eq X) by lra. apply Rle_trans with (X * (15 * r * B * (2 * B) + 2 * B * (15 * r * B))); [|right; ring]. apply Rmult_le_compat_l; [lra|]. eapply Rle_trans; [apply Rabs_triang|]. rewrite !Rabs_mult.
    rewrite (Rabs_minus_sym M m), (Rabs_minus_sym M' m'). apply Rplus_le_compat; apply Rmult_le_compat; auto using Rabs_pos. }
  eapply Rle_trans; [apply Rabs_triang|]. rewrite Rabs_mult, (Rabs_pos_eq (1 - X)) by lra. apply Rplus_le_compat_l.
  apply Rabs_le_inv in T1, T2, T3, S2. apply Rabs_le. split; lra.
Qed.
Lemma tracked_all xs qs : Forall2 position xs qs ->
  tracked (fold_left (fun s x => update s x) xs fmoving0) (fold_left (ewmv_update d) (map (fun q => [q]) qs) ewmv0) qs.
Proof.
  intros H. assert (G : forall xs qs, Forall2 position xs qs -> forall s e ps, tracked s e ps -> tracked (fold_left (fun s x => update s x) xs s) (fold_left (ewmv_update d) (map (fun q => [q]) qs) e) (ps ++ qs)).
  { clear H xs qs. induction 1 as [|x q xs qs P _ IH]; intros s e ps T; cbn; [now rewrite app_nil_r|]. replace (ps ++ q :: qs) with ((ps ++ [q]) ++ qs) by now rewrite <- app_assoc. apply IH, tracked_step; assumption. }
  apply (G xs qs H _ _ []). pose proof (pow_pos prec top A). split; [cbn [length]; rewrite Z.min_l by lia; reflexivity|]. split; [reflexivity|]. exists 0, 0.
  destruct u32 as (U0 & U1). pose proof Bk as B1. pose proof (bpow_gt_0 radix2 (2 * k + 2)). assert (F0 : float 0) by apply (float_0 prec top).
  assert (R0 : 0 < rho) by (apply Rmult_lt_0_compat; [lra|apply Rinv_0_lt_compat; lra]).
  assert (0 <= 15 * rho * B) by (apply Rmult_le_pos; lra). assert (0 <= 124 * rho * (B * B)) by (apply Rmult_le_pos; [lra|apply Rmult_le_pos; lra]).
  cbn [length fv_mean fv_var fmoving0 ew_mean ew_var ewmv0 map fold_left]. repeat split; try apply F0; try reflexivity; try lra; try congruence; rewrite ?Rminus_0_r, ?Rabs_R0; lra.
Qed.

(** ** An entry that does not move *)
Lemma fixed_update s x n m : (0 <= n <= 2 ^ prec)%Z -> fv_t s = Fi (IZR n) -> fv_mean s i = Fi m -> fv_var s i = Fi 0 -> x O i = Fi m -> float m ->
  fv_t (update s x) = Fi (IZR (count n)) /\ fv_mean (update s x) i = Fi m /\ fv_var (update s x) i = Fi 0.
Proof.
  intros N Et Em Ev Ex Fm. pose proof (pow_pos prec top A) as PP. assert (N' : (1 <= count n <= 2 ^ prec)%Z) by (unfold count; lia).
  destruct (weight_spec (count n) N') as (Ew & Fw & Hw & _). assert (S1 : fadd prec top (Fi (IZR n)) (Fi 1) = Fi (IZR (count n))) by (apply (count_up prec top A); exact N).
  assert (F0 : float 0) by apply (float_0 prec top). assert (R0 : rounded prec top (Fi 0) = Fi 0) by now apply (rounded_float prec top).
  assert (D : fsub prec top (Fi m) (Fi m) = Fi 0) by (unfold fsub, esub; cbn [eadd eneg]; rewrite Rplus_opp_r; exact R0).
  assert (I : fmul prec top (Fi (weight (count n))) (Fi 0) = Fi 0) by (unfold fmul, emul; rewrite Rmult_0_r; exact R0).
  assert (M : fv_mean (update s x) i = Fi m).
  { unfold fupdate. cbn [fv_mean]. rewrite Et, S1, Ew, Em. erewrite mean_one; [|exact Pm| |exact F0]; [|cbn beta; rewrite Ex, D; exact I]. unfold fadd. cbn [eadd]. rewrite Rplus_0_r. now apply (rounded_float prec top). }
  split; [unfold fupdate; cbn [fv_t]; now rewrite Et|]. split; [exact M|]. unfold fupdate in M |- *. cbn [fv_var fv_mean] in M |- *. rewrite Et, S1, Ew in M |- *. rewrite Ev.
  destruct (fsub_near prec top A 1 (weight (count n)) 0 ltac:(clear K0 K1; destruct W; lia) ltac:(clear K0 K1; destruct W; lia)) as (-> & _); [cbn; apply Rabs_le; lra|].
  erewrite mean_one; [|exact Pv| |exact F0]; [|cbn beta; rewrite M, Ex, Em, D, I; unfold fmul, emul; rewrite Rmult_0_l; exact R0].
  unfold fmul, emul. rewrite Rmult_0_r, R0. unfold fadd. cbn [eadd]. rewrite Rplus_0_r. exact R0.
Qed.
Lemma first_update s x q : fv_t s = Fi 0 -> fv_mean s i = Fi 0 -> fv_var s i = Fi 0 -> x O i = Fi q -> float q ->
  fv_t (update s x) = Fi (IZR 1) /\ fv_mean (update s x) i = Fi q /\ fv_var (update s x) i = Fi 0.
Proof.
  intros Et Em Ev Ex Fq. pose proof (pow_pos prec top A) as PP. assert (N' : (1 <= 1 <= 2 ^ prec)%Z) by lia.
  destruct (weight_spec 1 N') as (Ew & Fw & Hw & W1 & _). rewrite W1 in Ew by reflexivity.
  assert (S1 : fadd prec top (Fi 0) (Fi 1) = Fi (IZR 1)). { pose proof (count_up prec top A 0 ltac:(lia)) as C. rewrite Z.min_l in C by lia. exact C. }
  assert (F0 : float 0) by apply (float_0 prec top). assert (R0 : rounded prec top (Fi 0) = Fi 0) by now apply (rounded_float prec top). assert (Rq : rounded prec top (Fi q) = Fi q) by now apply (rounded_float prec top).
  assert (D : fsub prec top (Fi q) (Fi 0) = Fi q) by (unfold fsub, esub; cbn [eadd eneg]; rewrite Ropp_0, Rplus_0_r; exact Rq).
  assert (I : fmul prec top (Fi 1) (Fi q) = Fi q) by (unfold fmul, emul; rewrite Rmult_1_l; exact Rq).
  assert (M : fv_mean (update s x) i = Fi q).
  { unfold fupdate. cbn [fv_mean]. rewrite Et, S1, Ew, Em. erewrite mean_one; [|exact Pm| |exact Fq]; [|cbn beta; rewrite Ex, D; exact I]. unfold fadd. cbn [eadd]. rewrite Rplus_0_l. exact Rq. }
  split; [unfold fupdate; cbn [fv_t]; now rewrite Et|]. split; [exact M|]. unfold fupdate in M |- *. cbn [fv_var fv_mean] in M |- *. rewrite Et, S1, Ew in M |- *. rewrite Ev.
  assert (Dq : fsub prec top (Fi q) (Fi q) = Fi 0) by (unfold fsub, esub; cbn [eadd eneg]; rewrite Rplus_opp_r; exact R0).
  erewrite mean_one; [|exact Pv| |exact F0]; [|cbn beta; rewrite M, Ex, Em, D, I, Dq; unfold fmul, emul; rewrite Rmult_0_r; exact R0].
  unfold fsub, esub. cbn [eadd eneg]. rewrite Rplus_opp_r, R0. unfold fmul, emul. rewrite Rmult_0_r, R0. unfold fadd. cbn [eadd]. rewrite Rplus_0_r. exact R0.
Qed.
Lemma precision_0 s : fv_var s i = Fi 0 -> fprecision prec top s i = PInf.
Proof. intros E. unfold fprecision, fdiv. rewrite E. cbn. destruct (Req_EM_T 0 0); [|contradiction]. destruct (Rlt_dec 0 1); [reflexivity|lra]. Qed.
End Proofs.

(** ** Infinite mass *)
Lemma nan_sum prec top l j p : nth j l NaN = NaN -> In j (entries p) -> fsum prec top p l = NaN.
Proof.
  intros H. induction p as [|i|p IHp q IHq]; cbn [entries fsum]; [intros []|intros [->|[]]; exact H|].
  intros I. apply in_app_or in I as [I|I]; [rewrite (IHp I); reflexivity|rewrite (IHq I)]. unfold fadd. now destruct (fsum prec top p l).
Qed.
Lemma nan_acceptance prec top libexp new_h lp : facceptance prec top libexp NaN new_h lp = Fi 0.
Proof. unfold facceptance, fadd. destruct new_h; cbn; destruct (is_finite lp); reflexivity. Qed.
Lemma nan_kinetic prec top entries lp mass ps q p c i :
  mass i = PInf -> (i < entries)%nat -> In i (SpecFloat.entries (ps c)) -> (exists z, p c i = fmul prec top z (fsqrt prec top PInf)) ->
  fst (fhamiltonian prec top entries lp mass ps q p c) = NaN.
Proof.
  intros E I J (z & P). unfold fhamiltonian. cbn [fst]. rewrite (nan_sum prec top _ i).
  - cbn. unfold fadd. now destruct (eneg (lp q c)).
  - erewrite nth_indep with (d' := (fun i => fdiv prec top (fmul prec top (p c i) (p c i)) (mass i)) O) by (now rewrite map_length, seq_length).
    rewrite (map_nth (fun i => fdiv prec top (fmul prec top (p c i) (p c i)) (mass i))), seq_nth by exact I. cbn [Nat.add]. rewrite E, P.
    assert (U : unbounded (fmul prec top z (fsqrt prec top PInf))).
    { cbn. unfold fmul. destruct z as [x| | |]; cbn; auto. destruct (Rlt_dec 0 x); [exact Logic.I|]. destruct (Rlt_dec x 0); exact Logic.I. }
    destruct (lost_square prec top _ U) as [-> | ->]; reflexivity.
  - exact J.
Qed.
Lemma some_pair {X Y} (a c : X) (b e : Y) : Some (a, b) = Some (c, e) -> a = c /\ b = e.
Proof. intros H. now inversion H. Qed.
Section Stuck.
Variables (prec top : Z) (libexp : R -> R) (libpow : R -> R -> R) (chains entries : nat) (grad : fstate -> fstate) (lp : fstate -> nat -> ext).
Variables (ps pm pv : nat -> plan) (decay : ext) (collect : Z).
Lemma infinite_mass s q t x s' q' c i : (i < entries)%nat -> In i (SpecFloat.entries (ps c)) ->
  snd (fadapt_mass prec top libpow chains pm pv decay collect s (in_adapt x) t q) i = PInf -> (exists r, in_uniform x c = Fi r /\ 0 <= r) ->
  fiteration prec top libexp libpow chains entries grad lp ps pm pv decay collect s q t x = Some (s', q') ->
  s' = (if in_adapt x then fupdate prec top libpow chains pm pv decay s q else s) /\ forall e, q' c e = q c e.
Proof.
  intros I J M (r & Hr & R0). unfold fiteration. unfold fadapt_mass in *. cbn [snd] in M. destruct fleapfrog as [cq cp]. destruct forallb; [|discriminate]. intros H. apply some_pair in H as (<- & <-). split; [reflexivity|].
  intros e. rewrite (nan_kinetic prec top entries lp _ ps q _ c i M I J) by (eexists; rewrite M; reflexivity). rewrite nan_acceptance, Hr. cbn. destruct (Rlt_dec r 0); [lra|reflexivity].
Qed.
End Stuck.

(** ** Rounding of numbers *)
Section Eval.
Variables prec top : Z.
Hypothesis W : wide prec top.
Notation b e := (bpow radix2 e).
Local Instance valid_exp2 : Valid_exp (fexpo prec top). Proof. apply FLT_exp_valid. unfold Prec_gt_0. destruct W; lia. Qed.
Lemma near_eval j e m c : (3 - top - prec <= c)%Z -> (0 <= c - e)%Z -> (2 ^ (c - e + prec - 1) <= j < 2 ^ (c - e + prec))%Z ->
  (2 * Z.abs (j - m * 2 ^ (c - e)) < 2 ^ (c - e) \/ (2 * Z.abs (j - m * 2 ^ (c - e)) = 2 ^ (c - e) /\ Z.even m = true))%Z ->
  nearest prec top (IZR j * b e) = IZR m * b c.
Proof.
  intros C E R H. assert (P : (2 <= prec)%Z) by (destruct W; lia). assert (J0 : 0 < IZR j) by (apply IZR_lt; assert (0 < 2 ^ (c - e + prec - 1))%Z by (apply Z.pow_pos_nonneg; lia); lia).
  assert (X : cexp radix2 (fexpo prec top) (IZR j * b e) = c).
  { unfold cexp. rewrite (mag_unique_pos radix2 _ (c + prec)); [unfold fexpo, FLT_exp; lia|].
    replace (c + prec - 1)%Z with ((c - e + prec - 1) + e)%Z by lia. replace (c + prec)%Z with ((c - e + prec) + e)%Z by lia. rewrite (bpow_plus radix2 (c - e + prec - 1) e), (bpow_plus radix2 (c - e + prec) e).
    rewrite <- (IZR_Zpower radix2 (c - e + prec - 1)), <- (IZR_Zpower radix2 (c - e + prec)) by lia. pose proof (bpow_gt_0 radix2 e). split; [apply Rmult_le_compat_r; [lra|]; apply IZR_le, R|apply Rmult_lt_compat_r; [lra|]; apply IZR_lt, R]. }
  unfold nearest, round. rewrite X. unfold F2R. cbn [Fnum Fexp]. f_equal. f_equal. set (g := (c - e)%Z) in *.
  assert (S : scaled_mantissa radix2 (fexpo prec top) (IZR j * b e) = IZR j * / IZR (2 ^ g)).
  { unfold scaled_mantissa. rewrite X, Rmult_assoc, <- bpow_plus. f_equal. replace (e + - c)%Z with (- g)%Z by (unfold g; lia). rewrite bpow_opp. f_equal. rewrite <- (IZR_Zpower radix2) by lia. reflexivity. }
  rewrite S. set (G := IZR (2 ^ g)). assert (G0 : 0 < G) by (apply IZR_lt, Z.pow_pos_nonneg; lia).
  assert (Dj : IZR j = IZR m * G + IZR (j - m * 2 ^ g)) by (unfold G; rewrite <- mult_IZR, <- plus_IZR; f_equal; lia).
  assert (Q : IZR j * / G - IZR m = IZR (j - m * 2 ^ g) * / G) by (rewrite Dj at 1; field; lra). set (r := (j - m * 2 ^ g)%Z) in *.
  destruct H as [H|(H & Ev)].
  - apply Znearest_imp. rewrite Q, Rabs_mult, (Rabs_pos_eq (/ G)) by (left; apply Rinv_0_lt_compat; exact G0). rewrite <- abs_IZR. apply Rmult_lt_reg_r with G; [exact G0|]. rewrite Rmult_assoc, Rinv_l by lra.
    assert (IZR (2 * Z.abs r) < G) by (apply IZR_lt; exact H). rewrite mult_IZR in *. lra.
  - assert (T : IZR r * / G = / 2 \/ IZR r * / G = - / 2).
    { assert (HG : 2 * IZR (Z.abs r) = G) by (rewrite <- mult_IZR; unfold G; now rewrite H). rewrite abs_IZR in HG. unfold Rabs in HG. destruct (Rcase_abs (IZR r)).
      - right. rewrite <- HG. field. lra.
      - left. rewrite <- HG. field. lra. }
    unfold Znearest. destruct T as [T|T].
    + replace (IZR j * / G) with (IZR m + / 2) by lra. rewrite (Zfloor_imp m) by (rewrite plus_IZR; lra). replace (IZR m + / 2 - IZR m) with (/ 2) by ring. rewrite Rcompare_Eq by reflexivity. now rewrite Ev.
    + replace (IZR j * / G) with (IZR (m - 1) + / 2) by (rewrite minus_IZR; lra). rewrite (Zfloor_imp (m - 1)) by (rewrite plus_IZR; lra). replace (IZR (m - 1) + / 2 - IZR (m - 1)) with (/ 2) by ring. rewrite Rcompare_Eq by reflexivity.
      replace (Z.even (m - 1)) with false by (rewrite Z.even_sub, Ev; reflexivity). cbn [negb]. rewrite (Zceil_imp m); [reflexivity|]. rewrite minus_IZR. lra.
Qed.
Lemma fadd_opp x y : fadd prec top (eneg x) (eneg y) = eneg (fadd prec top x y).
Proof.
  unfold fadd. destruct x as [x| | |], y as [y| | |]; cbn; try reflexivity. replace (- x + - y) with (- (x + y)) by ring. rewrite (near_opp prec top). symmetry. apply eneg_overflow.
Qed.
Lemma fsum_opp p l : fsum prec top p (map eneg l) = eneg (fsum prec top p l).
Proof.
  induction p as [|i|p IHp q IHq]; cbn [fsum]; [cbn; now rewrite Ropp_0| |rewrite IHp, IHq; apply fadd_opp]. change NaN with (eneg NaN) at 1. now rewrite map_nth.
Qed.
End Eval.
(** Six copies of 12000006 in float32, added from left to right. *)
Definition in_turn : plan := Plus (Plus (Plus (Plus (Plus (Entry 0) (Entry 1)) (Entry 2)) (Entry 3)) (Entry 4)) (Entry 5).
Lemma wide32 : wide 24 128. Proof. unfold wide. lia. Qed.
Lemma fadd32 j k' e n c : (3 - 128 - 24 <= c)%Z -> (0 <= c - e <= 10)%Z -> (c <= 50)%Z -> (0 < j + k')%Z -> (2 ^ (c - e + 24 - 1) <= j + k' < 2 ^ (c - e + 24))%Z ->
  (2 * Z.abs (j + k' - n * 2 ^ (c - e)) < 2 ^ (c - e) \/ (2 * Z.abs (j + k' - n * 2 ^ (c - e)) = 2 ^ (c - e) /\ Z.even n = true))%Z ->
  fadd 24 128 (Fi (IZR j * bpow radix2 e)) (Fi (IZR k' * bpow radix2 e)) = Fi (IZR (n * 2 ^ (c - e)) * bpow radix2 e).
Proof.
  intros C E L P R H. unfold fadd. cbn [eadd rounded]. replace (IZR j * bpow radix2 e + IZR k' * bpow radix2 e) with (IZR (j + k') * bpow radix2 e) by (rewrite plus_IZR; ring).
  rewrite (near_eval 24 128 wide32 _ _ n c) by (try lia; assumption). assert (X : IZR (n * 2 ^ (c - e)) * bpow radix2 e = IZR n * bpow radix2 c).
  { rewrite mult_IZR, Rmult_assoc. f_equal. change (2 ^ (c - e))%Z with (Zpower radix2 (c - e)). rewrite (IZR_Zpower radix2) by lia. rewrite <- bpow_plus. f_equal. lia. }
  rewrite X. apply overflow_small. rewrite <- X.
  assert (B1 : (Z.abs (n * 2 ^ (c - e)) <= 2 ^ 40)%Z).
  { assert (2 ^ (c - e) <= 2 ^ 10)%Z by (apply Z.pow_le_mono_r; lia). assert (2 ^ (c - e + 24) <= 2 ^ 34)%Z by (apply Z.pow_le_mono_r; lia). assert (2 ^ 10 <= 2 ^ 40)%Z by (apply Z.pow_le_mono_r; lia). assert (2 ^ 34 + 2 ^ 10 <= 2 ^ 40)%Z by (vm_compute; discriminate). lia. }
  rewrite Rabs_mult, (Rabs_pos_eq (bpow radix2 e)) by apply bpow_ge_0. rewrite <- abs_IZR. apply Rle_lt_trans with (bpow radix2 40 * bpow radix2 e).
  - apply Rmult_le_compat_r; [apply bpow_ge_0|]. change (bpow radix2 40) with (IZR (2 ^ 40)). now apply IZR_le.
  - rewrite <- bpow_plus. apply bpow_lt. lia.
Qed.
Lemma six_sum e : (- 60 <= e <= 0)%Z -> let y := Fi (IZR 12000006 * bpow radix2 e) in
  fsum 24 128 in_turn [y; y; y; y; y; y] = Fi (IZR 72000040 * bpow radix2 e) /\ fdivn 24 128 (Fi (IZR 72000040 * bpow radix2 e)) 6 = Fi (IZR 12000007 * bpow radix2 e).
Proof.
  intros E y. split.
  - unfold in_turn, y. cbn [fsum nth].
    rewrite (fadd32 12000006 12000006 e 12000006 (e + 1)) by (try lia; replace (e + 1 - e)%Z with 1%Z by lia; cbn; lia). replace (12000006 * 2 ^ (e + 1 - e))%Z with 24000012%Z by (replace (e + 1 - e)%Z with 1%Z by lia; reflexivity).
    rewrite (fadd32 24000012 12000006 e 9000004 (e + 2)) by (try lia; replace (e + 2 - e)%Z with 2%Z by lia; cbn; lia). replace (9000004 * 2 ^ (e + 2 - e))%Z with 36000016%Z by (replace (e + 2 - e)%Z with 2%Z by lia; reflexivity).
    rewrite (fadd32 36000016 12000006 e 12000006 (e + 2)) by (try lia; replace (e + 2 - e)%Z with 2%Z by lia; cbn; lia). replace (12000006 * 2 ^ (e + 2 - e))%Z with 48000024%Z by (replace (e + 2 - e)%Z with 2%Z by lia; reflexivity).
    rewrite (fadd32 48000024 12000006 e 15000008 (e + 2)) by (try lia; replace (e + 2 - e)%Z with 2%Z by lia; cbn; lia). replace (15000008 * 2 ^ (e + 2 - e))%Z with 60000032%Z by (replace (e + 2 - e)%Z with 2%Z by lia; reflexivity).
    rewrite (fadd32 60000032 12000006 e 9000005 (e + 3)) by (try lia; replace (e + 3 - e)%Z with 3%Z by lia; cbn; lia). replace (9000005 * 2 ^ (e + 3 - e))%Z with 72000040%Z by (replace (e + 3 - e)%Z with 3%Z by lia; reflexivity). reflexivity.
  - unfold fdivn. cbn [ediv]. destruct (Req_EM_T (INR 6) 0) as [Z|_]; [exfalso; cbn in Z; lra|]. cbn [rounded].
    assert (N : nearest 24 128 (IZR 72000040 * bpow radix2 e / INR 6) = IZR 12000007 * bpow radix2 e).
    { set (z := IZR 72000040 * bpow radix2 e / INR 6). assert (Z6 : INR 6 = 6) by (cbn; lra).
      assert (Zb : z = (12000006 + 2 / 3) * bpow radix2 e) by (unfold z; rewrite Z6; field).
      assert (C : cexp radix2 (fexpo 24 128) z = e).
      { unfold cexp. rewrite (mag_unique_pos radix2 z (e + 24)); [unfold fexpo, FLT_exp; lia|]. replace (e + 24 - 1)%Z with (23 + e)%Z by lia. replace (e + 24)%Z with (24 + e)%Z by lia. rewrite !bpow_plus, Zb. pose proof (bpow_gt_0 radix2 e).
        change (bpow radix2 23) with 8388608. change (bpow radix2 24) with 16777216. split; [apply Rmult_le_compat_r; lra|apply Rmult_lt_compat_r; lra]. }
      unfold nearest, round. rewrite C. unfold F2R. cbn [Fnum Fexp]. f_equal. f_equal. apply Znearest_imp. unfold scaled_mantissa. rewrite C, Zb, Rmult_assoc, <- bpow_plus, Z.add_opp_diag_r. cbn [bpow]. apply Rabs_lt. lra. }
    rewrite N. apply overflow_small. rewrite Rabs_mult, !Rabs_pos_eq by (try lra; apply bpow_ge_0). apply Rle_lt_trans with (bpow radix2 24 * bpow radix2 e); [apply Rmult_le_compat_r; [apply bpow_ge_0|change (bpow radix2 24) with 16777216; lra]|]. rewrite <- bpow_plus. apply bpow_lt. lia.
Qed.
