(** Lemmas for C58. *)
From Coq Require Import List Arith Reals ZArith Lra Lia Permutation.
From Flocq Require Import Core Relative Plus_error.
From Verif Require Import ModelExt ModelSpecial ModelNum ModelFloat ModelFloatSample SpecFloat ProofFloat.
Import ListNotations.
Local Open Scope R_scope.

Section Proofs.
Variables prec top : Z.
Hypothesis W : wide prec top.
Notation u := (unit_roundoff prec).
Notation fmt := (generic_format radix2 (fexpo prec top)).
Notation float := (is_float prec top).
Notation near := (nearest prec top).
Notation b e := (bpow radix2 e).
Notation standard := (standard prec).
Notation bits := (bits prec).
Local Instance prec_pos' : Prec_gt_0 prec := prec_pos prec top W.
Local Instance fexpo_valid' : Valid_exp (fexpo prec top) := fexpo_valid prec top W.
Local Instance fexpo_mono' : Monotone_exp (fexpo prec top) := fexpo_mono prec top.

Lemma near_double x : Rabs (near x) <= 2 * Rabs x.
Proof.
  destruct (round_N_pt radix2 (fexpo prec top) (fun z => negb (Z.even z)) x) as (_ & H).
  specialize (H 0 (generic_format_0 _ _)). change (Znearest (fun z => negb (Z.even z))) with ZnearestE in H.
  change (round radix2 (fexpo prec top) ZnearestE x) with (near x) in H.
  replace (0 - x) with (- x) in H by ring. rewrite Rabs_Ropp in H. replace (near x) with ((near x - x) + x) by ring.
  eapply Rle_trans; [apply Rabs_triang|lra].
Qed.
Lemma bounded_float x : Rabs x <= b (top - 1) -> Rabs x < b top.
Proof. intros H. eapply Rle_lt_trans; [exact H|]. apply bpow_lt. lia. Qed.
Lemma near_bpow x e : (3 - top - prec <= e)%Z -> Rabs x <= b e -> Rabs (near x) <= b e.
Proof.
  intros E H. pose proof (fmt_bpow prec top W e E) as F. apply Rabs_le_inv in H. apply Rabs_le. split.
  - apply near_ge_fmt; [exact W|now apply fmt_opp|lra].
  - apply near_le_fmt; [exact W|exact F|lra].
Qed.
Lemma rounded_finite x : Rabs x <= b (top - 1) -> rounded prec top (Fi x) = Fi (near x).
Proof.
  intros H. cbn. apply overflow_small. apply bounded_float. apply near_bpow; [destruct W; lia|exact H].
Qed.
Lemma b_1 e : b (e + 1) = 2 * b e.
Proof. rewrite bpow_plus. cbn. lra. Qed.
Lemma b_prec : b (1 - prec) = 2 * u.
Proof. replace (1 - prec)%Z with (- prec + 1)%Z by lia. apply b_1. Qed.
Lemma one_le_top : 2 <= b (top - 1).
Proof. replace 2 with (b 1) by reflexivity. apply bpow_le. destruct W. lia. Qed.

(** ** Uniform noise *)
Lemma standard_spec j : bits j -> fmt (standard j) /\ 0 <= standard j <= 1 - 2 * u.
Proof.
  intros (J0 & J1). destruct W as (A & B & _). unfold ModelFloatSample.standard. split.
  - apply fmt_grid; [exact W| |lia]. pose proof (Z.pow_le_mono_r 2 (prec - 1) prec). lia.
  - pose proof (bpow_gt_0 radix2 (1 - prec)) as P. split; [apply Rmult_le_pos; [now apply IZR_le|lra]|].
    assert (IZR j <= IZR (2 ^ (prec - 1)) - 1) by (rewrite <- minus_IZR; apply IZR_le; lia).
    assert (E : IZR (2 ^ (prec - 1)) * b (1 - prec) = 1).
    { change (2 ^ (prec - 1))%Z with (Zpower radix2 (prec - 1)). rewrite (IZR_Zpower radix2), <- bpow_plus by lia. replace (prec - 1 + (1 - prec))%Z with 0%Z by lia. reflexivity. }
    rewrite <- b_prec. nra.
Qed.
Lemma fmt_below_1 : fmt (1 - u).
Proof.
  destruct W as (A & B & _). replace (1 - u) with (IZR (2 ^ prec - 1) * b (- prec)).
  - apply fmt_grid; [exact W| |lia]. pose proof (Z.pow_pos_nonneg 2 prec). lia.
  - rewrite minus_IZR. change (2 ^ prec)%Z with (Zpower radix2 prec). rewrite (IZR_Zpower radix2) by lia. rewrite Rmult_minus_distr_r, <- bpow_plus.
    replace (prec + - prec)%Z with 0%Z by lia. unfold unit_roundoff. cbn [bpow]. lra.
Qed.
Lemma tiny_spec : fmt (tiny top) /\ 0 < tiny top <= u.
Proof.
  destruct W as (A & B & _). unfold tiny. split; [apply fmt_bpow; [exact W|lia]|]. split; [apply bpow_gt_0|]. apply bpow_le. lia.
Qed.
(** A number of [j] scaled into an interval of length at most 2. *)
Lemma scaled j lo w : bits j -> fmt lo -> Rabs lo <= 1 -> 0 <= w <= 2 -> 
  exists v, fadd prec top (fmul prec top (Fi (standard j)) (rounded prec top (Fi w))) (Fi lo) = Fi v /\ fmt v /\
   lo <= v /\ forall h, fmt h -> near (standard j * near w) + lo <= h -> v <= h.
Proof.
  intros J Fl Bl Bw. destruct (standard_spec j J) as (Fs & Rs). pose proof (u_pos prec) as U. pose proof one_le_top as T.
  rewrite rounded_finite by (rewrite Rabs_pos_eq; lra). 
  assert (N : 0 <= near w <= 2).
  { split; [apply near_ge_fmt; [exact W|apply fmt_0|lra]|]. apply near_le_fmt; [exact W| |lra]. replace 2 with (b 1) by reflexivity. apply fmt_bpow; [exact W|destruct W; lia]. }
  unfold fmul. cbn [emul]. rewrite rounded_finite by (rewrite Rabs_pos_eq; nra).
  assert (M : 0 <= near (standard j * near w) <= 2).
  { split; [apply near_ge_fmt; [exact W|apply fmt_0|nra]|]. apply near_le_fmt; [exact W| |nra]. replace 2 with (b 1) by reflexivity. apply fmt_bpow; [exact W|destruct W; lia]. }
  unfold fadd. cbn [eadd]. assert (T2 : 4 <= b (top - 1)) by (replace 4 with (b 2) by reflexivity; apply bpow_le; destruct W; lia).
  rewrite rounded_finite by (apply Rabs_le_inv in Bl; apply Rabs_le; lra).
  eexists. split; [reflexivity|]. split; [apply near_fmt; exact W|]. split; [apply near_ge_fmt; [exact W|exact Fl|lra]|].
  intros h Fh H. apply near_le_fmt; [exact W|exact Fh|exact H].
Qed.
Lemma open_uniform_spec j : bits j -> exists v, open_interval_standard_uniform prec top j = Fi v /\ fmt v /\ tiny top <= v <= 1 - u.
Proof.
  intros J. destruct tiny_spec as (Ft & Pt & Ut). pose proof (u_pos prec) as U. pose proof (u_quarter prec top W) as U4.
  destruct (scaled j (tiny top) (1 - tiny top) J Ft) as (v & E & Fv & Lv & Hv); [apply Rabs_le; lra|lra|].
  exists v. split; [|split; [exact Fv|split; [exact Lv|]]].
  - unfold open_interval_standard_uniform, random_uniform. unfold fsub, esub. cbn [eneg eadd]. exact E.
  - apply Hv; [apply fmt_below_1|]. destruct (standard_spec j J) as (Fs & Rs).
    assert (N : 0 <= near (1 - tiny top) <= 1) by (split; [apply near_ge_fmt; [exact W|apply fmt_0|lra]|apply near_le_fmt; [exact W|apply fmt_1; exact W|lra]]).
    assert (near (standard j * near (1 - tiny top)) <= standard j) by (apply near_le_fmt; [exact W|exact Fs|nra]). lra.
Qed.
Lemma laplace_uniform_spec j : bits j -> exists v, laplace_uniform prec top j = Fi v /\ fmt v /\ Rabs v <= 1 - u.
Proof.
  intros J. pose proof (u_pos prec) as U. pose proof (u_quarter prec top W) as U4. pose proof fmt_below_1 as F1.
  assert (AM : after_minus_1 prec = - (1 - u)) by reflexivity.
  destruct (scaled j (- (1 - u)) (1 - - (1 - u)) J) as (v & E & Fv & Lv & Hv); [now apply fmt_opp|rewrite Rabs_Ropp, Rabs_pos_eq; lra|lra|].
  exists v. split; [|split; [exact Fv|]].
  - unfold laplace_uniform, random_uniform. rewrite AM. unfold fsub, esub. cbn [eneg eadd]. exact E.
  - apply Rabs_le. split; [exact Lv|]. apply Hv; [exact F1|]. destruct (standard_spec j J) as (Fs & Rs).
    assert (F2 : fmt 2) by (replace 2 with (b 1) by reflexivity; apply fmt_bpow; [exact W|destruct W; lia]).
    assert (N : 0 <= near (1 - - (1 - u)) <= 2) by (split; [apply near_ge_fmt; [exact W|apply fmt_0|lra]|apply near_le_fmt; [exact W|exact F2|lra]]).
    assert (D : fmt (2 * standard j)).
    { unfold ModelFloatSample.standard. replace (2 * (IZR j * b (1 - prec))) with (IZR j * b (1 - prec + 1)) by (rewrite b_1; ring).
      destruct J. destruct W as (A & B & _). apply fmt_grid; [exact W| |lia]. pose proof (Z.pow_le_mono_r 2 (prec - 1) prec). lia. }
    assert (near (standard j * near (1 - - (1 - u))) <= 2 * standard j) by (apply near_le_fmt; [exact W|exact D|nra]). lra.
Qed.

(** ** Logarithms of the noise *)
Hypothesis A : ample prec top.
Lemma fmt_top : fmt (IZR top) /\ IZR prec <= IZR top <= b prec /\ IZR top <= b (top - 2).
Proof.
  destruct A as (_ & P & T). destruct W as (P2 & T2 & _). split; [|split; [split|]].
  - apply fmt_int; [exact W|lia].
  - apply IZR_le. lia.
  - rewrite <- (IZR_Zpower radix2) by lia. apply IZR_le. exact T.
  - rewrite <- (IZR_Zpower radix2) by lia. apply IZR_le. change (Zpower radix2 (top - 2)) with (2 ^ (top - 2))%Z.
    replace (top - 2)%Z with (1 + (top - 3))%Z at 1 by lia. rewrite Z.pow_add_r by lia. pose proof (Z.pow_gt_lin_r 2 (top - 3)). change (2 ^ 1)%Z with 2%Z. lia.
Qed.
Lemma log_open liblog v : faithful_log prec top liblog -> fmt v -> tiny top <= v <= 1 - u ->
  felog top liblog (Fi v) = Fi (liblog v) /\ fmt (liblog v) /\ - IZR top <= liblog v <= - u.
Proof.
  intros FL F (V1 & V2). destruct tiny_spec as (Ft & Pt & _). pose proof (u_pos prec) as U. pose proof (u_quarter prec top W) as U4. destruct fmt_top as (FT & TP & TB).
  assert (Fv : float v) by (split; [exact F|]; apply (below_top prec top W); rewrite Rabs_pos_eq; lra). assert (P : 0 < v) by lra.
  pose proof (FL v Fv P) as X. assert (B : - IZR top <= liblog v <= - u).
  { split.
    - apply (faithful_ge prec top W _ _ _ _ X); [now apply fmt_opp|]. pose proof (ln_le' _ _ Pt V1) as H. unfold tiny in H. rewrite ln_bpow, minus_IZR in H.
      pose proof ln_2_le. assert (0 <= IZR top - 2) by (rewrite <- minus_IZR; apply IZR_le; destruct W; lia). nra.
    - apply (faithful_le prec top W _ _ _ _ X); [apply fmt_opp, fmt_bpow; [exact W|destruct W; lia]|]. pose proof (ln_le_sub v P). lra. }
  split; [|split; [exact (faithful_fmt prec top W _ _ _ X)|exact B]]. unfold felog. destruct (Rlt_dec 0 v); [|contradiction]. apply overflow_small.
  apply Rabs_lt. assert (b (top - 2) < b top) by (apply bpow_lt; lia). lra.
Qed.
Lemma gumbel_spec liblog j : faithful_log prec top liblog -> bits j ->
  exists g, gumbel prec top liblog j = Fi g /\ fmt g /\ Rabs g <= IZR prec.
Proof.
  intros FL J. destruct (open_uniform_spec j J) as (v & E & Fv & Rv). unfold gumbel. rewrite E. destruct (log_open liblog v FL Fv Rv) as (E1 & F1 & R1).
  rewrite E1. cbn [eneg]. destruct fmt_top as (FT & TP & TB). pose proof (u_pos prec) as U. assert (b (top - 2) < b top) by (apply bpow_lt; lia).
  destruct (lib_log_spec prec top W liblog (- liblog v) FL) as (E2 & F2 & R2 & _).
  - split; [now apply fmt_opp|]. rewrite Rabs_pos_eq; lra.
  - fold u. lra.
  - rewrite E2. cbn [eneg]. eexists. split; [reflexivity|]. split; [now apply fmt_opp|]. now rewrite Rabs_Ropp.
Qed.
Lemma small_top x : Rabs x <= IZR top + IZR prec -> Rabs x <= b (top - 1).
Proof. intros H. destruct fmt_top as (FT & TP & TB). replace (top - 1)%Z with (top - 2 + 1)%Z by lia. rewrite b_1. lra. Qed.
Lemma logistic_spec liblog j : faithful_log prec top liblog -> bits j ->
  exists g, logistic prec top liblog j = Fi g /\ fmt g /\ Rabs g <= 2 * (IZR top + IZR prec).
Proof.
  intros FL J. destruct (open_uniform_spec j J) as (v & E & Fv & Rv). unfold logistic. rewrite E. destruct (log_open liblog v FL Fv Rv) as (E1 & F1 & R1).
  destruct fmt_top as (FT & TP & TB). pose proof (u_pos prec) as U. destruct tiny_spec as (Ft & Pt & _). pose proof one_le_top.
  unfold fsub at 2, esub. cbn [eneg eadd]. rewrite rounded_finite by (rewrite Rabs_pos_eq; lra).
  assert (N : u <= near (1 + - v) <= 1) by (split; [apply near_ge_fmt; [exact W|apply fmt_bpow; [exact W|destruct W; lia]|lra]|apply near_le_fmt; [exact W|apply fmt_1, W|lra]]).
  destruct (lib_log_spec prec top W liblog (near (1 + - v)) FL) as (E2 & F2 & R2 & _ & _ & N2).
  - split; [apply near_fmt, W|]. apply (below_top prec top W). rewrite Rabs_pos_eq; lra.
  - fold u. split; [apply N|]. apply Rle_trans with 1; [apply N|]. apply (bpow_le radix2 0). destruct W; lia.
  - rewrite E1, E2. unfold fsub, esub. cbn [eneg eadd].
    assert (B : Rabs (liblog v + - liblog (near (1 + - v))) <= IZR top + IZR prec) by (apply Rabs_le_inv in R2; apply Rabs_le; lra).
    rewrite rounded_finite by now apply small_top. eexists. split; [reflexivity|]. split; [apply near_fmt, W|]. eapply Rle_trans; [apply near_double|]. lra.
Qed.
Lemma log1p_spec liblog1p v : faithful_log1p prec top liblog1p -> fmt v -> Rabs v <= 1 - u ->
  exists g, felog1p top liblog1p (eneg (eabs (Fi v))) = Fi g /\ fmt g /\ - IZR prec <= g <= 0.
Proof.
  intros FL Fv V. pose proof (u_pos prec) as U. pose proof (Rabs_pos v). set (x := - Rabs v).
  assert (Fx : float x). { split; [apply fmt_opp, generic_format_abs, Fv|]. apply (below_top prec top W). unfold x. rewrite Rabs_Ropp, Rabs_Rabsolu. lra. }
  assert (X : -1 < x) by (unfold x; lra). pose proof (FL x Fx X) as F. cbn beta in F.
  destruct fmt_top as (FT & TP & TB). destruct W as (w1 & w2 & _).
  assert (B : - IZR prec <= liblog1p x <= 0).
  { split.
    - apply (faithful_ge prec top W _ _ _ _ F); [apply fmt_opp, fmt_int; [exact W|pose proof (Z.pow_gt_lin_r 2 prec); lia]|].
      assert (L : ln u <= ln (1 + x)) by (apply ln_le'; [exact U|unfold x; lra]). unfold unit_roundoff in L. rewrite ln_bpow, opp_IZR in L. pose proof ln_2_le. assert (0 <= IZR prec) by (apply IZR_le; lia). nra.
    - apply (faithful_le prec top W _ _ _ _ F); [apply fmt_0|]. rewrite <- ln_1. apply ln_le'; unfold x; lra. }
  exists (liblog1p x). split; [|split; [exact (faithful_fmt prec top W _ _ _ F)|exact B]].
  cbn [eabs eneg]. fold x. unfold felog1p. destruct (Rlt_dec (-1) x); [|contradiction]. apply overflow_small. apply Rabs_lt. assert (b (top - 2) < b top) by (apply bpow_lt; lia). lra.
Qed.

(** ** Quotients *)
Lemma near_err x : Rabs (near x - x) <= u * Rabs x + b (3 - top - prec).
Proof.
  eapply Rle_trans; [apply error_le_half_ulp; exact _|]. pose proof (ulp_bound prec top W x). pose proof (bpow_gt_0 radix2 (3 - top - prec)). lra.
Qed.
Lemma near_nonneg x : 0 <= x -> 0 <= near x.
Proof. intros H. apply near_ge_fmt; [exact W|apply fmt_0|exact H]. Qed.
Lemma near_unit x : 0 <= x <= 1 -> 0 <= near x <= 1.
Proof. intros (H & H'). split; [now apply near_nonneg|]. apply near_le_fmt; [exact W|apply fmt_1, W|exact H']. Qed.
Lemma rounded_unit x : 0 <= x <= 1 -> rounded prec top (Fi x) = Fi (near x) /\ float (near x).
Proof.
  intros H. pose proof (near_unit x H). assert (B : Rabs (near x) < b top) by (apply (below_top prec top W); rewrite Rabs_pos_eq; lra).
  split; [cbn; now apply overflow_small|]. split; [apply near_fmt, W|exact B].
Qed.
Lemma div_unit x s : 0 <= x <= s -> 0 < s -> 0 <= x / s <= 1.
Proof.
  intros H S. assert (0 < / s) by now apply Rinv_0_lt_compat. split; [apply Rmult_le_pos; lra|]. apply (Rmult_le_reg_r s); [exact S|]. unfold Rdiv. rewrite Rmult_assoc, Rinv_l; lra.
Qed.
Lemma fdiv_fi x s : s <> 0 -> fdiv prec top (Fi x) (Fi s) = rounded prec top (Fi (x / s)).
Proof. intros H. unfold fdiv, ediv2, ediv. destruct (Req_EM_T s 0); [contradiction|reflexivity]. Qed.
Lemma div_spec x s : 0 <= x <= s -> 0 < s -> exists w, fdiv prec top (Fi x) (Fi s) = Fi w /\ float w /\ 0 <= w <= 1 /\ Rabs (w - x / s) <= u * (x / s) + u / 2.
Proof.
  intros H S. rewrite fdiv_fi by lra. pose proof (div_unit x s H S) as D. destruct (rounded_unit _ D) as (E & F). rewrite E. exists (near (x / s)).
  split; [reflexivity|split; [exact F|split; [now apply near_unit|]]]. eapply Rle_trans; [apply near_err|]. rewrite (Rabs_pos_eq (x / s)) by lra. pose proof (eta_small prec top W). lra.
Qed.
(** Multiplication with the inverse. *)
Lemma inverse_spec x s : 0 <= x <= s -> 1 <= s <= b prec ->
  exists w, fmul prec top (Fi x) (fdiv prec top (Fi 1) (Fi s)) = Fi w /\ float w /\ 0 <= w <= 1 /\ Rabs (w - x / s) <= 3 * u * (x / s) + u / 2.
Proof.
  intros H (S1 & S2). destruct W as (w1 & w2 & _). pose proof (u_pos prec) as U. pose proof (u_quarter prec top W) as U4. assert (I : 0 < / s <= 1).
  { split; [apply Rinv_0_lt_compat; lra|]. rewrite <- Rinv_1. apply Rinv_le; lra. }
  rewrite fdiv_fi by lra. unfold Rdiv at 1. rewrite Rmult_1_l. destruct (rounded_unit (/ s)) as (E & F); [lra|]. rewrite E.
  assert (NB : b (3 - top - prec + prec - 1) <= Rabs (/ s)).
  { rewrite Rabs_pos_eq by lra. apply Rle_trans with (b (- prec)); [apply bpow_le; lia|]. rewrite bpow_opp. apply Rinv_le; lra. }
  destruct (relative_error_N_FLX'_ex radix2 prec prec_pos' (fun z => negb (Z.even z)) (/ s)) as (e & B & R).
  rewrite <- (round_FLT_FLX radix2 (3 - top - prec) prec ZnearestE (/ s) NB) in R.
  change (round radix2 (FLT_exp (3 - top - prec) prec) ZnearestE (/ s)) with (near (/ s)) in R. rewrite u_ro_u in B.
  set (i := near (/ s)) in *. set (d := u / (1 + u)) in *. assert (Du : 0 < d < u).
  { unfold d. split; [apply Rdiv_lt_0_compat; lra|]. apply (Rmult_lt_reg_r (1 + u)); [lra|]. unfold Rdiv. rewrite Rmult_assoc, Rinv_l by lra. nra. }
  apply Rabs_le_inv in B. pose proof (div_unit x s H ltac:(lra)) as D. assert (XI : x * i = x / s * (1 + e)) by (rewrite R; unfold Rdiv; ring).
  assert (X0 : 0 <= x * i) by (rewrite XI; nra). assert (X1 : x * i <= 1 + d) by (rewrite XI; nra).
  assert (N1 : near (x * i) <= 1).
  { apply round_N_le_midp; [exact _|apply fmt_1, W|]. replace (succ radix2 (fexpo prec top) 1) with (1 + 2 * u).
    - lra.
    - rewrite succ_eq_pos by lra. f_equal. change 1 with (b 0) at 1. rewrite ulp_bpow. rewrite <- b_prec. f_equal. unfold fexpo, FLT_exp. lia. }
  assert (N0 : 0 <= near (x * i)) by now apply near_nonneg.
  unfold fmul. cbn [emul]. exists (near (x * i)). assert (Bw : Rabs (near (x * i)) < b top) by (apply (below_top prec top W); rewrite Rabs_pos_eq; lra).
  split; [cbn; now apply overflow_small|]. split; [split; [apply near_fmt, W|exact Bw]|]. split; [lra|].
  pose proof (near_err (x * i)) as Er. rewrite (Rabs_pos_eq (x * i)) in Er by lra. pose proof (eta_small prec top W) as Eta.
  replace (near (x * i) - x / s) with (near (x * i) - x * i + (x * i - x / s)) by ring. eapply Rle_trans; [apply Rabs_triang|].
  assert (Rabs (x * i - x / s) <= u * (x / s)). { rewrite XI. replace (x / s * (1 + e) - x / s) with (e * (x / s)) by ring. rewrite Rabs_mult, (Rabs_pos_eq (x / s)) by lra. apply Rmult_le_compat_r; [lra|]. apply Rabs_le. lra. }
  assert (u * (x * i) <= 2 * u * (x / s)); [|lra].
  rewrite XI. set (q := x / s) in *. assert (Q : q * (1 + e) <= q * 2) by (apply Rmult_le_compat_l; lra). replace (2 * u * q) with (u * (q * 2)) by ring. apply Rmult_le_compat_l; lra.
Qed.
Lemma exp_upper x : 0 <= x <= 1 / 2 -> exp x <= 1 + 2 * x.
Proof.
  intros H. replace (exp x) with (/ exp (- x)) by (rewrite <- exp_Ropp; f_equal; ring). pose proof (exp_ineq1_le (- x)) as E. pose proof (exp_pos (- x)).
  apply Rle_trans with (/ (1 - x)); [apply Rinv_le; lra|]. apply (Rmult_le_reg_r (1 - x)); [lra|]. rewrite Rinv_l by lra. nra.
Qed.
Lemma pow_upper n : (1 <= n)%nat -> (2 * Z.of_nat n <= 2 ^ prec)%Z -> (1 + u) ^ (n - 1) <= 1 + 2 * (INR n - 1) * u.
Proof.
  intros n1 H. pose proof (u_pos prec) as U. eapply Rle_trans; [apply pow_exp; lra|]. rewrite minus_INR by lia. cbn [INR]. 
  assert (N : INR n * u <= 1 / 2).
  { assert (K : 2 * INR n <= b prec). { rewrite INR_IZR_INZ, <- mult_IZR, <- (IZR_Zpower radix2) by (destruct W; lia). apply IZR_le. exact H. }
    assert (Q : b prec * u = 1) by (unfold unit_roundoff; rewrite <- bpow_plus; replace (prec + - prec)%Z with 0%Z by lia; reflexivity). nra. }
  assert (1 <= INR n) by (apply (le_INR 1); lia). eapply Rle_trans; [apply exp_upper; nra|]. lra.
Qed.
(** Entries divided by their computed sum. *)
Lemma normalized_spec inverse k t l p : (3 - top - prec <= k < top - prec)%Z -> l <> [] -> (2 * Z.of_nat (length l) <= 2 ^ prec)%Z -> adds_up p (length l) ->
  (forall i, (i < length l)%nat -> nth_error l i = Some (Fi (t i)) /\ fmt (t i) /\ 0 <= t i <= b k) ->
  (exists i, (i < length l)%nat /\ 0 < t i /\ (inverse = true -> k = 0%Z /\ t i = 1)) ->
  exists s, fsum prec top p l = Fi s /\ fmt s /\ 0 < s /\
   (forall i, (i < length l)%nat -> exists w, nth_error (normalized prec top inverse p l) i = Some (Fi w) /\ float w /\ 0 <= w <= 1 /\ Rabs (w - t i / s) <= 3 * u * (t i / s) + u / 2) /\
   length (normalized prec top inverse p l) = length l /\
   Rabs (total (normalized prec top inverse p l) - 1) <= 7 * INR (length l) * u.
Proof.
  intros K NE N P T (i0 & I0 & T0 & In0). set (n := length l) in *. assert (n1 : (1 <= n)%nat) by (unfold n; destruct l; [congruence|cbn; lia]).
  pose proof (u_pos prec) as U. pose proof (u_quarter prec top W) as U4.
  destruct (sum_spec_at prec top W k t l K) with (p := p) as (s & S1 & S2 & S3 & S4 & S5 & S6).
  { intros i e X. destruct (T i) as (Y & _); [apply nth_error_Some; congruence|]. congruence. }
  { intros i Hi. apply T, Hi. }
  { intros i Hi. apply (Permutation_in _ P) in Hi. apply in_seq in Hi. fold n. lia. }
  { rewrite (Permutation_length P), seq_length. lia. }
  rewrite (Permutation_length P), seq_length in S3, S5, S6. rewrite (total_at_perm t _ _ P) in S5, S6.
  assert (Q : forall i, (i < n)%nat -> t i <= s) by (intros i Hi; apply S4, (Permutation_in _ (Permutation_sym P)), in_seq; lia).
  assert (Ps : 0 < s) by (specialize (Q i0 I0); lra). assert (is0 : 0 < / s) by now apply Rinv_0_lt_compat.
  assert (Each : forall i, (i < n)%nat -> exists w, nth_error (normalized prec top inverse p l) i = Some (Fi w) /\ float w /\ 0 <= w <= 1 /\ Rabs (w - t i / s) <= 3 * u * (t i / s) + u / 2).
  { intros i Hi. destruct (T i Hi) as (E & F & R). specialize (Q i Hi). unfold normalized. rewrite S1, nth_error_map, E. cbn [option_map].
    destruct inverse.
    - destruct In0 as (-> & T1); [reflexivity|]. destruct (inverse_spec (t i) s) as (w & W1 & W2 & W3 & W4); [lra| |].
      + split; [rewrite <- T1; apply S4, (Permutation_in _ (Permutation_sym P)), in_seq; lia|]. cbn [bpow] in S3. rewrite Rmult_1_r in S3. eapply Rle_trans; [apply S3|].
        rewrite INR_IZR_INZ, <- (IZR_Zpower radix2) by (destruct W; lia). apply IZR_le. change (Zpower radix2 prec) with (2 ^ prec)%Z. lia.
      + rewrite W1. eauto.
    - destruct (div_spec (t i) s) as (w & W1 & W2 & W3 & W4); [lra|exact Ps|]. rewrite W1. exists w. split; [reflexivity|split; [exact W2|split; [exact W3|]]].
      pose proof (div_unit (t i) s ltac:(lra) Ps). eapply Rle_trans; [exact W4|]. nra. }
  exists s. split; [exact S1|]. split; [exact S2|]. split; [exact Ps|]. split; [exact Each|].
  assert (Len : length (normalized prec top inverse p l) = n) by (unfold normalized; now rewrite map_length). split; [exact Len|].
  set (r := normalized prec top inverse p l) in *.
  assert (TT : total r = total_at (fun i => real_of (nth i r NaN)) (seq 0 n)) by (rewrite <- Len; symmetry; apply total_at_nth). rewrite TT.
  set (S := total_at t (seq 0 n)) in *.
  assert (D : Rabs (total_at (fun i => real_of (nth i r NaN)) (seq 0 n) - S / s) <= 3 * u * (S / s) + INR n * (u / 2)).
  { unfold S. clear - Each is0 U. assert (G : forall i, In i (seq 0 n) -> (i < n)%nat) by (intros i Hi; apply in_seq in Hi; lia).
    replace (INR n) with (INR (length (seq 0 n))) by now rewrite seq_length. induction (seq 0 n) as [|i l' IH].
    - unfold total_at. cbn. unfold Rdiv. rewrite !Rmult_0_l, Rminus_0_r, Rabs_R0. lra.
    - specialize (IH (fun j Hj => G j (or_intror Hj))). destruct (Each i (G i (or_introl eq_refl))) as (w & E & _ & _ & D).
      unfold total_at in *. cbn [map fold_right length]. rewrite (nth_error_nth _ _ _ E). cbn [real_of]. rewrite S_INR.
      set (X := fold_right Rplus 0 (map (fun i => real_of (nth i r NaN)) l')) in *. set (Y := fold_right Rplus 0 (map t l')) in *.
      replace (w + X - (t i + Y) / s) with (w - t i / s + (X - Y / s)) by (unfold Rdiv; ring). eapply Rle_trans; [apply Rabs_triang|].
      replace ((t i + Y) / s) with (t i / s + Y / s) by (unfold Rdiv; ring). lra. }
  pose proof (pow_upper n n1 N) as Pw. assert (P1 : 1 <= (1 + u) ^ (n - 1)) by (apply pow_R1_Rle; lra).
  assert (rn : 1 <= INR n) by (apply (le_INR 1); lia). set (z := S / s) in *.
  assert (nu : INR n * u <= 1 / 2).
  { assert (K2 : 2 * INR n <= b prec). { rewrite INR_IZR_INZ, <- mult_IZR, <- (IZR_Zpower radix2) by (destruct W; lia). apply IZR_le. exact N. }
    assert (Q1 : b prec * u = 1) by (unfold unit_roundoff; rewrite <- bpow_plus; replace (prec + - prec)%Z with 0%Z by lia; reflexivity). nra. }
  assert (Z1 : z <= 1 + 2 * (INR n - 1) * u).
  { unfold z. apply (Rmult_le_reg_r s); [exact Ps|]. unfold Rdiv. rewrite Rmult_assoc, Rinv_l by lra. nra. }
  assert (Z2 : 1 <= z * (1 + 2 * (INR n - 1) * u)).
  { unfold z. apply (Rmult_le_reg_r s); [exact Ps|]. replace (S / s * (1 + 2 * (INR n - 1) * u) * s) with (S * (1 + 2 * (INR n - 1) * u)) by (field; lra).
    assert (0 <= S) by (apply Rle_trans with (t i0); [lra|]; apply (total_at_ge t); [intros j Hj; apply in_seq in Hj; apply T; fold n; lia|apply in_seq; lia]). nra. }
  assert (Z3 : Rabs (z - 1) <= 2 * (INR n - 1) * u) by (apply Rabs_le; split; nra).
  replace (total_at (fun i => real_of (nth i r NaN)) (seq 0 n) - 1) with ((total_at (fun i => real_of (nth i r NaN)) (seq 0 n) - z) + (z - 1)) by ring.
  eapply Rle_trans; [apply Rabs_triang|]. assert (3 * u * z <= 3 * u * 2) by nra. assert (u <= INR n * u) by nra. lra.
Qed.
End Proofs.
