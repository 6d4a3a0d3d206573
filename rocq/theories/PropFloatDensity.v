(** C59: log densities in floating-point arithmetic. *)
From Coq Require Import List Arith Bool Reals ZArith Lra Lia Permutation.
From Flocq Require Import Core Relative Plus_error.
From Verif Require Import ModelExt ModelSpecial ModelNum ModelFloat ModelFloatSample ModelFloatDensity SpecFloat SpecDensity ProofFloat ProofFloatSample ProofFloatDensity PropFloat PropFloatSample.
Import ListNotations.
Local Open Scope R_scope.

Section Statements.
Variables prec top : Z.
Variables libexp liblog liblog1p : R -> R.
Hypothesis A : ample prec top.
Hypothesis FE : faithful_exp prec top libexp.
Hypothesis FL : faithful_log prec top liblog.
Hypothesis FL1 : faithful_log1p prec top liblog1p.
Let W : wide prec top := proj1 A.
Notation u := (unit_roundoff prec).
Notation b e := (bpow radix2 e).
Notation near := (nearest prec top).
Notation float := (is_float prec top).
Notation fmt := (generic_format radix2 (fexpo prec top)).
Local Instance prec_pos_p : Prec_gt_0 prec := prec_pos prec top W.
Local Instance fexpo_valid_p : Valid_exp (fexpo prec top) := fexpo_valid prec top W.
Local Instance fexpo_mono_p : Monotone_exp (fexpo prec top) := fexpo_mono prec top.

(** ** Bernoulli: for every finite logits, however large, a float, at most 0, accurate to
    the unit roundoff. *)
Theorem C59_bernoulli logits given : float logits -> given = 0 \/ given = 1 ->
  exists v, bernoulli_log_p prec top libexp liblog1p (Fi logits) (Fi given) = Fi v /\ float v /\ v <= 0 /\
    Rabs (v - ln (/ (1 + exp (if Req_EM_T given 1 then - logits else logits)))) <= (Rabs v + 2) * u.
Proof.
  intros (F & B) G. pose proof (u_pos prec) as U. pose proof (u_quarter prec top W) as U4. pose proof ln_2_le as L2.
  set (m := if Req_EM_T given 1 then Rmax (- logits) 0 else Rmax logits 0).
  assert (Fm : float m).
  { assert (Z : float 0) by (split; [apply generic_format_0|rewrite Rabs_R0; apply bpow_gt_0]).
    unfold m, Rmax. destruct (Req_EM_T given 1); destruct (Rle_dec _ _); auto; [now apply float_opp|split; auto]. }
  assert (Nm : 0 <= m) by (unfold m; destruct (Req_EM_T given 1); apply Rmax_r).
  assert (E1 : fsub prec top (emax (Fi logits) (Fi 0)) (fmul prec top (Fi logits) (Fi given)) = Fi m).
  { unfold fmul. cbn [emul emax rounded]. assert (Fg : fmt (logits * given)) by (destruct G as [-> | ->]; [rewrite Rmult_0_r; apply generic_format_0|rewrite Rmult_1_r; exact F]).
    rewrite (near_id prec top) by exact Fg. rewrite overflow_small by (destruct G as [-> | ->]; [rewrite Rmult_0_r, Rabs_R0; apply bpow_gt_0|rewrite Rmult_1_r; exact B]).
    unfold fsub, esub. cbn [eneg eadd rounded]. replace (Rmax logits 0 + - (logits * given)) with m.
    - rewrite (near_id prec top) by apply Fm. apply overflow_small, Fm.
    - unfold m. destruct G as [-> | ->]; [destruct (Req_EM_T 0 1); [lra|]; ring|]. destruct (Req_EM_T 1 1); [|lra]. unfold Rmax. destruct (Rle_dec (- logits) 0), (Rle_dec logits 0); lra. }
  assert (Fa : float (- Rabs logits)) by (split; [apply fmt_opp; apply generic_format_abs; exact F|rewrite Rabs_Ropp, Rabs_Rabsolu; exact B]).
  destruct (lib_exp_spec prec top W libexp (- Rabs logits) FE Fa) as (Fe & Re & Ae & _); [pose proof (Rabs_pos logits); lra|]. set (e := libexp (- Rabs logits)) in *.
  assert (Fe' : float e) by (split; [exact Fe|apply (below_top prec top W); rewrite Rabs_pos_eq; lra]).
  assert (E2 : feexp top libexp (eneg (eabs (Fi logits))) = Fi e) by (cbn; apply overflow_small, Fe').
  pose proof (FL1 e Fe' ltac:(lra)) as Fl. set (y := liblog1p e) in *. pose proof (faithful_fmt prec top W _ _ _ Fl) as Fy. fold y in Fy.
  assert (R1 : 0 <= ln (1 + e) <= ln 2) by (split; [rewrite <- ln_1|]; apply ln_le'; lra).
  assert (l2 : ln 2 < 1) by (rewrite <- (ln_exp 1); apply ln_increasing; [lra|]; pose proof exp_1_big; lra).
  assert (Ry : 0 <= y <= 1).
  { split; [apply (faithful_ge prec top W _ _ _ _ Fl); [apply generic_format_0|lra]|apply (faithful_le prec top W _ _ _ _ Fl); [now apply fmt_1|lra]]. }
  assert (Ey : Rabs (y - ln (1 + e)) <= u).
  { destruct (Req_dec (ln (1 + e)) 0) as [Z|Z].
    - assert (y = 0) as ->; [|rewrite Z, Rminus_0_r, Rabs_R0; lra]. apply Rle_antisym; [|lra]. apply (faithful_le prec top W _ _ _ _ Fl); [apply generic_format_0|lra].
    - eapply Rle_trans; [apply (faithful_err prec top W _ _ _ Fl)|]. apply (ulp_unit prec top W). lra. }
  assert (E3 : felog1p top liblog1p (Fi e) = Fi y).
  { unfold felog1p. destruct (Rlt_dec (-1) e); [|lra]. apply overflow_small. apply (below_top prec top W). rewrite Rabs_pos_eq; lra. }
  pose proof W as (w1 & _). assert (P2 : 2 <= IZR prec) by (apply IZR_le; lia).
  destruct (add_back prec top W y m Fy Fm) as (v & V1 & V2 & V3 & V4 & _); [rewrite Rabs_pos_eq; lra|].
  exists (- v). unfold bernoulli_log_p. rewrite E1, E2, E3. assert (C : fadd prec top (Fi m) (Fi y) = fadd prec top (Fi y) (Fi m)) by (unfold fadd; cbn [eadd]; now rewrite Rplus_comm).
  rewrite C, V1. split; [reflexivity|]. split; [now apply float_opp|]. split; [specialize (V4 ltac:(lra)); lra|]. rewrite Rabs_Ropp.
  set (t := if Req_EM_T given 1 then - logits else logits). pose proof (exp_pos t) as Pt. rewrite ln_Rinv by lra.
  assert (X : ln (1 + exp t) = m + ln (1 + exp (- Rabs logits))).
  { assert (Y : forall z, ln (1 + exp z) = Rmax z 0 + ln (1 + exp (- Rabs z))).
    { intros z. destruct (Rle_or_lt 0 z) as [Hz|Hz].
      - rewrite Rabs_pos_eq, Rmax_left by lra. pose proof (exp_pos (- z)). pose proof (exp_pos z). rewrite <- (ln_exp z) at 2. rewrite <- ln_mult by lra. f_equal. rewrite Rmult_plus_distr_l, Rmult_1_r, <- exp_plus.
        replace (z + - z) with 0 by ring. rewrite exp_0. ring.
      - rewrite Rabs_left, Rmax_right by lra. rewrite Ropp_involutive. ring. }
    unfold t, m. destruct (Req_EM_T given 1); rewrite Y; rewrite ?Rabs_Ropp; reflexivity. }
  rewrite X. assert (Z : Rabs (ln (1 + e) - ln (1 + exp (- Rabs logits))) <= u).
  { pose proof (exp_pos (- Rabs logits)) as Pe. set (e0 := exp (- Rabs logits)) in *.
    assert (Q : forall x z, 0 <= x -> 0 <= z -> ln (1 + x) <= ln (1 + z) + Rabs (x - z)).
    { intros x z Hx Hz. apply ln_ratio; try lra. pose proof (exp_ineq1_le (Rabs (x - z))) as EI. pose proof (Rle_abs (x - z)). pose proof (Rabs_pos (x - z)). nra. }
    pose proof (Q e e0 ltac:(lra) ltac:(lra)). pose proof (Q e0 e ltac:(lra) ltac:(lra)) as Q2. rewrite (Rabs_minus_sym e0 e) in Q2. apply Rabs_le. lra. }
  apply Rabs_le_inv in V3, Ey, Z. apply Rabs_le. split; lra.
Qed.

(** ** Normal, from logstd: if the variance, the squared distance to the mean and their
    quotient are inside the range of the format, then nothing overflows and the result is
    accurate. *)
Theorem C59_normal mean logstd given : float mean -> float logstd -> float given ->
  let sigma := exp logstd in let q := ((given - mean) / sigma) ^ 2 / 2 in
  b (2 - top) <= sigma ^ 2 <= b (top - 3) -> (given - mean) ^ 2 <= b (top - 2) -> q <= b (top - 4) ->
  exists v, normal_log_p prec top libexp (Fi mean) (Fi logstd) (Fi given) = Fi v /\ float v /\
    Rabs (v - ln (standard_normal ((given - mean) / sigma) / sigma)) <= (12 * q + 3 * Rabs logstd + 6) * u.
Proof.
  intros (Fm & Bm) (Fl & Bl) (Fg & Bg) sigma q S D Q. pose proof (u_pos prec) as U. pose proof (u_eighth prec top A) as U8. pose proof (top_big prec top A) as TB. pose proof (top_bound prec top A) as TL.
  pose proof A as (_ & p3 & _). pose proof ln_2_le as L2. pose proof (exp_pos logstd) as Ps. fold sigma in Ps. set (E := exp (-2 * logstd)).
  assert (ES : E = / sigma ^ 2).
  { unfold E, sigma. replace (-2 * logstd) with (- (logstd + logstd)) by ring. rewrite exp_Ropp, exp_plus. f_equal. ring. }
  assert (RE : b (3 - top) <= E <= b (top - 2)).
  { rewrite ES. split; [replace (3 - top)%Z with (- (top - 3))%Z by lia|replace (top - 2)%Z with (- (2 - top))%Z by lia]; rewrite bpow_opp; apply Rinv_le; try apply S; [|apply bpow_gt_0]. apply pow_lt, Ps. }
  assert (Rl : Rabs logstd <= IZR top).
  { assert (I : -2 * logstd = ln E) by (unfold E; now rewrite ln_exp). assert (J : ln (b (3 - top)) <= ln E <= ln (b (top - 2))) by (split; apply ln_le'; try lra; try apply bpow_gt_0; pose proof (bpow_gt_0 radix2 (3 - top)); lra).
    rewrite !ln_bpow in J. rewrite !minus_IZR in J. assert (6 <= IZR top) by (apply IZR_le; lia). assert (IZR top * ln 2 <= IZR top) by nra. assert (0 <= IZR top * ln 2) by nra. apply Rabs_le. rewrite <- I in J. split; nra. }
  (* -2 * logstd *)
  assert (F2 : fmt (-2 * logstd)) by (replace (-2 * logstd) with (- (2 * logstd)) by ring; apply fmt_opp, fmt_twice; auto).
  assert (B2 : Rabs (-2 * logstd) < b top).
  { rewrite Rabs_mult, (Rabs_left (-2)) by lra. apply Rle_lt_trans with (b (top - 2)); [pose proof (Rabs_pos logstd); lra|apply bpow_lt; lia]. }
  assert (E1 : fmul prec top (Fi (-2)) (Fi logstd) = Fi (-2 * logstd)).
  { unfold fmul. cbn [emul rounded]. rewrite (near_id prec top) by exact F2. now apply overflow_small. }
  (* precision *)
  pose proof (FE (-2 * logstd) (conj F2 B2)) as FP. set (P := libexp (-2 * logstd)) in *. pose proof (faithful_fmt prec top W _ _ _ FP) as FmtP. fold P in FmtP.
  assert (RP : b (3 - top) <= P <= b (top - 2)).
  { split; [apply (faithful_ge prec top W _ _ _ _ FP)|apply (faithful_le prec top W _ _ _ _ FP)]; try (apply fmt_bpow; [exact W|lia]); apply RE. }
  pose proof (bpow_gt_0 radix2 (3 - top)) as B3.
  assert (EP : Rabs (P - E) <= 2 * u * E).
  { eapply Rle_trans; [apply (faithful_err prec top W _ _ _ FP)|]. change (exp (-2 * logstd)) with E. rewrite <- (Rabs_pos_eq E) at 2 by lra. rewrite <- (b_prec prec), Rmult_comm.
    apply (ulp_FLT_le radix2 (3 - top - prec) prec). rewrite Rabs_pos_eq by lra. apply Rle_trans with (b (3 - top)); [apply bpow_le; lia|apply RE]. }
  assert (E2 : feexp top libexp (Fi (-2 * logstd)) = Fi P).
  { cbn [feexp]. apply overflow_small. rewrite Rabs_pos_eq by lra. eapply Rle_lt_trans; [apply RP|]. apply bpow_lt. lia. }
  (* 0.5 * precision *)
  assert (FH : fmt (1 / 2 * P)) by (apply fmt_half; [exact FmtP|apply RP]). set (H := 1 / 2 * P) in *.
  assert (E3 : fmul prec top (Fi (1 / 2)) (Fi P) = Fi H).
  { unfold fmul. cbn [emul rounded]. fold H. rewrite (near_id prec top) by exact FH. apply overflow_small. rewrite Rabs_pos_eq by (unfold H; lra). apply Rle_lt_trans with (b (top - 2)); [unfold H; lra|apply bpow_lt; lia]. }
  (* given - mean *)
  set (d := given - mean) in *. pose proof (near_sub prec top W given mean Fg Fm) as Ed. fold d in Ed. set (d' := near d) in *.
  assert (N1 : 1 <= b (top - 2)) by (apply (bpow_le radix2 0); lia).
  assert (Bb : forall e, b (e + 1) = 2 * b e) by apply b_1. pose proof (Bb (top - 2)%Z) as B21. replace (top - 2 + 1)%Z with (top - 1)%Z in B21 by lia.
  pose proof (Bb (top - 4)%Z) as B43. replace (top - 4 + 1)%Z with (top - 3)%Z in B43 by lia. pose proof (Bb (top - 3)%Z) as B32. replace (top - 3 + 1)%Z with (top - 2)%Z in B32 by lia.
  assert (Ad : Rabs d <= b (top - 1)).
  { rewrite B21. pose proof (Rabs_pos d). assert (Rabs d * Rabs d <= b (top - 2)) by (rewrite <- Rabs_mult; apply Rabs_le; split; nra). destruct (Rle_or_lt (Rabs d) 1); nra. }
  assert (E4 : fsub prec top (Fi given) (Fi mean) = Fi d') by (unfold fsub, esub; cbn [eneg eadd]; apply (rounded_finite prec top W); exact Ad).
  assert (D2 : (1 - u) * (1 - u) * (d * d) <= d' * d' <= (1 + u) * (1 + u) * (d * d)).
  { assert (X : Rabs d' <= (1 + u) * Rabs d /\ (1 - u) * Rabs d <= Rabs d').
    { pose proof (Rabs_triang_inv d' d). pose proof (Rabs_triang_inv d d') as T2. rewrite (Rabs_minus_sym d d') in T2. split; lra. }
    assert (Q1 : forall z, z * z = Rabs z * Rabs z) by (intros z; rewrite <- Rabs_mult, Rabs_pos_eq; [reflexivity|apply Rle_0_sqr]). rewrite (Q1 d'), (Q1 d). pose proof (Rabs_pos d). pose proof (Rabs_pos d').
    split; [replace ((1 - u) * (1 - u) * (Rabs d * Rabs d)) with ((1 - u) * Rabs d * ((1 - u) * Rabs d)) by ring|replace ((1 + u) * (1 + u) * (Rabs d * Rabs d)) with ((1 + u) * Rabs d * ((1 + u) * Rabs d)) by ring]; apply Rmult_le_compat; try lra; apply Rmult_le_pos; lra. }
  (* squared *)
  assert (dd0 : 0 <= d * d) by apply Rle_0_sqr. assert (dd : d * d <= b (top - 2)) by (replace (d * d) with (d ^ 2) by ring; exact D).
  assert (d'd0 : 0 <= d' * d') by apply Rle_0_sqr.
  assert (d'd : d' * d' <= b (top - 1)) by nra.
  set (s := near (d' * d')). assert (E5 : fmul prec top (Fi d') (Fi d') = Fi s) by (unfold fmul; cbn [emul]; apply (rounded_finite prec top W); rewrite Rabs_pos_eq; lra).
  pose proof (near_err_half prec top A (d' * d')) as Es. fold s in Es. rewrite (Rabs_pos_eq (d' * d')) in Es by lra. set (eta := b (3 - top - prec) / 2) in *.
  assert (s0 : 0 <= s) by (apply near_nonneg; auto).
  (* product *)
  assert (He : H * eta <= u / 2).
  { apply Rle_trans with (1 / 2 * b (top - 2) * eta); [apply Rmult_le_compat_r; [unfold eta; pose proof (bpow_ge_0 radix2 (3 - top - prec)); lra|unfold H; lra]|]. unfold eta. replace (1 / 2 * b (top - 2) * (b (3 - top - prec) / 2)) with (1 / 4 * (b (top - 2) * b (3 - top - prec))) by field. rewrite <- bpow_plus. unfold unit_roundoff. replace (top - 2 + (3 - top - prec))%Z with (- prec + 1)%Z by lia. rewrite b_1. lra. }
  assert (qE : q = 1 / 2 * E * (d * d)). { unfold q. rewrite ES. field. lra. }
  assert (H0 : 0 < H) by (unfold H; lra). apply Rabs_le_inv in EP, Es.
  assert (q0 : 0 <= q) by (rewrite qE; apply Rmult_le_pos; lra).
  assert (HU : H * s <= q * ((1 + 2 * u) * (1 + u) * (1 + u) * (1 + u)) + u / 2).
  { apply Rle_trans with (H * ((1 + u) * (d' * d') + eta)); [apply Rmult_le_compat_l; lra|]. rewrite Rmult_plus_distr_l. apply Rplus_le_compat; [|exact He]. rewrite qE.
    apply Rle_trans with (1 / 2 * E * (1 + 2 * u) * ((1 + u) * ((1 + u) * (1 + u) * (d * d)))); [|right; ring].
    apply Rmult_le_compat; [lra|apply Rmult_le_pos; lra|unfold H; lra|]. apply Rmult_le_compat_l; lra. }
  assert (HL : q * ((1 - 2 * u) * (1 - u) * (1 - u) * (1 - u)) - u / 2 <= H * s).
  { apply Rle_trans with (H * ((1 - u) * (d' * d') - eta)); [|apply Rmult_le_compat_l; lra]. replace (H * ((1 - u) * (d' * d') - eta)) with (H * ((1 - u) * (d' * d')) - H * eta) by ring. apply Rplus_le_compat; [|lra]. rewrite qE.
    apply Rle_trans with (1 / 2 * E * (1 - 2 * u) * ((1 - u) * ((1 - u) * (1 - u) * (d * d)))); [right; ring|].
    apply Rmult_le_compat; [apply Rmult_le_pos; lra|apply Rmult_le_pos; [lra|]; apply Rmult_le_pos; [apply Rmult_le_pos; lra|lra]|unfold H; lra|]. apply Rmult_le_compat_l; lra. }
  set (c1 := (1 + 2 * u) * (1 + u) * (1 + u) * (1 + u)) in *. set (c2 := (1 - 2 * u) * (1 - u) * (1 - u) * (1 - u)) in *.
  assert (C1 : c1 <= 1 + 13 / 2 * u).
  { unfold c1. replace ((1 + 2 * u) * (1 + u) * (1 + u) * (1 + u)) with (1 + u * (5 + u * (9 + u * (7 + 2 * u)))) by ring. assert (u * (7 + 2 * u) <= 1) by nra. assert (u * (9 + u * (7 + 2 * u)) <= 10 / 8) by nra. nra. }
  assert (C2 : 1 - 13 / 2 * u <= c2).
  { unfold c2. replace ((1 - 2 * u) * (1 - u) * (1 - u) * (1 - u)) with (1 - u * (5 - u * (9 - u * (7 - 2 * u)))) by ring. assert (0 <= u * (7 - 2 * u) <= 1) by nra. assert (0 <= u * (9 - u * (7 - 2 * u))) by nra. nra. }
  assert (X1 : Rabs (H * s - q) <= 13 / 2 * u * q + u / 2). { clearbody c1 c2. apply Rabs_le. split; nra. }
  assert (hs0 : 0 <= H * s) by (apply Rmult_le_pos; lra). apply Rabs_le_inv in X1.
  assert (X2 : H * s <= 29 / 16 * q + 1 / 16) by nra.
  set (t := near (H * s)). assert (E6 : fmul prec top (Fi H) (Fi s) = Fi t).
  { unfold fmul; cbn [emul]; apply (rounded_finite prec top W). rewrite Rabs_pos_eq; lra. }
  pose proof (near_err_half prec top A (H * s)) as Et. fold t eta in Et. rewrite (Rabs_pos_eq (H * s)) in Et by lra. assert (Eeta : eta <= u / 4) by (unfold eta; pose proof (eta_small prec top W); lra).
  assert (t0 : 0 <= t) by (apply near_nonneg; auto).
  assert (tb : t <= b (top - 2)).
  { apply near_le_fmt; [exact W|apply fmt_bpow; [exact W|lia]|]. lra. }
  apply Rabs_le_inv in Et. assert (X2' : u * (H * s) <= u * (29 / 16 * q + 1 / 16)) by (apply Rmult_le_compat_l; lra). assert (uq : 0 <= u * q) by (apply Rmult_le_pos; lra).
  assert (X3 : Rabs (t - q) <= (9 * q + 2) * u) by (apply Rabs_le; split; lra).
  (* c - logstd *)
  set (c := - (1 / 2) * ln (2 * PI)). assert (Rc : Rabs c <= 1).
  { unfold c. pose proof ln_2pi. apply Rabs_le. lra. }
  destruct (constant_spec prec top A c Rc) as (c' & Ec & Fc & Rc' & Ac & _). set (k := near (c' - logstd)).
  assert (Bk : Rabs (c' - logstd) <= b (top - 2)).
  { unfold Rminus. eapply Rle_trans; [apply Rabs_triang|]. rewrite Rabs_Ropp. assert (0 <= IZR top) by (apply IZR_le; lia). lra. }
  assert (E7 : fsub prec top (Fi c') (Fi logstd) = Fi k) by (unfold fsub, esub; cbn [eneg eadd]; apply (rounded_finite prec top W); unfold Rminus in Bk; lra).
  assert (Kb : Rabs k <= b (top - 2)) by (apply near_bpow; [exact W|lia|exact Bk]).
  pose proof (near_sub prec top W c' logstd Fc Fl) as Ek. fold k in Ek.
  assert (Tr : Rabs (c' - logstd) <= 1 + Rabs logstd) by (unfold Rminus; eapply Rle_trans; [apply Rabs_triang|]; rewrite Rabs_Ropp; lra).
  pose proof (Rabs_pos logstd) as Pl.
  assert (X4 : Rabs (k - (c - logstd)) <= (5 / 2 + Rabs logstd) * u).
  { replace (k - (c - logstd)) with (k - (c' - logstd) + (c' - c)) by ring. eapply Rle_trans; [apply Rabs_triang|]. assert (u * Rabs (c' - logstd) <= u * (1 + Rabs logstd)) by (apply Rmult_le_compat_l; lra). lra. }
  assert (Fk : fmt k) by apply near_fmt, W. assert (Ft : fmt t) by apply near_fmt, W.
  assert (Bv : Rabs (k - t) <= b (top - 1)) by (unfold Rminus; eapply Rle_trans; [apply Rabs_triang|]; rewrite Rabs_Ropp, (Rabs_pos_eq t) by lra; lra).
  destruct (float_near prec top A (k - t) Bv) as (E8 & F8). exists (near (k - t)). split; [|split; [exact F8|]].
  - unfold normal_log_p. rewrite E1, E2, E3, E4, E5, E6. fold c. rewrite Ec, E7. exact E8.
  - assert (Ex : ln (standard_normal (d / sigma) / sigma) = c - logstd - q).
    { unfold standard_normal. assert (0 < sqrt (2 * PI)) by (apply sqrt_lt_R0; pose proof PI_RGT_0; lra). pose proof (exp_pos (- (d / sigma * (d / sigma)) / 2)) as PE.
      assert (0 < / sqrt (2 * PI)) by now apply Rinv_0_lt_compat. assert (0 < / sigma) by now apply Rinv_0_lt_compat.
      unfold Rdiv at 1. rewrite ln_mult, ln_Rinv by (auto; now apply Rmult_lt_0_compat). rewrite ln_mult, ln_Rinv, ln_exp by auto. unfold sigma at 3. rewrite ln_exp.
      unfold c, q. replace (2 * PI) with (sqrt (2 * PI) * sqrt (2 * PI)) at 2 by (apply sqrt_def; pose proof PI_RGT_0; lra). rewrite ln_mult by auto. field. lra. }
    rewrite Ex. pose proof (near_sub prec top W k t Fk Ft) as Ev. set (v := near (k - t)) in *.
    assert (X5 : Rabs (k - t) <= 9 / 8 * (1 + Rabs logstd) + (17 / 8 * q + 1 / 4)).
    { unfold Rminus. eapply Rle_trans; [apply Rabs_triang|]. rewrite Rabs_Ropp, (Rabs_pos_eq t) by lra. apply Rplus_le_compat.
      - apply Rle_trans with ((1 + u) * Rabs (c' - logstd)); [|apply Rmult_le_compat; try lra; apply Rabs_pos]. pose proof (Rabs_triang_inv k (c' - logstd)). lra.
      - apply Rabs_le_inv in X3. assert (u * (9 * q + 2) <= 1 / 8 * (9 * q + 2)) by (apply Rmult_le_compat_r; lra). lra. }
    replace (v - (c - logstd - q)) with (v - (k - t) + (k - (c - logstd)) + - (t - q)) by ring.
    eapply Rle_trans; [apply Rabs_triang|]. rewrite Rabs_Ropp. eapply Rle_trans; [apply Rplus_le_compat_r, Rabs_triang|].
    assert (u * Rabs (k - t) <= u * (9 / 8 * (1 + Rabs logstd) + (17 / 8 * q + 1 / 4))) by (apply Rmult_le_compat_l; lra). assert (0 <= u * Rabs logstd) by (apply Rmult_le_pos; lra). lra.
Qed.

(** From std: tf.log(std) is rounded too, so the error also grows with the logarithm of
    std times the squared distance in units of std. *)
Theorem C59_normal_std mean std given : float mean -> float std -> float given -> 0 < std ->
  let q := ((given - mean) / std) ^ 2 / 2 in let L := Rabs (ln std) in
  b (3 - top) <= std ^ 2 <= b (top - 4) -> (given - mean) ^ 2 <= b (top - 2) -> q <= b (top - 5) -> 16 * u * L <= 1 ->
  exists v, normal_log_p_std prec top libexp liblog (Fi mean) (Fi std) (Fi given) = Fi v /\ float v /\
    Rabs (v - ln (standard_normal ((given - mean) / std) / std)) <= ((26 + 8 * L) * q + 5 * L + 8) * u.
Proof.
  intros Fm Fs Fg P q L S D Q UL. pose proof (u_pos prec) as U. pose proof (u_eighth prec top A) as U8. pose proof (top_big prec top A) as TB. pose proof A as (_ & p3 & _).
  destruct (log_any prec top A liblog std FL Fs P) as (E1 & F1 & B1 & A1). fold L in A1. set (l := liblog std) in *.
  assert (Fl : float l). { split; [exact F1|]. eapply Rle_lt_trans; [exact B1|]. pose proof (top_bound prec top A). apply Rle_lt_trans with (b (top - 2)); [lra|apply bpow_lt; lia]. }
  set (th := 2 * (ln std - l)). assert (L0 : 0 <= L) by apply Rabs_pos. assert (uL0 : 0 <= u * L) by (apply Rmult_le_pos; lra).
  assert (Th : Rabs th <= (4 * L + 1) * u). { unfold th. rewrite Rabs_mult, (Rabs_pos_eq 2), Rabs_minus_sym by lra. lra. }
  assert (Th2 : Rabs th <= 1 / 2) by lra. 
  assert (X : forall x, Rabs x <= 1 / 2 -> 1 - Rabs x <= exp x <= 1 + 2 * Rabs x).
  { intros x Hx. pose proof (exp_ineq1_le x). apply Rabs_le_inv in Hx as Hx'. split; [pose proof (Rle_abs (- x)) as R; rewrite Rabs_Ropp in R; lra|].
    apply Rle_trans with (exp (Rabs x)); [apply exp_le, Rle_abs|]. apply exp_upper. pose proof (Rabs_pos x). lra. }
  pose proof (X th Th2) as Xt. pose proof (X (- th) ltac:(rewrite Rabs_Ropp; exact Th2)) as Xm. rewrite Rabs_Ropp in Xm.
  assert (P2 : 0 < std ^ 2) by now apply pow_lt.
  assert (S' : exp l ^ 2 = std ^ 2 * exp (- th)).
  { replace (exp l ^ 2) with (exp (l + l)) by (rewrite exp_plus; ring). replace (std ^ 2) with (exp (ln std + ln std)) by (rewrite exp_plus, exp_ln by exact P; ring). rewrite <- exp_plus. f_equal. unfold th. ring. }
  pose proof (exp_pos l) as Pl.
  assert (Q' : ((given - mean) / exp l) ^ 2 / 2 = q * exp th).
  { unfold q. replace (((given - mean) / exp l) ^ 2 / 2) with ((given - mean) ^ 2 / 2 / exp l ^ 2) by (field; lra). rewrite S', exp_Ropp. pose proof (exp_pos th). field. split; lra. }
  assert (q0 : 0 <= q) by (unfold q; pose proof (pow2_ge_0 ((given - mean) / std)); lra).
  assert (Bb : forall e, b (e + 1) = 2 * b e) by apply b_1.
  destruct (C59_normal mean l given Fm Fl Fg) as (v & V1 & V2 & V3).
  - rewrite S'. pose proof (Bb (2 - top)%Z) as B0. replace (2 - top + 1)%Z with (3 - top)%Z in B0 by lia. pose proof (Bb (top - 4)%Z) as B1'. replace (top - 4 + 1)%Z with (top - 3)%Z in B1' by lia.
    pose proof (bpow_gt_0 radix2 (2 - top)). split.
    + apply Rle_trans with (b (3 - top) * (1 / 2)); [lra|]. apply Rmult_le_compat; lra.
    + apply Rle_trans with (b (top - 4) * 2); [|lra]. apply Rmult_le_compat; lra.
  - exact D.
  - rewrite Q'. pose proof (Bb (top - 5)%Z) as B0. replace (top - 5 + 1)%Z with (top - 4)%Z in B0 by lia. apply Rle_trans with (b (top - 5) * 2); [|lra]. apply Rmult_le_compat; lra.
  - exists v. split; [unfold normal_log_p_std; rewrite E1; exact V1|]. split; [exact V2|]. rewrite Q' in V3.
    assert (Ex : forall s, 0 < s -> ln (standard_normal ((given - mean) / s) / s) = - ln (sqrt (2 * PI)) - ln s - ((given - mean) / s) ^ 2 / 2).
    { intros s Hs. unfold standard_normal. assert (0 < sqrt (2 * PI)) by (apply sqrt_lt_R0; pose proof PI_RGT_0; lra). pose proof (exp_pos (- ((given - mean) / s * ((given - mean) / s)) / 2)) as PE.
      assert (0 < / sqrt (2 * PI)) by now apply Rinv_0_lt_compat. assert (0 < / s) by now apply Rinv_0_lt_compat.
      unfold Rdiv at 1. rewrite ln_mult, ln_Rinv by (auto; now apply Rmult_lt_0_compat). rewrite ln_mult, ln_Rinv, ln_exp by auto. field. lra. }
    rewrite Ex in V3 by exact Pl. rewrite Ex by exact P. rewrite ln_exp, Q' in V3. fold q.
    assert (Al : Rabs l <= L + 1 / 4).
    { pose proof (Rabs_triang_inv l (ln std)) as T. fold L in T. lra. }
    assert (R1 : q * exp th <= 2 * q). { rewrite (Rmult_comm 2). apply Rmult_le_compat_l; lra. }
    assert (R2 : Rabs (q * exp th - q) <= q * (2 * ((4 * L + 1) * u))).
    { replace (q * exp th - q) with (q * (exp th - 1)) by ring. rewrite Rabs_mult, (Rabs_pos_eq q) by exact q0. apply Rmult_le_compat_l; [exact q0|]. pose proof (Rabs_pos th). apply Rabs_le. lra. }
    assert (R3 : (12 * (q * exp th) + 3 * Rabs l + 6) * u <= (24 * q + 3 * L + 7) * u) by (apply Rmult_le_compat_r; lra).
    apply Rabs_le_inv in V3, A1, R2. apply Rabs_le. split; lra.
Qed.
(** With logstd so small that 1 / std^2 exceeds the range (float16: std < 2^-8, float32: std <
    2^-64) the result is NaN at the mean and not finite anywhere. *)
Theorem C59_normal_overflow mean logstd given : float mean -> float logstd -> float given -> b top <= exp (-2 * logstd) ->
  let r := normal_log_p prec top libexp (Fi mean) (Fi logstd) (Fi given) in (r = NaN \/ r = MInf) /\ (given = mean -> r = NaN).
Proof.
  intros (Fm & Bm) (Fl & Bl) (Fg & Bg) H. pose proof (top_big prec top A) as TB. pose proof A as (_ & p3 & _). pose proof (u_pos prec).
  assert (T1 : 1 < b top) by (apply (bpow_lt radix2 0); lia). assert (Nl : logstd < 0).
  { destruct (Rlt_or_le logstd 0) as [N|N]; [exact N|]. assert (exp (-2 * logstd) <= exp 0) by (apply exp_le; lra). rewrite exp_0 in *. lra. }
  assert (Pr : feexp top libexp (fmul prec top (Fi (-2)) (Fi logstd)) = PInf).
  { assert (F2 : fmt (-2 * logstd)) by (replace (-2 * logstd) with (- (2 * logstd)) by ring; apply fmt_opp, fmt_twice; auto).
    unfold fmul. cbn [emul rounded]. rewrite (near_id prec top) by exact F2. unfold overflow at 1. destruct (Rlt_dec _ _) as [B2|B2].
    - cbn [feexp]. pose proof (faithful_ge prec top W _ _ _ (b top) (FE _ (conj F2 B2)) ltac:(apply fmt_bpow; [exact W|lia]) H) as G. unfold overflow. rewrite Rabs_pos_eq by lra.
      destruct (Rlt_dec _ _); [lra|]. destruct (Rlt_dec _ _); [reflexivity|lra].
    - destruct (Rlt_dec _ _); [reflexivity|lra]. }
  destruct (constant_spec prec top A (- (1 / 2) * ln (2 * PI))) as (c' & Ec & Fc & Rc & _ & Nc); [pose proof ln_2pi; apply Rabs_le; lra|].
  assert (K : exists k, fsub prec top (Fi c') (Fi logstd) = Fi k).
  { exists (near (c' - logstd)). unfold fsub, esub. cbn [eneg eadd rounded]. change (c' + - logstd) with (c' - logstd). apply overflow_small. specialize (Nc ltac:(pose proof ln_2pi; lra)). rewrite Rabs_left in Bl by exact Nl. apply Rabs_le_inv in Rc.
    assert (near (c' - logstd) <= - logstd) by (apply near_le_fmt; [exact W|now apply fmt_opp|lra]).
    assert (-1 <= near (c' - logstd)) by (apply near_ge_fmt; [exact W|apply fmt_opp; now apply fmt_1|lra]). apply Rabs_lt. lra. }
  destruct K as (k & K). unfold normal_log_p. rewrite Pr, Ec, K. assert (HI : fmul prec top (Fi (1 / 2)) PInf = PInf) by (unfold fmul; cbn; destruct (Rlt_dec 0 (1 / 2)); [reflexivity|lra]). rewrite HI.
  assert (Sq : forall d, d <> NaN -> (exists s, 0 <= s /\ fmul prec top d d = Fi s) \/ fmul prec top d d = PInf).
  { intros [d| | |] N; try (now right). unfold fmul. cbn [emul rounded]. pose proof (near_nonneg prec top W (d * d) (Rle_0_sqr d)) as Nn. unfold overflow. destruct (Rlt_dec _ _); [left; eauto|right].
    destruct (Rlt_dec _ _); [reflexivity|]. exfalso. assert (Z : near (d * d) = 0) by lra. rewrite Z, Rabs_R0 in *. pose proof (bpow_gt_0 radix2 top). lra. }
  split.
  - destruct (Sq (fsub prec top (Fi given) (Fi mean))) as [(s & S0 & ->)| ->].
    + unfold fsub, esub. cbn [eneg eadd]. destruct (rounded_cases prec top A (given + - mean)) as [(v & -> & _)|[-> | ->]]; discriminate.
    + unfold fmul. cbn [emul]. destruct (Rlt_dec 0 s); [now right|]. destruct (Rlt_dec s 0); [lra|now left].
    + now right.
  - intros ->. unfold fsub at 2 3, esub. cbn [eneg eadd]. rewrite Rplus_opp_r. cbn [rounded]. rewrite (near_id prec top 0) by apply generic_format_0.
    assert (O0 : overflow top 0 = Fi 0) by (apply overflow_small; rewrite Rabs_R0; apply bpow_gt_0). rewrite O0. unfold fmul. cbn [emul]. rewrite Rmult_0_r. cbn [rounded]. rewrite (near_id prec top 0) by apply generic_format_0.
    rewrite O0. cbn [emul]. destruct (Rlt_dec 0 0); [lra|]. reflexivity.
Qed.
(** In every format there is such a logstd; the exact log density at the mean is an
    ordinary number. *)
Theorem C59_normal_refuted : exists logstd, float logstd /\
  (forall mean, float mean -> normal_log_p prec top libexp (Fi mean) (Fi logstd) (Fi mean) = NaN) /\
  forall mean, 0 <= ln (standard_normal ((mean - mean) / exp logstd) / exp logstd) <= IZR top.
Proof.
  destruct (fmt_top prec top W A) as (Ft & T1 & T2). pose proof (top_big prec top A) as TB. pose proof A as (_ & p3 & _). assert (T6 : 6 <= IZR top) by (apply IZR_le; lia). pose proof ln_2_le as L2.
  assert (Fl : float (- IZR top)).
  { split; [now apply fmt_opp|]. rewrite Rabs_Ropp, Rabs_pos_eq by lra. eapply Rle_lt_trans; [exact T2|]. apply bpow_lt. lia. }
  exists (- IZR top). split; [exact Fl|]. split.
  - intros mean Fm. apply C59_normal_overflow; auto. rewrite (bpow_exp radix2 top). apply exp_le. cbn [radix_val radix2]. nra.
  - intros mean. replace ((mean - mean) / exp (- IZR top)) with 0 by (field; apply Rgt_not_eq, exp_pos). unfold standard_normal. replace (- (0 * 0) / 2) with 0 by field. rewrite exp_0, Rmult_1_r.
    assert (P : 0 < sqrt (2 * PI)) by (apply sqrt_lt_R0; pose proof PI_RGT_0; lra). unfold Rdiv. rewrite exp_Ropp, Rinv_inv. rewrite ln_mult, ln_Rinv, ln_exp by (auto using exp_pos, Rinv_0_lt_compat).
    assert (E : ln (2 * PI) = 2 * ln (sqrt (2 * PI))). { rewrite <- (sqrt_def (2 * PI)) at 1 by (pose proof PI_RGT_0; lra). rewrite ln_mult by auto. ring. }
    pose proof ln_2pi. lra.
Qed.

(** ** Laplace *)
Theorem C59_laplace loc scale given : float loc -> float scale -> float given -> 0 < scale ->
  let q := Rabs (given - loc) / scale in let L := Rabs (ln scale) in
  Rabs (given - loc) <= b (top - 1) -> q <= b (top - 3) ->
  exists v, laplace_log_p prec top liblog (Fi loc) (Fi scale) (Fi given) = Fi v /\ float v /\
    Rabs (v - ln (/ (2 * scale) * exp (- q))) <= (5 * q + 6 * L + 6) * u.
Proof.
  intros (Fo & Bo) Fs (Fg & Bg) P q L D Q. pose proof (u_pos prec) as U. pose proof (u_eighth prec top A) as U8. pose proof (top_big prec top A) as TB. pose proof (top_bound prec top A) as TL. pose proof A as (_ & p3 & _).
  pose proof ln_2_le as L2. destruct (log_any prec top A liblog scale FL Fs P) as (E1 & F1 & B1 & A1). fold L in A1. set (l := liblog scale) in *.
  assert (L0 : 0 <= L) by apply Rabs_pos. assert (uL : 0 <= u * L) by (apply Rmult_le_pos; lra). assert (Is : 0 < / scale) by now apply Rinv_0_lt_compat. 
  assert (q0 : 0 <= q) by (apply Rmult_le_pos; [apply Rabs_pos|lra]). assert (uq : 0 <= u * q) by (apply Rmult_le_pos; lra).
  set (d := given - loc) in *. pose proof (near_sub prec top W given loc Fg Fo) as Ed. fold d in Ed. set (d' := near d) in *.
  assert (E2 : fsub prec top (Fi given) (Fi loc) = Fi d') by (unfold fsub, esub; cbn [eneg eadd]; apply (rounded_finite prec top W); exact D).
  assert (Dd : Rabs (Rabs d' - Rabs d) <= u * Rabs d) by (eapply Rle_trans; [apply Rabs_triang_inv2|exact Ed]).
  set (q1 := Rabs d' / scale). assert (Q1 : Rabs (q1 - q) <= u * q).
  { unfold q1, q. replace (Rabs d' / scale - Rabs d / scale) with ((Rabs d' - Rabs d) * / scale) by (field; lra). rewrite Rabs_mult, (Rabs_pos_eq (/ scale)) by lra. unfold Rdiv. rewrite <- Rmult_assoc. apply Rmult_le_compat_r; lra. }
  apply Rabs_le_inv in Q1. assert (uq8 : u * q <= 1 / 8 * q) by (apply Rmult_le_compat_r; lra).
  assert (q10 : 0 <= q1) by lra. assert (Bb : forall e, b (e + 1) = 2 * b e) by apply b_1. pose proof (Bb (top - 3)%Z) as B32. replace (top - 3 + 1)%Z with (top - 2)%Z in B32 by lia.
  pose proof (Bb (top - 2)%Z) as B21. replace (top - 2 + 1)%Z with (top - 1)%Z in B21 by lia. pose proof (bpow_gt_0 radix2 (top - 3)).
  set (t := near q1). assert (E3 : fdiv prec top (Fi (Rabs d')) (Fi scale) = Fi t) by (rewrite fdiv_fi by lra; fold q1; apply (rounded_finite prec top W); rewrite Rabs_pos_eq; lra).
  pose proof (near_err_half prec top A q1) as Et. fold t in Et. rewrite (Rabs_pos_eq q1) in Et by lra. pose proof (eta_small prec top W) as Eeta.
  assert (t0 : 0 <= t) by (apply near_nonneg; auto). assert (tb : t <= b (top - 2)) by (apply near_le_fmt; [exact W|apply fmt_bpow; [exact W|lia]|lra]).
  assert (uq1 : u * q1 <= u * (9 / 8 * q)) by (apply Rmult_le_compat_l; lra).
  assert (X3 : Rabs (t - q) <= (3 * q + 1) * u) by (apply Rabs_le_inv in Et; apply Rabs_le; split; lra).
  destruct (constant_spec prec top A (- ln 2)) as (c' & Ec & Fc & Rc & Ac & _); [apply Rabs_le; lra|].
  set (k := near (c' - l)). assert (Tr : Rabs (c' - l) <= 1 + Rabs l) by (unfold Rminus; eapply Rle_trans; [apply Rabs_triang|]; rewrite Rabs_Ropp; lra).
  assert (E4 : fsub prec top (Fi c') (Fi l) = Fi k) by (unfold fsub, esub; cbn [eneg eadd]; apply (rounded_finite prec top W); unfold Rminus in Tr; lra).
  assert (Kb : Rabs k <= b (top - 2)) by (apply near_bpow; [exact W|lia|lra]). pose proof (near_sub prec top W c' l Fc F1) as Ek. fold k in Ek.
  assert (Al : Rabs l <= 5 / 4 * L + 1 / 16). { pose proof (Rabs_triang_inv l (ln scale)) as T. fold L in T. assert (u * L <= 1 / 8 * L) by (apply Rmult_le_compat_r; lra). lra. }
  assert (uc : u * Rabs (c' - l) <= u * (5 / 4 * L + 17 / 16)) by (apply Rmult_le_compat_l; lra).
  assert (X4 : Rabs (k - (- ln 2 - ln scale)) <= (13 / 4 * L + 25 / 8) * u).
  { replace (k - (- ln 2 - ln scale)) with (k - (c' - l) + (c' - - ln 2) + - (l - ln scale)) by ring. eapply Rle_trans; [apply Rabs_triang|]. rewrite Rabs_Ropp. eapply Rle_trans; [apply Rplus_le_compat_r, Rabs_triang|]. lra. }
  assert (Fk : fmt k) by apply near_fmt, W. assert (Ft : fmt t) by apply near_fmt, W.
  assert (Bv : Rabs (k - t) <= b (top - 1)) by (unfold Rminus; eapply Rle_trans; [apply Rabs_triang|]; rewrite Rabs_Ropp, (Rabs_pos_eq t) by lra; lra).
  destruct (float_near prec top A (k - t) Bv) as (E8 & F8). exists (near (k - t)). split; [|split; [exact F8|]].
  - unfold laplace_log_p. rewrite Ec, E1, E2. cbn [eabs]. rewrite E3, E4. exact E8.
  - assert (Ex : ln (/ (2 * scale) * exp (- q)) = - ln 2 - ln scale - q).
    { rewrite ln_mult, ln_exp, ln_Rinv, ln_mult by (try apply exp_pos; try apply Rinv_0_lt_compat; lra). ring. }
    rewrite Ex. pose proof (near_sub prec top W k t Fk Ft) as Ev. set (v := near (k - t)) in *.
    assert (X5 : Rabs (k - t) <= 9 / 8 * (5 / 4 * L + 17 / 16) + (11 / 8 * q + 1 / 8)).
    { unfold Rminus. eapply Rle_trans; [apply Rabs_triang|]. rewrite Rabs_Ropp, (Rabs_pos_eq t) by lra. apply Rplus_le_compat.
      - apply Rle_trans with ((1 + u) * Rabs (c' - l)); [|apply Rmult_le_compat; try lra; apply Rabs_pos]. pose proof (Rabs_triang_inv k (c' - l)). lra.
      - apply Rabs_le_inv in X3. assert (u * (3 * q + 1) <= 1 / 8 * (3 * q + 1)) by (apply Rmult_le_compat_r; lra). lra. }
    replace (v - (- ln 2 - ln scale - q)) with (v - (k - t) + (k - (- ln 2 - ln scale)) + - (t - q)) by ring.
    eapply Rle_trans; [apply Rabs_triang|]. rewrite Rabs_Ropp. eapply Rle_trans; [apply Rplus_le_compat_r, Rabs_triang|].
    assert (u * Rabs (k - t) <= u * (9 / 8 * (5 / 4 * L + 17 / 16) + (11 / 8 * q + 1 / 8))) by (apply Rmult_le_compat_l; lra). lra.
Qed.

(** ** Uniform: minus the logarithm of the width inside the interval, minus infinity outside. *)
Theorem C59_uniform lo hi given : float lo -> float hi -> b (2 - top) <= hi - lo <= b (top - 2) ->
  (lo <= given < hi -> exists v, uniform_log_p prec top liblog (Fi lo) (Fi hi) (Fi given) = Fi v /\ float v /\
     Rabs (v - ln (/ (hi - lo))) <= (2 * Rabs (ln (hi - lo)) + 5) * u) /\
  (~ lo <= given < hi -> uniform_log_p prec top liblog (Fi lo) (Fi hi) (Fi given) = MInf).
Proof.
  intros (Flo & Blo) (Fhi & Bhi) D. pose proof (u_pos prec) as U. pose proof (u_eighth prec top A) as U8. pose proof (top_big prec top A) as TB. pose proof A as (_ & p3 & _).
  set (w := hi - lo) in *. pose proof (bpow_gt_0 radix2 (2 - top)) as P0. pose proof (near_sub prec top W hi lo Fhi Flo) as Ew. fold w in Ew. rewrite (Rabs_pos_eq w) in Ew by lra. set (w' := near w) in *. apply Rabs_le_inv in Ew.
  assert (Bb : forall e, b (e + 1) = 2 * b e) by apply b_1. pose proof (Bb (top - 2)%Z) as B21. replace (top - 2 + 1)%Z with (top - 1)%Z in B21 by lia.
  assert (E1 : fsub prec top (Fi hi) (Fi lo) = Fi w') by (unfold fsub, esub; cbn [eneg eadd]; apply (rounded_finite prec top W); fold (hi - lo); fold w; rewrite Rabs_pos_eq; lra).
  assert (Rw : b (2 - top) <= w' <= b (top - 2)) by (split; [apply near_ge_fmt|apply near_le_fmt]; try exact W; try (apply fmt_bpow; [exact W|lia]); lra).
  set (p := near (/ w')). assert (Ri : b (2 - top) <= / w' <= b (top - 2)).
  { split; [replace (2 - top)%Z with (- (top - 2))%Z by lia|replace (top - 2)%Z with (- (2 - top))%Z by lia]; rewrite bpow_opp; apply Rinv_le; lra. }
  assert (E2 : fdiv prec top (Fi 1) (Fi w') = Fi p) by (rewrite fdiv_fi by lra; unfold Rdiv; rewrite Rmult_1_l; apply (rounded_finite prec top W); rewrite Rabs_pos_eq; lra).
  assert (Rp : b (2 - top) <= p <= b (top - 2)) by (split; [apply near_ge_fmt|apply near_le_fmt]; try exact W; try (apply fmt_bpow; [exact W|lia]); lra).
  assert (Fp : float p). { split; [apply near_fmt, W|]. rewrite Rabs_pos_eq by lra. eapply Rle_lt_trans; [apply Rp|]. apply bpow_lt. lia. }
  assert (Mul : forall g, g = 0 \/ g = 1 -> fmul prec top (Fi p) (Fi g) = Fi (p * g)).
  { intros g Hg. unfold fmul. cbn [emul rounded]. assert (X : float (p * g)) by (destruct Hg as [-> | ->]; [rewrite Rmult_0_r; split; [apply generic_format_0|rewrite Rabs_R0; apply bpow_gt_0]|rewrite Rmult_1_r; exact Fp]).
    rewrite (near_id prec top) by apply X. apply overflow_small, X. }
  unfold uniform_log_p, uniform_p. rewrite E1, E2. cbn [eleb eltb]. split.
  - intros (G1 & G2). destruct (Rle_dec lo given); [|lra]. destruct (Rlt_dec given hi); [|lra]. cbn [andb]. rewrite Mul, Rmult_1_r by auto. destruct (log_any prec top A liblog p FL Fp ltac:(lra)) as (L1 & L2 & L3 & L4).
    exists (liblog p). split; [exact L1|]. split; [split; [exact L2|]|].
    + eapply Rle_lt_trans; [exact L3|]. pose proof (top_bound prec top A). apply Rle_lt_trans with (b (top - 2)); [lra|apply bpow_lt; lia].
    + assert (NB : b (3 - top - prec + prec - 1) <= Rabs (/ w')) by (rewrite Rabs_pos_eq by lra; eapply Rle_trans; [|apply Ri]; apply bpow_le; lia).
      pose proof (relative_error_N_FLT radix2 (3 - top - prec) prec (prec_pos prec top W) (fun z => negb (Z.even z)) (/ w') NB) as X.
      change (round radix2 (FLT_exp (3 - top - prec) prec) ZnearestE (/ w')) with p in X. rewrite half_bpow, (Rabs_pos_eq (/ w')) in X by lra. apply Rabs_le_inv in X.
      assert (Ln : forall x y, 0 < x -> 0 < y -> - (u * x) <= y - x <= u * x -> Rabs (ln y - ln x) <= 8 / 7 * u).
      { intros x y Hx Hy H. pose proof (exp_ineq1_le (8 / 7 * u)) as EI. apply Rabs_le. assert (Y1 : ln y <= ln x + 8 / 7 * u).
        { apply ln_ratio; auto. apply Rle_trans with (x * (1 + 8 / 7 * u)); [assert (0 <= u * x) by (apply Rmult_le_pos; lra); lra|apply Rmult_le_compat_l; lra]. }
        assert (Y2 : ln x <= ln y + 8 / 7 * u).
        { apply ln_ratio; auto. apply Rle_trans with (y * (1 + 8 / 7 * u)); [|apply Rmult_le_compat_l; lra].
          assert (u * y >= u * (x * (1 - u))) by (apply Rle_ge, Rmult_le_compat_l; lra). assert (0 <= u * x * (1 / 8 - u)) by (apply Rmult_le_pos; [apply Rmult_le_pos; lra|lra]). lra. }
        lra. }
      assert (D1 : Rabs (ln p - - ln w) <= 16 / 7 * u).
      { replace (ln p - - ln w) with ((ln p - ln (/ w')) + - (ln w' - ln w)) by (rewrite ln_Rinv by lra; ring). eapply Rle_trans; [apply Rabs_triang|]. rewrite Rabs_Ropp.
        pose proof (Ln (/ w') p ltac:(lra) ltac:(lra) ltac:(lra)). pose proof (Ln w w' ltac:(lra) ltac:(lra) ltac:(lra)). lra. }
      rewrite ln_Rinv by lra. assert (D2 : Rabs (ln p) <= Rabs (ln w) + 16 / 7 * u) by (pose proof (Rabs_triang_inv (ln p) (- ln w)) as T; rewrite Rabs_Ropp in T; lra).
      replace (liblog p - - ln w) with ((liblog p - ln p) + (ln p - - ln w)) by ring. eapply Rle_trans; [apply Rabs_triang|].
      assert (u * Rabs (ln p) <= u * (Rabs (ln w) + 16 / 7 * u)) by (apply Rmult_le_compat_l; lra). assert (u * u <= u * (1 / 8)) by (apply Rmult_le_compat_l; lra). lra.
  - intros N. assert (Z : (if (if Rle_dec lo given then true else false) && (if Rlt_dec given hi then true else false) then Fi 1 else Fi 0) = Fi 0).
    { destruct (Rle_dec lo given), (Rlt_dec given hi); try reflexivity. exfalso. apply N. split; assumption. }
    rewrite Z, Mul, Rmult_0_r by auto. cbn. destruct (Rlt_dec 0 0); [lra|]. destruct (Req_EM_T 0 0); [reflexivity|lra].
Qed.
(** If the width overflows, the log density is minus infinity on the whole interval. *)
Theorem C59_uniform_overflow lo hi given : float lo -> float hi -> fsub prec top (Fi hi) (Fi lo) = PInf ->
  uniform_log_p prec top liblog (Fi lo) (Fi hi) (Fi given) = MInf.
Proof.
  intros _ _ E. unfold uniform_log_p, uniform_p. rewrite E. unfold fdiv. cbn [ediv2 rounded]. rewrite (near_id prec top 0) by apply generic_format_0.
  assert (O0 : overflow top 0 = Fi 0) by (apply overflow_small; rewrite Rabs_R0; apply bpow_gt_0). rewrite O0.
  assert (Z : forall c : bool, fmul prec top (Fi 0) (if c then Fi 1 else Fi 0) = Fi 0).
  { intros []; unfold fmul; cbn [emul rounded]; rewrite Rmult_0_l, (near_id prec top 0) by apply generic_format_0; exact O0. }
  rewrite Z. cbn. destruct (Rlt_dec 0 0); [lra|]. destruct (Req_EM_T 0 0); [reflexivity|lra].
Qed.

(** ** Categorical and OnehotCategorical *)
Notation finite_logits := (Forall (fun e => exists x, e = Fi x /\ float x /\ Rabs x <= b (top - 2))).
Theorem C59_categorical p l m i x : finite_logits l -> largest l m -> (Z.of_nat (length l) <= 2 ^ prec)%Z -> adds_up p (length l) -> nth_error l i = Some (Fi x) ->
  exists v, categorical_log_p prec top libexp liblog p l i = Fi v /\ float v /\ v <= 0 /\
    Rabs (v - ln (exp x / exp_sum l)) <= (3 * (m - x) + 7 * INR (length l)) * u.
Proof.
  intros H M N P I. destruct (C58_log_softmax prec top libexp liblog A FE FL p l m H M N P) as (Len & S). destruct (S i x I) as (v & V1 & V2 & V3 & V4).
  exists v. split; [|split; [exact V2|split; [exact V3|]]].
  - unfold categorical_log_p. rewrite eneg_fsub. unfold log_softmax in V1. rewrite nth_error_map in V1. destruct (nth_error (fshifted prec top l) i) as [y|] eqn:Y; [|discriminate].
    rewrite (nth_error_nth _ _ _ Y). cbn [option_map] in V1. injection V1 as V1. exact V1.
  - replace (ln (exp x / exp_sum l)) with (x - ln (exp_sum l)); [exact V4|]. pose proof (exp_sum_pos l m (proj1 M)). unfold Rdiv. rewrite ln_mult, ln_Rinv, ln_exp by (try apply exp_pos; try apply Rinv_0_lt_compat; lra). ring.
Qed.
(** OnehotCategorical gives exactly the same number at the one-hot vector. *)
Theorem C59_onehot p p' l m i x given : finite_logits l -> largest l m -> (Z.of_nat (length l) <= 2 ^ prec)%Z -> adds_up p (length l) -> adds_up p' (length l) -> nth_error l i = Some (Fi x) ->
  length given = length l -> (forall j, (j < length l)%nat -> nth_error given j = Some (Fi (if Nat.eqb j i then 1 else 0))) ->
  onehot_log_p prec top libexp liblog p p' l given = categorical_log_p prec top libexp liblog p l i.
Proof.
  intros H M N P P' I Lg G. destruct (C58_log_softmax prec top libexp liblog A FE FL p l m H M N P) as (Len & S).
  assert (Li : (i < length l)%nat) by (apply nth_error_Some; congruence). unfold onehot_log_p, categorical_log_p. set (s := felog top liblog (fsum prec top p (map (feexp top libexp) (fshifted prec top l)))).
  assert (T : forall j, (j < length l)%nat -> exists y v, nth_error (fshifted prec top l) j = Some y /\ fsub prec top s y = Fi v /\ float v).
  { intros j Hj. destruct (nth_error l j) as [e|] eqn:E; [|apply nth_error_None in E; lia]. rewrite Forall_forall in H. destruct (H e (nth_error_In _ _ E)) as (z & -> & _). destruct (S j z E) as (v & V1 & V2 & _).
    unfold log_softmax in V1. fold s in V1. rewrite nth_error_map in V1. destruct (nth_error (fshifted prec top l) j) as [y|]; [|discriminate]. cbn in V1. injection V1 as V1.
    exists y, (- v). split; [reflexivity|]. split; [|now apply float_opp]. rewrite <- eneg_fsub, V1. reflexivity. }
  destruct (T i Li) as (yi & w & Yi & Wi & Fw). f_equal. rewrite (nth_error_nth _ _ _ Yi), Wi.
  set (r := map _ _). assert (Lr : length r = length l) by (unfold r; rewrite map_length, combine_length, Lg; unfold fshifted; rewrite map_length; lia).
  rewrite (sum_single prec top w i r Fw).
  - destruct (in_dec Nat.eq_dec i (entries p')) as [_|X]; [reflexivity|]. exfalso. apply X. apply (Permutation_in _ (Permutation_sym P')). apply in_seq. lia.
  - intros j Hj. rewrite Lr in Hj. destruct (T j Hj) as (y & v & Y & V & Fv). assert (C : nth_error (combine given (fshifted prec top l)) j = Some (Fi (if Nat.eqb j i then 1 else 0), y)).
    { specialize (G j Hj). revert G. generalize (if Nat.eqb j i then 1 else 0). intros g0 G. clear - G Y. revert j G Y. generalize (fshifted prec top l). induction given as [|g gs IH]; intros [|k ks] [|j] G Y; cbn in *; try discriminate; [congruence|now apply IH]. }
    unfold r. rewrite nth_error_map, C. cbn [option_map fst snd]. f_equal. rewrite V. unfold fmul. cbn [emul rounded]. destruct (Nat.eqb_spec j i) as [->|Nj].
    + assert (v = w) as -> by congruence. rewrite Rmult_1_l, (near_id prec top) by apply Fw. apply overflow_small, Fw.
    + rewrite Rmult_0_l, (near_id prec top) by apply generic_format_0. apply overflow_small. rewrite Rabs_R0. apply bpow_gt_0.
  - apply (Permutation_NoDup (Permutation_sym P')), seq_NoDup.
  - intros j Hj. apply (Permutation_in _ P') in Hj. apply in_seq in Hj. lia.
Qed.
(** A logit of minus infinity (a category of probability 0) makes OnehotCategorical give
    NaN at every other category, where Categorical is right. *)
Lemma sum_nan l i p : In i (entries p) -> nth i l NaN = NaN -> fsum prec top p l = NaN.
Proof.
  intros H E. induction p as [|j|p IHp q IHq]; cbn [entries fsum] in *; [destruct H|destruct H as [->|[]]; exact E|]. apply in_app_or in H as [H|H].
  - now rewrite IHp by exact H.
  - rewrite IHq by exact H. now destruct (fsum prec top p l).
Qed.
Theorem C59_onehot_refuted p p' : adds_up p 2 -> adds_up p' 2 ->
  onehot_log_p prec top libexp liblog p p' [Fi 0; MInf] [Fi 1; Fi 0] = NaN /\ categorical_log_p prec top libexp liblog p [Fi 0; MInf] 0 = Fi 0.
Proof.
  intros P P'. assert (F0 : float 0) by (split; [apply generic_format_0|rewrite Rabs_R0; apply bpow_gt_0]). assert (F1 : float 1) by (split; [now apply fmt_1|apply (below_top prec top W); rewrite Rabs_R1; lra]).
  assert (O0 : overflow top 0 = Fi 0) by (apply overflow_small; rewrite Rabs_R0; apply bpow_gt_0).
  assert (Sh : fshifted prec top [Fi 0; MInf] = [Fi 0; MInf]).
  { assert (M : reduce_max [Fi 0; MInf] = Fi 0) by reflexivity. unfold fshifted. rewrite M. cbn [map]. unfold fsub, esub. cbn [eneg eadd rounded]. rewrite Ropp_0, Rplus_0_r, (near_id prec top 0), O0 by apply generic_format_0. reflexivity. }
  assert (E1 : map (feexp top libexp) [Fi 0; MInf] = [Fi 1; Fi 0]).
  { cbn [map feexp]. destruct (lib_exp_spec prec top W libexp 0 FE F0 (Rle_refl 0)) as (_ & _ & _ & Z). rewrite (Z eq_refl). rewrite overflow_small by apply F1. reflexivity. }
  assert (S : fsum prec top p [Fi 1; Fi 0] = Fi 1).
  { rewrite (sum_single prec top 1 0 [Fi 1; Fi 0] F1).
    - destruct (in_dec Nat.eq_dec 0%nat (entries p)) as [_|X]; [reflexivity|]. exfalso. apply X, (Permutation_in _ (Permutation_sym P)). now left.
    - intros [|[|j]] H; cbn in *; [reflexivity|reflexivity|lia].
    - apply (Permutation_NoDup (Permutation_sym P)), seq_NoDup.
    - intros j Hj. apply (Permutation_in _ P) in Hj. apply in_seq in Hj. cbn. lia. }
  assert (L : felog top liblog (Fi 1) = Fi 0).
  { pose proof (FL 1 F1 ltac:(lra)) as F. assert (liblog 1 = 0) as Z by (apply Rle_antisym; [apply (faithful_le prec top W _ _ _ _ F)|apply (faithful_ge prec top W _ _ _ _ F)]; try apply generic_format_0; rewrite ln_1; lra).
    cbn. destruct (Rlt_dec 0 1); [|lra]. now rewrite Z. }
  unfold onehot_log_p, categorical_log_p. rewrite Sh, E1, S, L. split.
  - assert (X : fsum prec top p' (map (fun q => fmul prec top (fst q) (fsub prec top (Fi 0) (snd q))) (combine [Fi 1; Fi 0] [Fi 0; MInf])) = NaN); [|now rewrite X].
    apply (sum_nan _ 1); [apply (Permutation_in _ (Permutation_sym P')); right; now left|]. cbn [combine map nth fst snd]. unfold fsub, esub, fmul. cbn [eneg eadd rounded emul]. destruct (Rlt_dec 0 0); [lra|]. reflexivity.
  - cbn [nth]. unfold fsub, esub. cbn [eneg eadd rounded]. rewrite Ropp_0, Rplus_0_r, (near_id prec top 0), O0 by apply generic_format_0. cbn. now rewrite Ropp_0.
Qed.
End Statements.

(** The hypotheses: any of TensorFlow's formats with correctly rounded functions, and a
    float16 Normal far in its tail. *)
Example C59_library prec top : ample prec top ->
  faithful_exp prec top (fun x => nearest prec top (exp x)) /\ faithful_log prec top (fun x => nearest prec top (ln x)) /\ faithful_log1p prec top (fun x => nearest prec top (ln (1 + x))).
Proof. intros A. repeat split; intros x; intros; apply round_DN_or_UP; apply valid_rnd_N. Qed.
Lemma float16_int n : (0 <= n <= 2048)%Z -> is_float 11 16 (IZR n).
Proof.
  intros H. assert (W : wide 11 16) by (unfold wide; repeat split; try lia; reflexivity). split; [apply fmt_int; [exact W|exact H]|]. rewrite Rabs_pos_eq by (apply IZR_le; lia).
  apply Rle_lt_trans with (IZR 2048); [apply IZR_le; lia|]. cbn. lra.
Qed.
Example C59_case : ample 11 16 /\ is_float 11 16 3 /\ is_float 11 16 0 /\ is_float 11 16 40 /\ is_float 11 16 100 /\
  bpow radix2 (2 - 16) <= exp 0 ^ 2 <= bpow radix2 (16 - 3) /\ (40 - 3) ^ 2 <= bpow radix2 (16 - 2) /\ ((40 - 3) / exp 0) ^ 2 / 2 <= bpow radix2 (16 - 4) /\
  bpow radix2 (3 - 16) <= 3 ^ 2 <= bpow radix2 (16 - 4) /\ ((40 - 3) / 3) ^ 2 / 2 <= bpow radix2 (16 - 5) /\ 16 * unit_roundoff 11 * Rabs (ln 3) <= 1 /\
  Rabs (40 - 3) / 3 <= bpow radix2 (16 - 3) /\ bpow radix2 (2 - 16) <= 100 - 3 <= bpow radix2 (16 - 2) /\
  Forall (fun e => exists x, e = Fi x /\ is_float 11 16 x /\ Rabs x <= bpow radix2 (16 - 2)) [Fi 3; Fi 100; Fi 0] /\ largest [Fi 3; Fi 100; Fi 0] 100 /\ adds_up (Plus (Entry 2) (Plus (Entry 0) (Entry 1))) 3.
Proof.
  rewrite exp_0. split; [unfold ample, wide; repeat split; try lia; reflexivity|]. repeat (split; [first [apply (float16_int 3); lia | apply (float16_int 0); lia | apply (float16_int 40); lia | apply (float16_int 100); lia]|]).
  assert (L : 0 <= ln 3 <= 2) by (pose proof (ln_le_sub 3); split; [rewrite <- ln_1; apply ln_le'; lra|lra]).
  split; [cbn; split; lra|]. split; [cbn; lra|]. split; [cbn; lra|]. split; [cbn; split; lra|]. split; [cbn; lra|]. split; [rewrite Rabs_pos_eq by lra; unfold unit_roundoff; cbn; lra|].
  split; [rewrite Rabs_pos_eq by lra; cbn; lra|]. split; [cbn; split; lra|]. split; [|split].
  - apply Forall_forall. intros e [<-|[<-|[<-|[]]]]; eexists; (split; [reflexivity|]); (split; [first [apply (float16_int 3); lia | apply (float16_int 0); lia | apply (float16_int 100); lia]|]); rewrite Rabs_pos_eq by lra; cbn; lra.
  - split; [right; now left|]. intros x [[= <-]|[[= <-]|[[= <-]|[]]]]; lra.
  - unfold adds_up. cbn. apply Permutation_sym. apply (Permutation_app_comm [0%nat; 1%nat] [2%nat]).
Qed.

Print Assumptions C59_bernoulli.
Print Assumptions C59_normal.
Print Assumptions C59_normal_std.
Print Assumptions C59_normal_overflow.
Print Assumptions C59_normal_refuted.
Print Assumptions C59_laplace.
Print Assumptions C59_uniform.
Print Assumptions C59_uniform_overflow.
Print Assumptions C59_categorical.
Print Assumptions C59_onehot.
Print Assumptions C59_onehot_refuted.
