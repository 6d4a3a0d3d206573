(** Lemmas for C64. *)
From Coq Require Import List Arith Bool Reals ZArith Lra Lia Permutation.
From Flocq Require Import Core.
From Verif Require Import ModelExt ModelSpecial ModelNum ModelFloat ModelFloatSample ModelAIS ModelFloatAIS SpecFloat SpecFloatImportance SpecFloatAIS ProofFloat ProofFloatSample ProofFloatDensity ProofFloatTune ProofFloatSGMCMC ProofFloatMass ProofFloatImportance PropFloat PropFloatSample.
Import ListNotations.
Local Open Scope R_scope.

Section Proofs.
Variables prec top : Z.
Hypothesis A : ample prec top.
Let W : wide prec top := proj1 A.
Notation u := (unit_roundoff prec).
Notation float := (is_float prec top).
Notation fmt := (generic_format radix2 (fexpo prec top)).
Notation near := (nearest prec top).
Notation b e := (bpow radix2 e).

(** ** The schedule *)
Section Schedule.
Variable libexp : R -> R.
Hypothesis FE : faithful_exp prec top libexp.
Hypothesis P12 : (12 <= prec)%Z.
Lemma u_small : u <= 1 / 4096.
Proof. unfold unit_roundoff. replace (1 / 4096) with (b (-12)) by (cbn; lra). apply bpow_le. lia. Qed.
Lemma exp_4 : 16 <= exp 4 <= 81 /\ / 81 <= exp (-4) <= / 16.
Proof.
  pose proof exp_le_3 as E3. pose proof (exp_1_big) as E2. assert (E : exp 4 = exp 1 * exp 1 * (exp 1 * exp 1)) by (rewrite <- !exp_plus; f_equal; lra). assert (H : 16 <= exp 4 <= 81).
  { rewrite E. assert (4 <= exp 1 * exp 1 <= 9) by nra. nra. }
  split; [exact H|]. replace (exp (-4)) with (/ exp 4) by (rewrite <- exp_Ropp; f_equal; lra). split; apply Rinv_le; lra.
Qed.
(** The argument of the exponential. *)
Definition arg (n t : nat) : R := near (-4 * near (near (2 * INR t / INR n) - 1)).
Definition power_of (n t : nat) : R := libexp (arg n t).
Definition place (n t : nat) : R := near (1 / near (1 + power_of n t)).
Variable n : nat.
Hypothesis N : (0 < n)%nat.
Lemma quotient_range t : (t <= n)%nat -> 0 <= 2 * INR t / INR n <= 2.
Proof.
  intros H. assert (0 < INR n) by (apply lt_0_INR; lia). apply le_INR in H. pose proof (pos_INR t). split; [apply Rmult_le_pos; [lra|left; now apply Rinv_0_lt_compat]|]. apply (Rmult_le_reg_r (INR n)); [lra|]. unfold Rdiv. rewrite Rmult_assoc, Rinv_l; lra.
Qed.
Lemma arg_spec t : (t <= n)%nat -> float (arg n t) /\ Rabs (arg n t) <= 4 /\ Rabs (arg n t - -4 * (2 * INR t / INR n - 1)) <= 8 * u /\
  fmul prec top (Fi (-4)) (fsub prec top (fdivn prec top (Fi (2 * INR t)) n) (Fi 1)) = Fi (arg n t).
Proof.
  intros T. pose proof (top_big prec top A) as TB. pose proof (quotient_range t T) as Q. set (q := 2 * INR t / INR n) in *. assert (n0 : INR n <> 0) by (apply not_0_INR; lia).
  assert (Q1 : Rabs q <= b 1) by (change (b 1) with 2; apply Rabs_le; lra). pose proof (near_binade prec top A q 1 ltac:(lia) Q1) as D1. change (b 1) with 2 in D1, Q1.
  assert (a0 : 0 <= near q) by (apply (near_ge_fmt prec top W); [apply generic_format_0|lra]). assert (a2 : near q <= 2) by (apply (near_le_fmt prec top W); [change 2 with (b 1); apply (fmt_bpow prec top W); lia|lra]). set (a := near q) in *.
  assert (S1 : Rabs (a - 1) <= b 0) by (change (b 0) with 1; apply Rabs_le; lra). pose proof (near_binade prec top A _ 0 ltac:(lia) S1) as D2. destruct (fsub_near prec top A a 1 0 ltac:(lia) ltac:(lia) S1) as (E2 & F2 & B2). change (b 0) with 1 in D2, B2. set (s := near (a - 1)) in *.
  assert (Y1 : Rabs (-4 * s) <= b 2) by (rewrite Rabs_mult, (Rabs_left (-4)) by lra; change (b 2) with 4; lra). pose proof (near_binade prec top A _ 2 ltac:(lia) Y1) as D3. destruct (fmul_near prec top A (-4) s 2 ltac:(lia) ltac:(lia) Y1) as (E3 & F3 & B3). change (b 2) with 4 in D3, B3.
  change (arg n t) with (near (-4 * s)). split; [exact F3|]. split; [exact B3|]. split.
  - replace (near (-4 * s) - -4 * (q - 1)) with ((near (-4 * s) - -4 * s) + -4 * ((s - (a - 1)) + (a - q))) by ring. eapply Rle_trans; [apply Rabs_triang|]. rewrite (Rabs_mult (-4)), (Rabs_left (-4)) by lra. pose proof (Rabs_triang (s - (a - 1)) (a - q)). lra.
  - assert (E1 : fdivn prec top (Fi (2 * INR t)) n = Fi a). { unfold fdivn. cbn [ediv]. destruct (Req_EM_T (INR n) 0); [contradiction|]. cbn [rounded]. fold q. apply (overflow_small top). fold a. rewrite Rabs_pos_eq by lra. eapply Rle_lt_trans; [exact a2|]. change 2 with (b 1). apply bpow_lt. lia. }
    rewrite E1, E2. exact E3.
Qed.
Lemma power_spec t : (t <= n)%nat -> float (power_of n t) /\ 0 <= power_of n t <= 128 /\ Rabs (power_of n t - exp (-4 * (2 * INR t / INR n - 1))) <= 20 * u * exp (-4 * (2 * INR t / INR n - 1)) /\
  feexp top libexp (Fi (arg n t)) = Fi (power_of n t).
Proof.
  intros T. pose proof (top_big prec top A) as TB. pose proof u_small as US. assert (U : 0 < u) by apply u_pos. destruct (arg_spec t T) as (F & B & D & _). set (y := arg n t) in *. set (z := -4 * (2 * INR t / INR n - 1)) in *. pose proof (FE y F) as FY. fold (power_of n t) in *. destruct exp_4 as (E4 & E4').
  apply Rabs_le_inv in B. assert (Ey : / 81 <= exp y <= 81) by (split; [eapply Rle_trans; [apply E4'|]|eapply Rle_trans; [|apply E4]]; apply exp_le; lra).
  assert (P0 : 0 <= libexp y) by (apply (faithful_ge prec top W libexp exp y 0 FY); [apply generic_format_0|lra]). assert (P1 : libexp y <= 128) by (apply (faithful_le prec top W libexp exp y 128 FY); [change 128 with (b 7); apply (fmt_bpow prec top W); lia|lra]).
  assert (OV : Rabs (libexp y) < b top) by (rewrite Rabs_pos_eq by lra; eapply Rle_lt_trans; [exact P1|]; change 128 with (b 7); apply bpow_lt; lia).
  change (power_of n t) with (libexp y). split; [split; [exact (faithful_fmt prec top W _ _ _ FY)|exact OV]|]. split; [lra|]. split; [|cbn [feexp]; now apply (overflow_small top)].
  pose proof (faithful_err prec top W _ _ _ FY) as ER. pose proof (ulp_bound prec top W (exp y)) as UB. rewrite (Rabs_pos_eq (exp y)) in UB by lra. assert (ET : b (3 - top - prec) <= u * / 256) by (replace (3 - top - prec)%Z with (- prec + (3 - top))%Z by lia; rewrite bpow_plus; apply Rmult_le_compat_l; [lra|]; change (/ 256) with (b (-8)); apply bpow_le; lia).
  assert (ER' : Rabs (libexp y - exp y) <= 3 * u * exp y) by nra.
  apply Rabs_le_inv in D. assert (Z1 : exp y <= exp z * (1 + 16 * u)). { pose proof (exp_le y (z + 8 * u) ltac:(lra)) as X. rewrite exp_plus in X. pose proof (exp_chord (8 * u) ltac:(lra)). pose proof (exp_pos z). nra. }
  assert (Z2 : exp z * (1 - 16 * u) <= exp y). { pose proof (exp_le (z + - (8 * u)) y ltac:(lra)) as X. rewrite exp_plus in X. pose proof (exp_ineq1_le (- (8 * u))). pose proof (exp_pos z). nra. }
  pose proof (exp_pos z) as Z0. replace (libexp y - exp z) with ((libexp y - exp y) + (exp y - exp z)) by ring. eapply Rle_trans; [apply Rabs_triang|]. assert (Rabs (exp y - exp z) <= 16 * u * exp z) by (apply Rabs_le; lra).
  assert (u * exp y <= u * (exp z * (1 + 16 * u))) by (apply Rmult_le_compat_l; lra). assert (u * (exp z * (1 + 16 * u)) <= u * (exp z * (65 / 64))) by (apply Rmult_le_compat_l; [lra|]; apply Rmult_le_compat_l; lra). assert (0 < u * exp z) by (apply Rmult_lt_0_compat; lra). lra.
Qed.
Lemma place_spec t : (t <= n)%nat -> fmap_t prec top libexp n t = Fi (place n t) /\ float (place n t) /\ 0 <= place n t <= 1 /\ Rabs (place n t - map_t n (INR t)) <= 26 * u.
Proof.
  intros T. pose proof (top_big prec top A) as TB. pose proof u_small as US. assert (U : 0 < u) by apply u_pos. destruct (arg_spec t T) as (_ & _ & _ & EA). destruct (power_spec t T) as (FP & BP & DP & EP). set (e := power_of n t) in *. unfold map_t. set (z := exp (-4 * (2 * INR t / INR n - 1))) in *. assert (Z0 : 0 < z) by apply exp_pos.
  assert (D1 : Rabs (1 + e) <= b 8) by (change (b 8) with 256; rewrite Rabs_pos_eq; lra). destruct (fadd_near prec top A 1 e 8 ltac:(lia) ltac:(lia) D1) as (E1 & F1 & _). destruct (factor_add prec top A 1 e (proj1 (float_1 prec top A)) (proj1 FP)) as (f & Ef & Hf). rewrite Rmult_1_l in Hf. apply Rabs_le_inv in Hf.
  assert (d1 : 1 <= near (1 + e)) by (apply (near_ge_fmt prec top W); [apply (float_1 prec top A)|lra]). set (d := near (1 + e)) in *. assert (Ri : 0 < / d <= 1) by (split; [apply Rinv_0_lt_compat; lra|rewrite <- Rinv_1; apply Rinv_le; lra]).
  assert (D2 : Rabs (1 / d) <= b 0) by (change (b 0) with 1; unfold Rdiv; rewrite Rmult_1_l, Rabs_pos_eq; lra). pose proof (near_binade prec top A _ 0 ltac:(lia) D2) as D3. change (b 0) with 1 in D2, D3. change (place n t) with (near (1 / d)).
  assert (v0 : 0 <= near (1 / d)) by (apply (near_ge_fmt prec top W); [apply generic_format_0|unfold Rdiv; lra]). assert (v1 : near (1 / d) <= 1) by (apply (near_le_fmt prec top W); [apply (float_1 prec top A)|unfold Rdiv; lra]).
  assert (OV : Rabs (near (1 / d)) < b top) by (rewrite Rabs_pos_eq by lra; eapply Rle_lt_trans; [exact v1|]; change 1 with (b 0); apply bpow_lt; lia).
  split; [|split; [split; [apply (near_fmt prec top W)|exact OV]|split; [lra|]]].
  - unfold fmap_t. rewrite EA, EP, E1, fdiv_fi by lra. cbn [rounded]. now apply (overflow_small top).
  - assert (DD : Rabs (d - (1 + z)) <= 22 * u * (1 + z)).
    { rewrite Ef. replace ((1 + e) * f - (1 + z)) with ((e - z) + (1 + e) * (f - 1)) by ring. eapply Rle_trans; [apply Rabs_triang|]. rewrite Rabs_mult, (Rabs_pos_eq (1 + e)) by lra. assert (Rabs (f - 1) <= u) by (apply Rabs_le; lra). assert (e <= z + 20 * u * z) by (apply Rabs_le_inv in DP; lra).
      assert ((1 + e) * Rabs (f - 1) <= (1 + (z + 20 * u * z)) * u) by (apply Rmult_le_compat; try lra; apply Rabs_pos). assert (20 * u * z * u <= u * z) by (assert (0 < u * z) by (apply Rmult_lt_0_compat; lra); nra). nra. }
    assert (Q : Rabs (1 / d - 1 / (1 + z)) <= 25 * u).
    { replace (1 / d - 1 / (1 + z)) with (- ((d - (1 + z)) * / (1 + z) * / d)) by (field; lra). rewrite Rabs_Ropp, !Rabs_mult, (Rabs_pos_eq (/ d)), (Rabs_pos_eq (/ (1 + z))) by (left; apply Rinv_0_lt_compat; lra).
      assert (X : Rabs (d - (1 + z)) * / (1 + z) <= 22 * u). { apply (Rmult_le_reg_r (1 + z)); [lra|]. rewrite Rmult_assoc, Rinv_l by lra. lra. } assert (0 <= Rabs (d - (1 + z)) * / (1 + z)) by (apply Rmult_le_pos; [apply Rabs_pos|left; apply Rinv_0_lt_compat; lra]). nra. }
    replace (near (1 / d) - 1 / (1 + z)) with ((near (1 / d) - 1 / d) + (1 / d - 1 / (1 + z))) by ring. eapply Rle_trans; [apply Rabs_triang|]. lra.
Qed.
Lemma span_big : 15 / 17 <= map_t n (INR n) - map_t n (INR 0) /\ map_t n (INR 0) <= 1 / 17.
Proof.
  assert (n0 : INR n <> 0) by (apply not_0_INR; lia). unfold map_t. replace (-4 * (2 * INR n / INR n - 1)) with (-4) by (field; assumption). replace (-4 * (2 * INR 0 / INR n - 1)) with 4 by (cbn; field; assumption). destruct exp_4 as (E4 & E4').
  assert (1 / (1 + exp 4) <= 1 / 17) by (unfold Rdiv; rewrite !Rmult_1_l; apply Rinv_le; lra). assert (16 / 17 <= 1 / (1 + exp (-4))) by (replace (16 / 17) with (/ (1 + / 16)) by field; unfold Rdiv; rewrite Rmult_1_l; apply Rinv_le; lra). lra.
Qed.
Definition temper (t : nat) : R := near (near (place n t - place n 0) / near (place n n - place n 0)).
Lemma sub_place t : (t <= n)%nat -> fsub prec top (Fi (place n t)) (Fi (place n 0)) = Fi (near (place n t - place n 0)) /\ Rabs (near (place n t - place n 0)) <= 1 /\ fmt (near (place n t - place n 0)) /\
  Rabs (near (place n t - place n 0) - (map_t n (INR t) - map_t n (INR 0))) <= 53 * u.
Proof.
  intros T. pose proof (top_big prec top A) as TB. assert (U : 0 < u) by apply u_pos. destruct (place_spec t T) as (_ & Ft & Rt & Dt). destruct (place_spec 0 ltac:(lia)) as (_ & F0 & R0' & D0). assert (B1 : Rabs (place n t - place n 0) <= b 0) by (change (b 0) with 1; apply Rabs_le; lra).
  destruct (fsub_near prec top A _ _ 0 ltac:(lia) ltac:(lia) B1) as (E & F & B). pose proof (near_binade prec top A _ 0 ltac:(lia) B1) as D. change (b 0) with 1 in B, D. split; [exact E|]. split; [exact B|]. split; [apply F|]. apply Rabs_le_inv in Dt, D0, D. apply Rabs_le. lra.
Qed.
Lemma denominator : 6 / 7 <= near (place n n - place n 0).
Proof. destruct (sub_place n (le_n n)) as (_ & _ & _ & D). pose proof u_small. destruct span_big as (S & _). apply Rabs_le_inv in D. lra. Qed.
Lemma temper_spec t : (t <= n)%nat -> fschedule_t prec top libexp n t = Fi (temper t) /\ float (temper t) /\ Rabs (temper t - schedule_t n (INR t)) <= 128 * u.
Proof.
  intros T. pose proof (top_big prec top A) as TB. assert (U : 0 < u) by apply u_pos. pose proof u_small as US. destruct (sub_place t T) as (E1 & B1 & _ & D1). destruct (sub_place n (le_n n)) as (E2 & B2 & _ & D2). pose proof denominator as DN. destruct span_big as (S1 & S2).
  set (x := near (place n t - place n 0)) in *. set (d := near (place n n - place n 0)) in *. assert (Id : 0 < / d <= 7 / 6) by (split; [apply Rinv_0_lt_compat; lra|replace (7 / 6) with (/ (6 / 7)) by field; apply Rinv_le; lra]).
  assert (Bx : Rabs (x / d) <= b 1) by (change (b 1) with 2; unfold Rdiv; rewrite Rabs_mult, (Rabs_pos_eq (/ d)) by lra; pose proof (Rabs_pos x); nra). pose proof (near_binade prec top A _ 1 ltac:(lia) Bx) as D3. pose proof (near_bpow prec top W _ 1 ltac:(lia) Bx) as B3.
  assert (OV : Rabs (near (x / d)) < b top) by (eapply Rle_lt_trans; [exact B3|]; apply bpow_lt; lia). change (b 1) with 2 in D3.
  assert (M : 0 <= map_t n (INR t) - map_t n (INR 0) <= map_t n (INR n) - map_t n (INR 0)).
  { assert (n0 : 0 < / INR n) by (apply Rinv_0_lt_compat, lt_0_INR; lia). assert (MM : forall a c, a <= c -> map_t n a <= map_t n c). { intros a c H. unfold map_t, Rdiv. rewrite !Rmult_1_l. pose proof (exp_pos (-4 * (2 * c * / INR n - 1))). apply Rinv_le; [lra|]. assert (a * / INR n <= c * / INR n) by (apply Rmult_le_compat_r; lra). apply Rplus_le_compat_l, exp_le. lra. }
    pose proof (MM (INR 0) (INR t) ltac:(apply le_INR; lia)). pose proof (MM (INR t) (INR n) ltac:(apply le_INR; lia)). lra. }
  change (temper t) with (near (x / d)). split; [|split; [split; [apply (near_fmt prec top W)|exact OV]|]].
  - unfold fschedule_t. rewrite (proj1 (place_spec t T)), (proj1 (place_spec n (le_n n))), (proj1 (place_spec 0 (Nat.le_0_l n))). rewrite E1, E2, fdiv_fi by (fold d; lra). cbn [rounded]. now apply (overflow_small top).
  - unfold schedule_t. change 0 with (INR 0) at 1 2. set (a := map_t n (INR t) - map_t n (INR 0)) in *. set (c := map_t n (INR n) - map_t n (INR 0)) in *.
    assert (Q : Rabs (x / d - a / c) <= 124 * u).
    { replace (x / d - a / c) with (((x - a) + a / c * (c - d)) * / d) by (field; lra). rewrite Rabs_mult, (Rabs_pos_eq (/ d)) by lra. assert (ac : 0 <= a / c <= 1) by (split; [apply Rmult_le_pos; [lra|left; apply Rinv_0_lt_compat; lra]|apply (Rmult_le_reg_r c); [lra|]; unfold Rdiv; rewrite Rmult_assoc, Rinv_l; lra]).
      assert (Rabs ((x - a) + a / c * (c - d)) <= 106 * u). { eapply Rle_trans; [apply Rabs_triang|]. rewrite Rabs_mult, (Rabs_pos_eq (a / c)), (Rabs_minus_sym c) by lra. assert (a / c * Rabs (d - c) <= 1 * (53 * u)) by (apply Rmult_le_compat; try lra; apply Rabs_pos). lra. }
      apply Rle_trans with (106 * u * (7 / 6)); [apply Rmult_le_compat; try lra; apply Rabs_pos|lra]. }
    replace (near (x / d) - a / c) with ((near (x / d) - x / d) + (x / d - a / c)) by ring. eapply Rle_trans; [apply Rabs_triang|]. lra.
Qed.
Lemma temper_ends : temper 0 = 0 /\ temper n = 1.
Proof.
  pose proof denominator as DN. unfold temper. replace (place n 0 - place n 0) with 0 by ring. rewrite (near_0 prec top). split; [unfold Rdiv; rewrite Rmult_0_l; apply near_0|]. set (d := near (place n n - place n 0)) in *. replace (d / d) with 1 by (field; lra). apply (near_id prec top), (float_1 prec top A).
Qed.
Lemma temper_order t t' : order_preserving prec top libexp -> (t <= t')%nat -> (t' <= n)%nat -> temper t <= temper t'.
Proof.
  intros O H T. assert (Q : 2 * INR t / INR n <= 2 * INR t' / INR n) by (apply le_INR in H; apply Rmult_le_compat_r; [left; apply Rinv_0_lt_compat, lt_0_INR; lia|lra]).
  assert (Y : arg n t' <= arg n t). { unfold arg. apply (near_le prec top W). pose proof (near_le prec top W _ _ Q) as Q1. assert (Q2 : near (near (2 * INR t / INR n) - 1) <= near (near (2 * INR t' / INR n) - 1)) by (apply (near_le prec top W); lra). lra. }
  pose proof (O _ _ (proj1 (arg_spec t' T)) (proj1 (arg_spec t ltac:(lia))) Y) as E. fold (power_of n t) (power_of n t') in E. destruct (power_spec t ltac:(lia)) as (_ & P1 & _). destruct (power_spec t' T) as (_ & P2 & _).
  assert (d1 : 1 <= near (1 + power_of n t')) by (apply (near_ge_fmt prec top W); [apply (float_1 prec top A)|lra]). assert (d2 : near (1 + power_of n t') <= near (1 + power_of n t)) by (apply (near_le prec top W); lra).
  assert (PL : place n t <= place n t') by (unfold place; apply (near_le prec top W); unfold Rdiv; rewrite !Rmult_1_l; apply Rinv_le; lra). pose proof denominator as DN. unfold temper. apply (near_le prec top W). apply Rmult_le_compat_r; [left; apply Rinv_0_lt_compat; lra|]. apply (near_le prec top W). lra.
Qed.
End Schedule.

(** ** The weights *)
Lemma log_fn_spec lp lj T r : float lp -> float lj -> float T -> 0 <= T <= 1 -> Rabs lp <= b r -> Rabs lj <= b r -> (0 <= r)%Z -> (r + 2 <= top)%Z ->
  exists v, flog_fn prec top (Fi lp) (Fi lj) (Fi T) = Fi v /\ float v /\ Rabs (v - (lp * (1 - T) + lj * T)) <= 5 / 2 * u * b r.
Proof.
  intros Fp Fj FT HT Bp Bj R0' R1. pose proof (top_big prec top A) as TB. pose proof A as (_ & p3 & _). pose proof (bpow_gt_0 radix2 r) as Br. assert (U : 0 < u) by apply u_pos.
  assert (B1 : Rabs (1 - T) <= b 0) by (change (b 0) with 1; apply Rabs_le; lra). destruct (fsub_near prec top A 1 T 0 ltac:(lia) ltac:(lia) B1) as (E1 & F1 & C1). pose proof (near_binade prec top A _ 0 ltac:(lia) B1) as D1. change (b 0) with 1 in C1, D1. set (c := near (1 - T)) in *.
  assert (B2 : Rabs (lp * c) <= b r) by (rewrite Rabs_mult, <- (Rmult_1_r (b r)); apply Rmult_le_compat; auto using Rabs_pos). destruct (fmul_near prec top A lp c r ltac:(lia) ltac:(lia) B2) as (E2 & F2 & C2). pose proof (near_binade prec top A _ r ltac:(lia) B2) as D2.
  assert (B3 : Rabs (lj * T) <= b r) by (rewrite Rabs_mult, (Rabs_pos_eq T), <- (Rmult_1_r (b r)) by lra; apply Rmult_le_compat; try lra; apply Rabs_pos). destruct (fmul_near prec top A lj T r ltac:(lia) ltac:(lia) B3) as (E3 & F3 & C3). pose proof (near_binade prec top A _ r ltac:(lia) B3) as D3.
  set (x := near (lp * c)) in *. set (y := near (lj * T)) in *. assert (b2 : b (r + 1) = 2 * b r) by (rewrite bpow_plus; change (b 1) with 2; ring).
  assert (B4 : Rabs (x + y) <= b (r + 1)) by (eapply Rle_trans; [apply Rabs_triang|]; lra). destruct (fadd_near prec top A x y (r + 1) ltac:(lia) ltac:(lia) B4) as (E4 & F4 & _). pose proof (near_binade prec top A _ (r + 1) ltac:(lia) B4) as D4. rewrite b2 in D4.
  exists (near (x + y)). split; [unfold flog_fn; rewrite E1, E2, E3; exact E4|]. split; [exact F4|].
  replace (near (x + y) - (lp * (1 - T) + lj * T)) with ((near (x + y) - (x + y)) + ((x - lp * c) + ((y - lj * T) + lp * (c - (1 - T))))) by ring.
  eapply Rle_trans; [apply Rabs_triang|]. eapply Rle_trans; [apply Rplus_le_compat_l, Rabs_triang|]. eapply Rle_trans; [apply Rplus_le_compat_l, Rplus_le_compat_l, Rabs_triang|]. rewrite (Rabs_mult lp).
  assert (Rabs lp * Rabs (c - (1 - T)) <= b r * (u * 1 / 2)) by (apply Rmult_le_compat; auto using Rabs_pos). lra.
Qed.
Definition pairs (steps : list (R * R)) : list (ext * ext) := map (fun q => (Fi (fst q), Fi (snd q))) steps.
Definition bounded (r : Z) (q : R * R) : Prop := float (fst q) /\ float (snd q) /\ Rabs (fst q) <= b r /\ Rabs (snd q) <= b r.
Lemma one_addition x y r k : float x -> float y -> Rabs x <= (4 * INR k + 1) * b r -> Rabs y <= 2 * b r -> (8 * Z.of_nat (S k) <= 2 ^ prec)%Z -> (0 <= r)%Z -> (r + prec + 1 <= top)%Z ->
  exists v, fadd prec top (Fi x) (Fi y) = Fi v /\ float v /\ Rabs v <= (4 * INR (S k) + 1) * b r /\ Rabs (v - (x + y)) <= (4 * INR k + 3) * u * b r.
Proof.
  intros Fx Fy Bx By K R0' R1. pose proof (top_big prec top A) as TB. pose proof A as (_ & p3 & _). pose proof (bpow_gt_0 radix2 r) as Br. assert (U : 0 < u) by apply u_pos. pose proof (pos_INR k) as k0.
  assert (K1 : 8 * (INR k + 1) <= b prec). { rewrite <- S_INR, INR_IZR_INZ, <- (IZR_Zpower radix2) by lia. rewrite <- mult_IZR. apply IZR_le. exact K. }
  assert (Bs : Rabs (x + y) <= (4 * INR k + 3) * b r) by (eapply Rle_trans; [apply Rabs_triang|]; lra). assert (Bs' : Rabs (x + y) <= b (r + prec)) by (eapply Rle_trans; [exact Bs|]; rewrite bpow_plus, Rmult_comm; apply Rmult_le_compat_l; lra).
  destruct (fadd_near prec top A x y (r + prec) ltac:(lia) ltac:(lia) Bs') as (E & F & _). destruct (factor_add prec top A x y (proj1 Fx) (proj1 Fy)) as (f & Ef & Hf). rewrite Rmult_1_l in Hf.
  assert (D : Rabs (near (x + y) - (x + y)) <= (4 * INR k + 3) * u * b r). { rewrite Ef. replace ((x + y) * f - (x + y)) with ((x + y) * (f - 1)) by ring. rewrite Rabs_mult. replace ((4 * INR k + 3) * u * b r) with ((4 * INR k + 3) * b r * u) by ring. apply Rmult_le_compat; auto using Rabs_pos. }
  exists (near (x + y)). split; [exact E|]. split; [exact F|]. split; [|exact D].
  assert (KU : (4 * INR k + 3) * u <= 1 / 2). { assert (b prec * u = 1) by (unfold unit_roundoff; rewrite <- bpow_plus; replace (prec + - prec)%Z with 0%Z by lia; reflexivity). assert ((8 * (INR k + 1)) * u <= b prec * u) by (apply Rmult_le_compat_r; lra). lra. }
  rewrite S_INR. replace (near (x + y)) with (near (x + y) - (x + y) + (x + y)) by ring. eapply Rle_trans; [apply Rabs_triang|]. assert ((4 * INR k + 3) * u * b r <= 1 / 2 * b r) by (apply Rmult_le_compat_r; lra). lra.
Qed.
Lemma difference q r : bounded r q -> (0 <= r)%Z -> (r + 2 <= top)%Z -> exists d, fsub prec top (Fi (fst q)) (Fi (snd q)) = Fi d /\ float d /\ Rabs d <= 2 * b r /\ Rabs (d - (fst q - snd q)) <= u * b r.
Proof.
  intros (F1 & F2 & B1 & B2) R0' R1. pose proof (top_big prec top A) as TB. pose proof A as (_ & p3 & _). assert (b2 : b (r + 1) = 2 * b r) by (rewrite bpow_plus; change (b 1) with 2; ring).
  assert (B : Rabs (fst q - snd q) <= b (r + 1)) by (unfold Rminus; eapply Rle_trans; [apply Rabs_triang|]; rewrite Rabs_Ropp; lra). destruct (fsub_near prec top A _ _ (r + 1) ltac:(lia) ltac:(lia) B) as (E & F & C). pose proof (near_binade prec top A _ (r + 1) ltac:(lia) B) as D. rewrite b2 in C, D. eexists. split; [exact E|]. split; [exact F|]. split; [exact C|lra].
Qed.
Lemma anneal_spec r steps : (0 <= r)%Z -> (r + prec + 1 <= top)%Z -> Forall (bounded r) steps -> forall w k, float w -> Rabs w <= (4 * INR k + 1) * b r -> (8 * Z.of_nat (k + length steps) <= 2 ^ prec)%Z ->
  exists v, fanneal prec top (Fi w) (pairs steps) = Fi v /\ float v /\ Rabs v <= (4 * INR (k + length steps) + 1) * b r /\ Rabs (v - chain_weight (- w) steps) <= 4 * INR (length steps) * INR (k + length steps) * u * b r.
Proof.
  intros R0' R1. pose proof (top_big prec top A) as TB. pose proof A as (_ & p3 & _). pose proof (bpow_gt_0 radix2 r) as Br. assert (U : 0 < u) by apply u_pos. assert (UB : 0 < u * b r) by (apply Rmult_lt_0_compat; lra). induction steps as [|q steps IH]; intros H w k Fw Bw K.
  - exists w. split; [reflexivity|]. split; [exact Fw|]. cbn [length] in *. rewrite Nat.add_0_r in *. split; [exact Bw|]. unfold chain_weight. cbn. replace (w - (0 - 0 - - w)) with 0 by ring. rewrite Rabs_R0. lra.
  - inversion H as [|? ? Q H']; subst. cbn [length] in K |- *. pose proof (pos_INR k) as k0. destruct steps as [|q' steps].
    + cbn [length] in *. destruct Q as (F1 & _ & B1 & _). destruct (one_addition w (fst q) r k Fw F1 Bw ltac:(lra) ltac:(lia) R0' R1) as (v & E & F & B & D). exists v. split; [exact E|]. split; [exact F|]. replace (k + 1)%nat with (S k) by lia. split; [exact B|]. unfold chain_weight. cbn [map rsum fold_right removelast].
      eapply Rle_trans; [eapply Rle_trans; [|exact D]|]. { right. f_equal. ring. } change (INR 1) with 1. rewrite S_INR. lra.
    + destruct (difference q r Q R0' ltac:(lia)) as (d & Ed & Fd & Bd & Dd). destruct (one_addition w d r k Fw Fd Bw Bd ltac:(lia) R0' R1) as (w' & E & F & B & D). destruct (IH H' w' (S k) F B ltac:(cbn [length] in *; lia)) as (v & Ev & Fv & Bv & Dv). exists v.
      split; [cbn [pairs map fanneal fst snd]; rewrite Ed, E; exact Ev|]. split; [exact Fv|]. replace (k + S (length (q' :: steps)))%nat with (S k + length (q' :: steps))%nat by lia. split; [exact Bv|].
      assert (X : chain_weight (- w) (q :: q' :: steps) = chain_weight (- w') (q' :: steps) + (w - w') + (fst q - snd q)). { unfold chain_weight. change (removelast (q :: q' :: steps)) with (q :: removelast (q' :: steps)). set (l := removelast (q' :: steps)). set (l' := q' :: steps). cbn [map rsum fold_right]. unfold rsum. cbn [map fold_right]. ring. }
      rewrite X. set (y := chain_weight (- w') (q' :: steps)) in *. replace (v - (y + (w - w') + (fst q - snd q))) with ((v - y) + ((w' - (w + d)) + (d - (fst q - snd q)))) by ring. eapply Rle_trans; [apply Rabs_triang|]. eapply Rle_trans; [apply Rplus_le_compat_l, Rabs_triang|].
      assert (M : INR k + 1 <= INR (S k + length (q' :: steps))) by (rewrite <- S_INR; apply le_INR; lia). set (m := INR (S k + length (q' :: steps))) in *. rewrite S_INR. assert ((INR k + 1) * (u * b r) <= m * (u * b r)) by (apply Rmult_le_compat_r; lra). lra.
Qed.
End Proofs.
