(** Lemmas for C55. *)
From Coq Require Import List Arith Reals ZArith Lra Lia Permutation.
From Flocq Require Import Core Relative Plus_error.
From Verif Require Import ModelExt ModelFloat SpecFloat.
Import ListNotations.
Local Open Scope R_scope.

Section Proofs.
Variables prec top : Z.
Hypothesis W : wide prec top.
Notation u := (unit_roundoff prec).
Notation fmt := (generic_format radix2 (fexpo prec top)).
Notation near := (nearest prec top).
Notation b e := (bpow radix2 e).

Instance prec_pos : Prec_gt_0 prec.
Proof. destruct W. unfold Prec_gt_0. lia. Qed.
Instance fexpo_valid : Valid_exp (fexpo prec top).
Proof. apply FLT_exp_valid. exact _. Qed.
Instance fexpo_mono : Monotone_exp (fexpo prec top).
Proof. apply FLT_exp_monotone. Qed.

Lemma u_pos : 0 < u. Proof. apply bpow_gt_0. Qed.
Lemma u_quarter : u <= 1 / 4.
Proof. destruct W as (H & _). unfold unit_roundoff. replace (1 / 4) with (b (-2)) by (cbn; lra). apply bpow_le. lia. Qed.
Lemma u_ro_u : u_ro radix2 prec = u.
Proof. unfold u_ro, unit_roundoff. rewrite bpow_plus. cbn. lra. Qed.
Lemma half_bpow : / 2 * b (- prec + 1) = u.
Proof. unfold unit_roundoff. rewrite bpow_plus. cbn. lra. Qed.

Lemma fmt_bpow e : (3 - top - prec <= e)%Z -> fmt (b e).
Proof. intros H. apply generic_format_FLT_bpow; [exact _|exact H]. Qed.
Lemma fmt_int n : (0 <= n <= 2 ^ prec)%Z -> fmt (IZR n).
Proof.
  destruct W as (A & B & _). intros (H1 & H2). destruct (Z.eq_dec n (2 ^ prec)) as [->|N].
  - change (2 ^ prec)%Z with (Zpower radix2 prec). rewrite (IZR_Zpower radix2) by lia. apply fmt_bpow. lia.
  - apply generic_format_FLT. exists (Float radix2 n 0); cbn [Fnum Fexp]; [unfold F2R; cbn; ring| |lia].
    rewrite Z.abs_eq by lia. change (Zpower radix2 prec) with (2 ^ prec)%Z. lia.
Qed.
Lemma fmt_opp x : fmt x -> fmt (- x). Proof. apply generic_format_opp. Qed.
Lemma fmt_grid j : (Z.abs j <= 2 ^ prec)%Z -> forall e, (3 - top - prec <= e)%Z -> fmt (IZR j * b e).
Proof.
  intros J e E. destruct (Z.eq_dec (Z.abs j) (2 ^ prec)) as [N|N].
  - assert (F : fmt (IZR (2 ^ prec) * b e)).
    { change (2 ^ prec)%Z with (Zpower radix2 prec). destruct W. rewrite (IZR_Zpower radix2), <- bpow_plus by lia. apply fmt_bpow; lia. }
    destruct (Z.abs_eq_or_opp j) as [A|A]; rewrite A in N; [rewrite N; exact F|].
    replace j with (- (2 ^ prec))%Z by lia. rewrite opp_IZR, Ropp_mult_distr_l_reverse. now apply fmt_opp.
  - apply generic_format_FLT. exists (Float radix2 j e); cbn; [reflexivity|lia|exact E].
Qed.
Lemma fmt_1 : fmt 1.
Proof. apply (fmt_int 1). pose proof (Z.pow_pos_nonneg 2 prec). destruct W. lia. Qed.
Lemma fmt_0 : fmt 0. Proof. apply generic_format_0. Qed.
Lemma near_fmt x : fmt (near x). Proof. apply generic_format_round; exact _. Qed.
Lemma near_id x : fmt x -> near x = x. Proof. intros H. apply round_generic; [exact _|exact H]. Qed.
Lemma near_le x y : x <= y -> near x <= near y. Proof. apply round_le; exact _. Qed.
Lemma near_le_fmt x y : fmt y -> x <= y -> near x <= y.
Proof. intros F H. rewrite <- (near_id y F). now apply near_le. Qed.
Lemma near_ge_fmt x y : fmt x -> x <= y -> x <= near y.
Proof. intros F H. rewrite <- (near_id x F). now apply near_le. Qed.

(** Faithful rounding. *)
Lemma faithful_fmt f g x : faithful_at prec top f g x -> fmt (f x).
Proof. intros [-> | ->]; apply generic_format_round; exact _. Qed.
Lemma faithful_le f g x y : faithful_at prec top f g x -> fmt y -> g x <= y -> f x <= y.
Proof. intros [-> | ->] F H; apply round_le_generic; auto; exact _. Qed.
Lemma faithful_ge f g x y : faithful_at prec top f g x -> fmt y -> y <= g x -> y <= f x.
Proof. intros [-> | ->] F H; apply round_ge_generic; auto; exact _. Qed.
Lemma faithful_err f g x : faithful_at prec top f g x -> Rabs (f x - g x) <= ulp radix2 (fexpo prec top) (g x).
Proof. intros [-> | ->]; apply error_le_ulp; exact _. Qed.
Lemma eta_small : b (3 - top - prec) <= u / 2.
Proof.
  destruct W as (A & B & _). unfold unit_roundoff. replace (b (- prec) / 2) with (b (- prec - 1)) by (unfold Z.sub; rewrite bpow_plus; cbn; lra).
  apply bpow_le. lia.
Qed.
Lemma ulp_bound x : ulp radix2 (fexpo prec top) x <= 2 * u * Rabs x + b (3 - top - prec).
Proof.
  assert (P : 0 <= 2 * u * Rabs x) by (pose proof u_pos; pose proof (Rabs_pos x); nra).
  destruct (Rle_or_lt (b (3 - top - prec + prec - 1)) (Rabs x)) as [H|H].
  - eapply Rle_trans; [exact (ulp_FLT_le radix2 (3 - top - prec) prec x H)|]. pose proof (bpow_gt_0 radix2 (3 - top - prec)).
    assert (Q : b (1 - prec) = 2 * u) by (unfold unit_roundoff, Z.sub; rewrite bpow_plus; cbn; lra). rewrite Q. lra.
  - unfold fexpo. rewrite (ulp_FLT_small radix2 (3 - top - prec) prec); [lra|]. eapply Rlt_trans; [exact H|]. apply bpow_lt. lia.
Qed.
Lemma ulp_unit x : 0 < x < 1 -> ulp radix2 (fexpo prec top) x <= u.
Proof.
  intros (H0 & H1). destruct W as (A & B & _). rewrite ulp_neq_0 by lra. apply bpow_le. unfold cexp, fexpo, FLT_exp.
  assert (mag radix2 x <= 0)%Z by (apply mag_le_bpow; [lra|]; rewrite Rabs_pos_eq by lra; exact H1). lia.
Qed.

(** ** One term *)
Lemma exp_le a c : a <= c -> exp a <= exp c.
Proof. intros [H| ->]; [left; now apply exp_increasing|lra]. Qed.
Lemma exp_1_big : 5 / 2 <= exp 1.
Proof.
  assert (H : 9 / 8 <= exp (1 / 8)) by (pose proof (exp_ineq1_le (1 / 8)); lra).
  replace 1 with (1/8 + 1/8 + (1/8 + 1/8) + (1/8 + 1/8 + (1/8 + 1/8))) by field. rewrite !exp_plus.
  set (x := exp (1 / 8)) in *. assert (81 / 64 <= x * x) by nra. set (y := x * x) in *. assert (25 / 16 <= y * y) by nra. set (z := y * y) in *.
  assert (81 / 64 * (81 / 64) <= z) by (unfold z; nra). nra.
Qed.
Lemma t_exp t : 0 <= t -> t * exp (- t) <= 2 / 5.
Proof.
  intros H. rewrite exp_Ropp. pose proof (exp_pos t). apply (Rmult_le_reg_r (exp t)); [assumption|]. rewrite Rmult_assoc, Rinv_l by lra.
  replace (exp t) with (exp 1 * exp (t - 1)) by (rewrite <- exp_plus; f_equal; ring).
  pose proof exp_1_big. pose proof (exp_ineq1_le (t - 1)). pose proof (exp_pos (t - 1)). nra.
Qed.
Lemma exp_close a c : a <= c -> exp c - exp a <= exp c * (c - a).
Proof.
  intros H. replace (exp a) with (exp c * exp (a - c)) by (rewrite <- exp_plus; f_equal; ring).
  pose proof (exp_ineq1_le (a - c)). pose proof (exp_pos c). nra.
Qed.
Lemma near_sub x y : fmt x -> fmt y -> Rabs (near (x - y) - (x - y)) <= u * Rabs (x - y).
Proof.
  intros Fx Fy. destruct (FLT_plus_error_N_ex radix2 (3 - top - prec) prec (fun z => negb (Z.even z)) x (- y) Fx (fmt_opp y Fy)) as (eps & E & H).
  unfold nearest, fexpo, Rminus. rewrite H. rewrite u_ro_u in E. pose proof u_pos.
  replace ((x + - y) * (1 + eps) + - (x + - y)) with (eps * (x + - y)) by ring. rewrite Rabs_mult. apply Rmult_le_compat_r; [apply Rabs_pos|].
  eapply Rle_trans; [exact E|]. apply (Rmult_le_reg_r (1 + u)); [lra|]. unfold Rdiv. rewrite Rmult_assoc, Rinv_l by lra. nra.
Qed.
Lemma exp_shift d d' : d <= 0 -> Rabs (d' - d) <= u * Rabs d -> Rabs (exp d' - exp d) <= 3 / 5 * u.
Proof.
  intros N H. rewrite (Rabs_left1 d) in H by assumption. pose proof u_pos. pose proof u_quarter.
  assert (X : d * (1 - u) * exp (d * (1 - u)) >= - (2 / 5)).
  { pose proof (t_exp (- (d * (1 - u)))) as T. replace (- - (d * (1 - u))) with (d * (1 - u)) in T by ring. assert (0 <= - (d * (1 - u))) by nra. nra. }
  pose proof (exp_pos (d * (1 - u))) as P.
  assert (Y : - d * exp (d * (1 - u)) <= 8 / 15) by nra.
  assert (B : d' <= d * (1 - u)) by (apply Rabs_le_inv in H; lra). assert (B2 : d <= d * (1 - u)) by nra.
  pose proof (exp_le _ _ B). pose proof (exp_le _ _ B2). pose proof (exp_pos d). pose proof (exp_pos d').
  destruct (Rle_or_lt d d') as [L|L].
  - pose proof (exp_close d d' L) as C. rewrite Rabs_pos_eq by (pose proof (exp_le d d' L); lra). apply Rabs_le_inv in H. 
    assert (exp d' * (d' - d) <= exp (d * (1 - u)) * (u * - d)) by (apply Rmult_le_compat; lra). nra.
  - pose proof (exp_close d' d (Rlt_le _ _ L)) as C. rewrite Rabs_minus_sym, Rabs_pos_eq by (pose proof (exp_le d' d (Rlt_le _ _ L)); lra).
    apply Rabs_le_inv in H. assert (exp d * (d - d') <= exp (d * (1 - u)) * (u * - d)) by (apply Rmult_le_compat; lra). nra.
Qed.
Lemma below_top x : Rabs x <= 1 -> Rabs x < b top.
Proof. intros H. eapply Rle_lt_trans; [exact H|]. destruct W as (A & B & _). apply (bpow_lt radix2 0). lia. Qed.
Lemma overflow_small x : Rabs x < b top -> overflow top x = Fi x.
Proof. intros H. unfold overflow. destruct (Rlt_dec _ _); [reflexivity|contradiction]. Qed.
Lemma lib_exp_spec libexp d : faithful_exp prec top libexp -> is_float prec top d -> d <= 0 ->
  fmt (libexp d) /\ 0 <= libexp d <= 1 /\ Rabs (libexp d - exp d) <= u /\ (d = 0 -> libexp d = 1).
Proof.
  intros FE Fd N. pose proof (FE d Fd) as F. split; [exact (faithful_fmt _ _ _ F)|]. pose proof (exp_le _ _ N) as E. rewrite exp_0 in E.
  pose proof (exp_pos d). pose proof (faithful_le _ _ _ 1 F fmt_1 E). pose proof (faithful_ge _ _ _ 0 F fmt_0 ltac:(lra)).
  split; [lra|]. assert (O : d = 0 -> libexp d = 1).
  { intros ->. rewrite exp_0 in *. pose proof (faithful_ge _ _ _ 1 F fmt_1 ltac:(rewrite exp_0; lra)). lra. }
  split; [|exact O]. destruct (Req_dec d 0) as [Z|Z].
  - rewrite (O Z), Z, exp_0. rewrite Rminus_diag_eq by reflexivity. rewrite Rabs_R0. left. apply u_pos.
  - eapply Rle_trans; [exact (faithful_err _ _ _ F)|]. apply ulp_unit. split; [assumption|]. rewrite <- exp_0. apply exp_increasing. lra.
Qed.
(** exp (x - m) as computed, for x <= m. *)
Lemma term_spec libexp x m : faithful_exp prec top libexp -> is_float prec top x -> is_float prec top m -> x <= m ->
  exists t, feexp top libexp (fsub prec top (Fi x) (Fi m)) = Fi t /\ fmt t /\ 0 <= t <= 1 /\ Rabs (t - exp (x - m)) <= 8 / 5 * u /\ (x = m -> t = 1).
Proof.
  intros FE (Fx & Bx) (Fm & Bm) L. unfold fsub, esub, rounded. cbn [eneg eadd]. fold (x - m). set (d := near (x - m)).
  assert (D0 : d <= 0) by (apply near_le_fmt; [exact fmt_0|lra]). pose proof (near_sub x m Fx Fm) as E. fold d in E.
  pose proof u_pos as U. pose proof u_quarter as U4. unfold overflow at 1. destruct (Rlt_dec (Rabs d) (b top)) as [O|O].
  - cbn [feexp]. destruct (lib_exp_spec libexp d FE (conj (near_fmt _) O) D0) as (F & R & A & Z). exists (libexp d).
    split; [apply overflow_small, below_top; rewrite Rabs_pos_eq; lra|]. split; [exact F|split; [exact R|split]].
    + pose proof (exp_shift (x - m) d ltac:(lra) E). replace (libexp d - exp (x - m)) with (libexp d - exp d + (exp d - exp (x - m))) by ring.
      eapply Rle_trans; [apply Rabs_triang|]. lra.
    + intros ->. apply Z. unfold d. replace (m - m) with 0 by ring. apply near_id, fmt_0.
  - assert (N : ~ 0 < d) by lra. destruct (Rlt_dec 0 d); [contradiction|]. cbn [feexp]. exists 0. split; [reflexivity|split; [exact fmt_0|split; [lra|split]]].
    + rewrite Rminus_0_l, Rabs_Ropp, Rabs_pos_eq by (left; apply exp_pos). apply Rnot_lt_le in O.
      set (t := - (x - m)). assert (T : b (top - 1) <= t).
      { unfold Z.sub. rewrite bpow_plus. cbn. rewrite (Rabs_left1 d D0) in O. rewrite (Rabs_left1 (x - m)) in E by lra. fold t in E. apply Rabs_le_inv in E. unfold t in *. nra. }
      pose proof (t_exp t) as X. assert (P : 0 < b (top - 1)) by apply bpow_gt_0. replace (- t) with (x - m) in X by (unfold t; ring).
      assert (Q : b (top - 1) * u >= 1).
      { unfold unit_roundoff. rewrite <- bpow_plus. destruct W as (A & B & _). apply Rle_ge, (bpow_le radix2 0). lia. }
      pose proof (exp_pos (x - m)). assert (t * exp (x - m) <= 2 / 5) by (apply X; lra).
      assert (b (top - 1) * exp (x - m) <= 2 / 5) by nra. nra.
    + intros ->. exfalso. apply O. unfold d. replace (m - m) with 0 by ring. rewrite (near_id 0 fmt_0), Rabs_R0. apply bpow_gt_0.
Qed.

(** ** Sums *)
Definition total_at (t : nat -> R) (l : list nat) : R := fold_right Rplus 0 (map t l).
Lemma total_at_app t l l' : total_at t (l ++ l') = total_at t l + total_at t l'.
Proof. unfold total_at. rewrite map_app. induction (map t l) as [|a k IH]; cbn; [ring|rewrite IH; ring]. Qed.
Lemma total_at_perm t l l' : Permutation l l' -> total_at t l = total_at t l'.
Proof. unfold total_at. induction 1; cbn; lra. Qed.
Lemma sum_spec_at k t l : (3 - top - prec <= k < top - prec)%Z ->
  (forall i e, nth_error l i = Some e -> e = Fi (t i)) -> (forall i, (i < length l)%nat -> fmt (t i) /\ 0 <= t i <= b k) ->
  forall p, (forall i, In i (entries p) -> (i < length l)%nat) -> (Z.of_nat (length (entries p)) <= 2 ^ prec)%Z ->
  exists s, fsum prec top p l = Fi s /\ fmt s /\ 0 <= s <= INR (length (entries p)) * b k /\ (forall i, In i (entries p) -> t i <= s) /\
    s <= total_at t (entries p) * (1 + u) ^ (length (entries p) - 1) /\
    total_at t (entries p) <= s * (1 + u) ^ (length (entries p) - 1).
Proof.
  intros K E T. pose proof u_pos as U. pose proof (bpow_gt_0 radix2 k) as Pk. induction p as [|i|p IHp q IHq]; cbn [entries fsum]; intros I S.
  - exists 0. split; [reflexivity|]. split; [exact fmt_0|]. cbn. repeat split; try lra. intros ? [].
  - exists (t i). specialize (I i (or_introl eq_refl)). destruct (nth_error l i) as [e|] eqn:X; [|apply nth_error_None in X; lia].
    rewrite (nth_error_nth _ _ _ X), (E i e X). destruct (T i I) as (F & R). split; [reflexivity|split; [exact F|]]. cbn.
    split; [lra|]. split; [intros j [<-|[]]; lra|]. unfold total_at. cbn. lra.
  - rewrite app_length in S |- *. destruct IHp as (a & Ea & Fa & Ra & Ma & La & Ga); [intros; apply I, in_or_app; auto|lia|].
    destruct IHq as (c & Ec & Fc & Rc & Mc & Lc & Gc); [intros; apply I, in_or_app; auto|lia|].
    rewrite Ea, Ec. unfold fadd. cbn [eadd rounded]. set (s := near (a + c)).
    assert (FI : fmt (INR (length (entries p) + length (entries q)) * b k)) by (rewrite INR_IZR_INZ; apply fmt_grid; lia).
    assert (S1 : s <= INR (length (entries p) + length (entries q)) * b k) by (apply near_le_fmt; [exact FI|rewrite plus_INR; lra]).
    assert (Sa : a <= s) by (apply near_ge_fmt; [exact Fa|lra]). assert (Sc : c <= s) by (apply near_ge_fmt; [exact Fc|lra]).
    exists s. split.
    { apply overflow_small. rewrite Rabs_pos_eq by lra. eapply Rle_lt_trans; [exact S1|]. rewrite INR_IZR_INZ.
      destruct W as (A & B & _). apply Rle_lt_trans with (IZR (2 ^ prec) * b k); [apply Rmult_le_compat_r; [lra|apply IZR_le; lia]|].
      change (2 ^ prec)%Z with (Zpower radix2 prec). rewrite (IZR_Zpower radix2), <- bpow_plus by lia. apply bpow_lt. lia. }
    split; [apply near_fmt|]. split; [lra|]. split; [intros i Hi; apply in_app_or in Hi as [Hi|Hi]; [specialize (Ma i Hi)|specialize (Mc i Hi)]; lra|].
    rewrite total_at_app. set (x := total_at t (entries p)) in *. set (y := total_at t (entries q)) in *.
    assert (Pw : forall m, 1 <= (1 + u) ^ m) by (intros m; apply pow_R1_Rle; lra).
    destruct (entries p) as [|i0 lp] eqn:Np; [|destruct (entries q) as [|j0 lq] eqn:Nq].
    + cbn in Ra. assert (a = 0) by lra. subst a. assert (s = c) as -> by (unfold s; rewrite Rplus_0_l; now apply near_id). assert (x = 0) as -> by reflexivity.
      cbn [length Nat.add]. split; nra.
    + cbn in Rc. assert (c = 0) by lra. subst c. assert (s = a) as -> by (unfold s; rewrite Rplus_0_r; now apply near_id). assert (y = 0) as -> by reflexivity.
      rewrite Nat.add_0_r. split; nra.
    + cbn [length] in *. replace (Datatypes.S (length lp) + Datatypes.S (length lq) - 1)%nat with (Datatypes.S (length lp + length lq)) by lia.
      replace (Datatypes.S (length lp) - 1)%nat with (length lp) in * by lia. replace (Datatypes.S (length lq) - 1)%nat with (length lq) in * by lia.
      set (A := (1 + u) ^ length lp) in *. set (B := (1 + u) ^ length lq) in *. cbn [pow]. rewrite pow_add. fold A B.
      assert (1 <= A) by apply Pw. assert (1 <= B) by apply Pw.
      destruct (FLT_plus_error_N_ex radix2 (3 - top - prec) prec (fun z => negb (Z.even z)) a c Fa Fc) as (e1 & E1 & H1).
      destruct (FLT_plus_error_N_round_ex radix2 (3 - top - prec) prec (fun z => negb (Z.even z)) a c Fa Fc) as (e2 & E2 & H2).
      change (round radix2 (FLT_exp (3 - top - prec) prec) ZnearestE (a + c)) with s in H1, H2. rewrite u_ro_u in E1, E2.
      assert (E1' : e1 <= u). { apply Rabs_le_inv in E1. apply Rle_trans with (u / (1 + u)); [lra|]. apply (Rmult_le_reg_r (1 + u)); [lra|]. unfold Rdiv. rewrite Rmult_assoc, Rinv_l by lra. nra. }
      assert (E2' : e2 <= u) by (apply Rabs_le_inv in E2; lra).
      assert (X0 : 0 <= x) by nra. assert (Y0 : 0 <= y) by nra.
      split.
      * rewrite H1. assert (a + c <= (x + y) * (A * B)) by nra. assert ((a + c) * (1 + e1) <= (a + c) * (1 + u)) by (apply Rmult_le_compat_l; lra). nra.
      * assert (x + y <= (a + c) * (A * B)) by nra. assert (Ps : 0 <= s) by lra. clearbody s. assert (a + c <= s * (1 + u)) by nra.
        apply Rle_trans with ((a + c) * (A * B)); [assumption|]. replace (s * ((1 + u) * (A * B))) with (s * (1 + u) * (A * B)) by ring. apply Rmult_le_compat_r; nra.
Qed.
Lemma sum_spec t l : (forall i e, nth_error l i = Some e -> e = Fi (t i)) -> (forall i, (i < length l)%nat -> fmt (t i) /\ 0 <= t i <= 1) ->
  forall p, (forall i, In i (entries p) -> (i < length l)%nat) -> (Z.of_nat (length (entries p)) <= 2 ^ prec)%Z ->
  exists s, fsum prec top p l = Fi s /\ fmt s /\ 0 <= s <= INR (length (entries p)) /\ (forall i, In i (entries p) -> t i <= s) /\
    s <= total_at t (entries p) * (1 + u) ^ (length (entries p) - 1) /\
    total_at t (entries p) <= s * (1 + u) ^ (length (entries p) - 1).
Proof.
  intros E T p I S. destruct (sum_spec_at 0 t l) with (p := p) as (s & H); auto; [destruct W; lia|]. exists s. cbn [bpow] in H. rewrite Rmult_1_r in H. exact H.
Qed.
Lemma total_at_close t t' d l : (forall i, In i l -> Rabs (t i - t' i) <= d) -> Rabs (total_at t l - total_at t' l) <= INR (length l) * d.
Proof.
  induction l as [|i l IH]; intros H; [cbn; rewrite Rminus_0_r, Rabs_R0; lra|]. unfold total_at in *. cbn [length map fold_right].
  rewrite S_INR. specialize (IH (fun j Hj => H j (or_intror Hj))). specialize (H i (or_introl eq_refl)).
  set (X := fold_right Rplus 0 (map t l)) in *. set (Y := fold_right Rplus 0 (map t' l)) in *.
  replace (t i + X - (t' i + Y)) with (t i - t' i + (X - Y)) by ring. eapply Rle_trans; [apply Rabs_triang|]. lra.
Qed.
Lemma total_at_nth {A} (f : A -> R) d (l : list A) : total_at (fun i => f (nth i l d)) (seq 0 (length l)) = fold_right Rplus 0 (map f l).
Proof.
  unfold total_at. f_equal. induction l as [|a l IH]; [reflexivity|]. cbn [length seq map nth]. f_equal. rewrite <- IH, <- seq_shift, map_map. reflexivity.
Qed.
Lemma total_at_ge t l i : (forall j, In j l -> 0 <= t j) -> In i l -> t i <= total_at t l.
Proof.
  unfold total_at. induction l as [|j l IH]; intros H []; cbn.
  - subst j. assert (0 <= fold_right Rplus 0 (map t l)); [|lra]. clear IH. assert (G : forall j, In j l -> 0 <= t j) by (intros; apply H; now right). clear H.
    induction l as [|k l IH]; cbn; [lra|]. pose proof (G k (or_introl eq_refl)). specialize (IH (fun j Hj => G j (or_intror Hj))). lra.
  - specialize (IH (fun k Hk => H k (or_intror Hk)) H0). specialize (H j (or_introl eq_refl)). lra.
Qed.

(** ** Logarithms *)
Lemma ln_le' x y : 0 < x -> x <= y -> ln x <= ln y.
Proof. intros P [H| ->]; [left; now apply ln_increasing|lra]. Qed.
Lemma ln_ratio x y c : 0 < x -> 0 < y -> y <= x * exp c -> ln y <= ln x + c.
Proof. intros X Y H. rewrite <- (ln_exp c) at 1. rewrite <- ln_mult by (auto; apply exp_pos). now apply ln_le'. Qed.
Lemma pow_exp x k : 0 <= x -> (1 + x) ^ k <= exp (INR k * x).
Proof.
  intros P. induction k as [|k IH]; [cbn; rewrite Rmult_0_l, exp_0; lra|]. rewrite S_INR, Rmult_plus_distr_r, exp_plus, Rmult_1_l. cbn [pow].
  pose proof (exp_ineq1_le x). rewrite Rmult_comm. apply Rmult_le_compat; try lra. apply pow_le. lra.
Qed.
Lemma ln_bpow e : ln (b e) = IZR e * ln 2.
Proof. rewrite bpow_exp. now rewrite ln_exp. Qed.
Lemma ln_2_le : 0 < ln 2 <= 1.
Proof.
  split; [rewrite <- ln_1; apply ln_increasing; lra|]. rewrite <- (ln_exp 1). apply ln_le'; [lra|]. pose proof exp_1_big. lra.
Qed.
Lemma ln_le_sub x : 0 < x -> ln x <= x - 1.
Proof. intros P. rewrite <- (ln_exp (x - 1)). apply ln_le'; [assumption|]. pose proof (exp_ineq1_le (x - 1)). lra. Qed.
Lemma lib_log_spec liblog x : faithful_log prec top liblog -> is_float prec top x -> b (- prec) <= x <= b prec ->
  felog top liblog (Fi x) = Fi (liblog x) /\ fmt (liblog x) /\ Rabs (liblog x) <= IZR prec /\
  Rabs (liblog x - ln x) <= 2 * u * Rabs (ln x) + u / 2 /\ (1 <= x -> 0 <= liblog x) /\ (x <= 1 -> liblog x <= 0).
Proof.
  intros FL Fx (B1 & B2). pose proof (bpow_gt_0 radix2 (- prec)) as P. assert (X : 0 < x) by lra. pose proof (FL x Fx X) as F.
  destruct W as (A & B & C). assert (P0 : 0 <= IZR prec) by (apply IZR_le; lia). pose proof ln_2_le as L2.
  assert (Fp : fmt (IZR prec)) by (apply fmt_int; pose proof (Z.pow_gt_lin_r 2 prec); lia).
  assert (U : ln x <= IZR prec) by (pose proof (ln_le' x (b prec) X B2) as H; rewrite ln_bpow in H; nra).
  assert (D : - IZR prec <= ln x) by (pose proof (ln_le' (b (- prec)) x P B1) as H; rewrite ln_bpow, opp_IZR in H; nra).
  assert (R : Rabs (liblog x) <= IZR prec).
  { apply Rabs_le. split; [apply (faithful_ge _ _ _ _ F); [now apply fmt_opp|exact D]|apply (faithful_le _ _ _ _ F Fp U)]. }
  split; [|split; [exact (faithful_fmt _ _ _ F)|split; [exact R|split; [|split]]]].
  - unfold felog. destruct (Rlt_dec 0 x); [|contradiction]. apply overflow_small. eapply Rle_lt_trans; [exact R|].
    apply Rlt_le_trans with (IZR (2 ^ (top - prec - 1))); [apply IZR_lt; lia|]. change (2 ^ (top - prec - 1))%Z with (Zpower radix2 (top - prec - 1)).
    rewrite (IZR_Zpower radix2) by lia. apply bpow_le. lia.
  - eapply Rle_trans; [exact (faithful_err _ _ _ F)|]. eapply Rle_trans; [apply ulp_bound|]. pose proof eta_small. lra.
  - intros H. apply (faithful_ge _ _ _ 0 F fmt_0). rewrite <- ln_1. apply ln_le'; lra.
  - intros H. apply (faithful_le _ _ _ 0 F fmt_0). rewrite <- ln_1. apply ln_le'; lra.
Qed.

(** ** Adding the maximum back *)
Lemma near_opp x : near (- x) = - near x.
Proof. apply round_NE_opp. Qed.
Lemma near_bounded x : x <= b top - b (top - prec) + IZR prec -> near x < b top.
Proof.
  intros H. destruct W as (A & B & C). set (M := pred radix2 (fexpo prec top) (b top)).
  assert (FT : fmt (b top)) by (apply fmt_bpow; lia).
  assert (EM : M = b top - b (top - prec)).
  { unfold M. rewrite pred_bpow by exact _. f_equal. f_equal. unfold fexpo, FLT_exp. lia. }
  assert (FM : fmt M) by (apply generic_format_pred; [exact _|exact FT]).
  assert (SM : succ radix2 (fexpo prec top) M = b top) by (apply succ_pred; [exact _|exact FT]).
  apply Rle_lt_trans with M; [|unfold M; apply pred_lt_id; apply Rgt_not_eq, bpow_gt_0].
  apply round_N_le_midp; [exact _|exact FM|]. rewrite SM.
  assert (E : b (top - prec) = 2 * b (top - prec - 1)).
  { replace (top - prec)%Z with (1 + (top - prec - 1))%Z at 1 by lia. rewrite bpow_plus. reflexivity. }
  assert (IZR prec < b (top - prec - 1)); [|lra].
  rewrite <- (IZR_Zpower radix2) by lia. apply IZR_lt. exact C.
Qed.
Lemma float_max m : is_float prec top m -> m <= b top - b (top - prec).
Proof.
  intros (F & H). destruct W as (A & B & C). replace (b top - b (top - prec)) with (pred radix2 (fexpo prec top) (b top)).
  - apply pred_ge_gt; [exact _|exact F|apply fmt_bpow; lia|]. apply Rabs_lt_inv in H. lra.
  - rewrite pred_bpow by exact _. f_equal. f_equal. unfold fexpo, FLT_exp. lia.
Qed.
Lemma float_opp m : is_float prec top m -> is_float prec top (- m).
Proof. intros (F & H). split; [now apply fmt_opp|now rewrite Rabs_Ropp]. Qed.
Lemma add_back y m : fmt y -> is_float prec top m -> Rabs y <= IZR prec ->
  exists v, fadd prec top (Fi y) (Fi m) = Fi v /\ is_float prec top v /\ Rabs (v - (y + m)) <= u * Rabs v /\ (0 <= y -> m <= v) /\ (y <= 0 -> v <= m).
Proof.
  intros Fy Fm R. exists (near (y + m)). unfold fadd. cbn [eadd rounded]. apply Rabs_le_inv in R.
  assert (N : Rabs (near (y + m)) < b top).
  { apply Rabs_lt. split.
    - assert (H : near (- (y + m)) < b top) by (apply near_bounded; pose proof (float_max _ (float_opp _ Fm)); lra). rewrite near_opp in H. lra.
    - apply near_bounded. pose proof (float_max _ Fm). lra. }
  destruct Fm as (Fm & Bm). split; [now apply overflow_small|]. split; [split; [apply near_fmt|exact N]|]. split; [|split].
  - destruct (FLT_plus_error_N_round_ex radix2 (3 - top - prec) prec (fun z => negb (Z.even z)) y m Fy Fm) as (e & E & H).
    change (round radix2 (FLT_exp (3 - top - prec) prec) ZnearestE (y + m)) with (near (y + m)) in H. rewrite u_ro_u in E.
    set (v := near (y + m)) in *. clearbody v. rewrite H. replace (v - v * (1 + e)) with (- e * v) by ring. rewrite Rabs_mult, Rabs_Ropp.
    apply Rmult_le_compat_r; [apply Rabs_pos|exact E].
  - intros H. apply near_ge_fmt; [exact Fm|lra].
  - intros H. apply near_le_fmt; [exact Fm|lra].
Qed.
Lemma plan_one v p : is_float prec top v ->
  (entries p = [] -> fsum prec top p [Fi v] = Fi 0) /\ (entries p = [0%nat] -> fsum prec top p [Fi v] = Fi v).
Proof.
  intros (F & B). induction p as [|i|p (IH0 & IH1) q (JH0 & JH1)]; cbn [entries fsum].
  - split; [reflexivity|discriminate].
  - split; [discriminate|]. intros [= ->]. reflexivity.
  - split.
    + intros H. apply app_eq_nil in H as (Hp & Hq). rewrite IH0, JH0 by assumption. unfold fadd. cbn. rewrite Rplus_0_r, (near_id 0 fmt_0).
      apply overflow_small. rewrite Rabs_R0. apply bpow_gt_0.
    + destruct (entries p) as [|i l] eqn:E; cbn.
      * intros H. rewrite IH0, (JH1 H) by reflexivity. unfold fadd. cbn. rewrite Rplus_0_l, near_id by assumption. now apply overflow_small.
      * intros H. injection H as -> H. apply app_eq_nil in H as (-> & Hq). rewrite IH1, (JH0 Hq) by reflexivity. unfold fadd. cbn. rewrite Rplus_0_r, near_id by assumption. now apply overflow_small.
Qed.
End Proofs.
