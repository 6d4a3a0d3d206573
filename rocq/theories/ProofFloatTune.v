(** Lemmas for C60: the step size in floating-point arithmetic. *)
From Coq Require Import List Arith Bool Reals ZArith Lra Lia Permutation.
From Flocq Require Import Core Relative Plus_error.
From Verif Require Import ModelExt ModelSpecial ModelNum ModelFloat ModelFloatSample ModelFloatTune SpecFloat ProofFloat ProofFloatSample ProofFloatDensity.
Import ListNotations.
Local Open Scope R_scope.

(** Products of factors close to 1. *)
Lemma close_mult x y p q v : 0 <= v <= 1 / 8 -> 0 <= p -> 0 <= q -> Rabs (x - 1) <= p * v -> Rabs (y - 1) <= q * v -> Rabs (x * y - 1) <= (p + q + p * q / 8) * v.
Proof.
  intros V P Q X Y. replace (x * y - 1) with ((x - 1) * (y - 1) + ((x - 1) + (y - 1))) by ring. eapply Rle_trans; [apply Rabs_triang|]. rewrite Rabs_mult.
  pose proof (Rabs_triang (x - 1) (y - 1)) as T. assert (M : Rabs (x - 1) * Rabs (y - 1) <= p * v * (q * v)) by (apply Rmult_le_compat; auto using Rabs_pos).
  assert (p * v * (q * v) <= p * q * (v / 8)); [|lra]. replace (p * v * (q * v)) with (p * q * (v * v)) by ring. apply Rmult_le_compat_l; [now apply Rmult_le_pos|]. nra.
Qed.

(** ** Infinite step size: no accuracy needed *)
Definition lost (a : ext) : Prop := a = PInf \/ a = NaN.
Definition unbounded (a : ext) : Prop := match a with Fi _ => False | _ => True end.
Lemma unbounded_mul prec top g : unbounded (fmul prec top PInf g).
Proof. unfold fmul. destruct g as [x| | |]; cbn; auto. destruct (Rlt_dec 0 x); [exact I|]. destruct (Rlt_dec x 0); exact I. Qed.
Lemma unbounded_add prec top a g : unbounded g -> unbounded (fadd prec top a g).
Proof. unfold fadd. destruct a, g; cbn; tauto. Qed.
Lemma lost_square prec top a : unbounded a -> lost (fmul prec top a a).
Proof. unfold lost, fmul. destruct a; cbn; tauto. Qed.
Lemma lost_div prec top a m : lost a -> m = PInf \/ (exists x, m = Fi x /\ 0 <= x) -> lost (fdiv prec top a m).
Proof.
  unfold lost, fdiv. intros [-> | ->] [-> | (x & -> & P)]; cbn; auto. destruct (Rlt_dec x 0); [lra|cbn; auto].
Qed.
Lemma lost_half prec top a : lost a -> lost (fmul prec top (Fi (1 / 2)) a).
Proof. unfold lost, fmul. intros [-> | ->]; cbn; auto. destruct (Rlt_dec 0 (1 / 2)); [cbn; auto|lra]. Qed.
Lemma lost_add_r prec top a g : lost g -> lost (fadd prec top a g).
Proof. unfold lost, fadd. intros [-> | ->]; destruct a; cbn; auto. Qed.
Lemma lost_add_l prec top a g : lost a -> g = Fi 0 -> lost (fadd prec top a g).
Proof. unfold lost, fadd. intros [-> | ->] ->; cbn; auto. Qed.
Lemma lost_sum prec top l : (forall i, (i < length l)%nat -> lost (nth i l NaN)) ->
  forall p, (forall i, In i (entries p) -> (i < length l)%nat) ->
  (entries p = [] /\ fsum prec top p l = Fi 0) \/ lost (fsum prec top p l).
Proof.
  intros H. induction p as [|i|p IHp q IHq]; cbn [entries fsum]; intros B.
  - left; auto.
  - right. apply H, B. now left.
  - destruct (IHq (fun i Hi => B i (in_or_app _ _ _ (or_intror Hi)))) as [(Q1 & Q2)|Q]; [|right; now apply lost_add_r].
    destruct (IHp (fun i Hi => B i (in_or_app _ _ _ (or_introl Hi)))) as [(P1 & P2)|P]; [|right; now apply lost_add_l].
    left. rewrite P1, Q1, P2, Q2. split; [reflexivity|]. unfold fadd. cbn. rewrite Rplus_0_r. unfold nearest. rewrite round_0 by exact _.
    unfold overflow. rewrite Rabs_R0. destruct (Rlt_dec 0 (bpow radix2 top)) as [|N]; [reflexivity|]. pose proof (bpow_gt_0 radix2 top). contradiction.
Qed.
Lemma lost_acceptance prec top libexp old_h new_h lp : lost new_h -> facceptance prec top libexp old_h new_h lp = Fi 0.
Proof.
  unfold facceptance, fadd. intros [-> | ->]; destruct old_h; cbn; try reflexivity; destruct (is_finite lp); reflexivity.
Qed.
Lemma sum_zeros prec top n p : (forall i, In i (entries p) -> (i < n)%nat) -> fsum prec top p (map (fun _ => Fi 0) (seq 0 n)) = Fi 0.
Proof.
  induction p as [|i|p IHp q IHq]; cbn [entries fsum]; intros B; [reflexivity| |].
  - specialize (B i (or_introl eq_refl)). rewrite nth_indep with (d' := (fun _ : nat => Fi 0) O) by (now rewrite map_length, seq_length).
    now rewrite (map_nth (fun _ : nat => Fi 0)).
  - rewrite IHp, IHq; [|intros i Hi; apply B, in_or_app; now right|intros i Hi; apply B, in_or_app; now left].
    unfold fadd. cbn. rewrite Rplus_0_r. unfold nearest. rewrite round_0 by exact _.
    unfold overflow. rewrite Rabs_R0. destruct (Rlt_dec 0 (bpow radix2 top)) as [|N]; [reflexivity|]. pose proof (bpow_gt_0 radix2 top). contradiction.
Qed.

Section Proofs.
Variables prec top : Z.
Hypothesis A : ample prec top.
Let W : wide prec top := proj1 A.
Notation u := (unit_roundoff prec).
Notation fmt := (generic_format radix2 (fexpo prec top)).
Notation float := (is_float prec top).
Notation near := (nearest prec top).
Notation b e := (bpow radix2 e).
Local Instance prec_pos_t : Prec_gt_0 prec := prec_pos prec top W.
Local Instance fexpo_valid_t : Valid_exp (fexpo prec top) := fexpo_valid prec top W.
Local Instance fexpo_mono_t : Monotone_exp (fexpo prec top) := fexpo_mono prec top.

Lemma float_0 : float 0.
Proof. split; [apply generic_format_0|rewrite Rabs_R0; apply bpow_gt_0]. Qed.
Lemma float_1 : float 1.
Proof. split; [apply (fmt_1 prec top W)|apply (below_top prec top W); rewrite Rabs_R1; lra]. Qed.
Lemma rounded_float x : float x -> rounded prec top (Fi x) = Fi x.
Proof. intros (F & B). cbn. rewrite (near_id prec top) by exact F. now apply overflow_small. Qed.
Lemma fmul_0_l x : float x -> fmul prec top (Fi 0) (Fi x) = Fi 0.
Proof. intros F. unfold fmul. cbn [emul]. rewrite Rmult_0_l. apply rounded_float, float_0. Qed.
Lemma fmul_1_l x : float x -> fmul prec top (Fi 1) (Fi x) = Fi x.
Proof. intros F. unfold fmul. cbn [emul]. rewrite Rmult_1_l. now apply rounded_float. Qed.
Lemma fsub_1 (f : bool) : fsub prec top (Fi 1) (if f then Fi 1 else Fi 0) = Fi (if f then 0 else 1).
Proof.
  unfold fsub, esub. destruct f; cbn [eneg eadd]; [replace (1 + - (1)) with 0 by ring; apply rounded_float, float_0|].
  replace (1 + - 0) with 1 by ring. apply rounded_float, float_1.
Qed.

(** Rounding in a binade: the error, and the last number of the binade. *)
Lemma near_binade x k : (3 - top <= k)%Z -> Rabs x <= b k -> Rabs (near x - x) <= u * b k / 2.
Proof.
  intros K H. destruct (Req_dec x 0) as [->|N].
  { unfold nearest. rewrite round_0 by exact _. rewrite Rminus_0_r, Rabs_R0. pose proof (u_pos prec). pose proof (bpow_gt_0 radix2 k). nra. }
  destruct H as [H|H].
  - eapply Rle_trans; [apply error_le_half_ulp; exact _|]. rewrite ulp_neq_0 by exact N. unfold unit_roundoff. rewrite <- bpow_plus.
    assert (C : (cexp radix2 (fexpo prec top) x <= - prec + k)%Z).
    { unfold cexp, fexpo, FLT_exp. assert (mag radix2 x <= k)%Z by (apply mag_le_bpow; [exact N|exact H]). lia. }
    apply (bpow_le radix2) in C. lra.
  - assert (F : fmt x).
    { pose proof (fmt_bpow prec top W k ltac:(pose proof (proj1 W); lia)) as Fb. unfold Rabs in H. destruct (Rcase_abs x); [replace x with (- b k) by lra; now apply fmt_opp|now rewrite H]. }
    rewrite (near_id prec top) by exact F. rewrite Rminus_eq_0, Rabs_R0. pose proof (u_pos prec). pose proof (bpow_gt_0 radix2 k). nra.
Qed.
Lemma near_past x k : (3 - top <= k)%Z -> Rabs x < b k * (1 + u) -> Rabs (near x) <= b k.
Proof.
  intros K H. pose proof (fmt_bpow prec top W k) as F. pose proof A as (_ & p3 & _). specialize (F ltac:(lia)).
  assert (Up : forall y, y < b k * (1 + u) -> near y <= b k).
  { intros y Hy. apply round_N_le_midp; [exact _|exact F|]. rewrite succ_eq_pos by apply bpow_ge_0. rewrite ulp_bpow. unfold fexpo, FLT_exp.
    replace (Z.max (k + 1 - prec) (3 - top - prec)) with (k - prec + 1)%Z by lia. rewrite (b_1 (k - prec)). unfold Z.sub. rewrite bpow_plus. change (bpow radix2 (- prec)) with u. lra. }
  apply Rabs_def2 in H. apply Rabs_le. split; [|apply Up; lra]. pose proof (Up (- x) ltac:(lra)) as U. rewrite (near_opp prec top) in U. lra.
Qed.
(** A moving average stays within its bounds. *)
Lemma blend r h d k : (0 <= k)%Z -> (k + 2 <= top)%Z -> fmt r -> 0 <= r <= 1 -> fmt h -> Rabs h <= b (k + 1) -> Rabs d <= b k ->
  Rabs (near (near (near (1 - r) * h) + near (r * d))) <= b (k + 1).
Proof.
  intros K0 K1 Fr (R0 & R1) Fh H D. pose proof (u_pos prec) as U. pose proof (u_eighth prec top A) as U8. pose proof A as (_ & p3 & _).
  pose proof (bpow_gt_0 radix2 k) as Bk. pose proof (b_1 k) as B1.
  destruct (Req_dec r 0) as [->|N].
  { rewrite Rminus_0_r, (near_id prec top 1), Rmult_1_l, Rmult_0_l by apply (fmt_1 prec top W). rewrite (near_id prec top 0), Rplus_0_r by apply generic_format_0.
    rewrite !(near_id prec top h) by exact Fh. exact H. }
  assert (Re : b (3 - top - prec) <= r).
  { apply (generic_format_ge_bpow radix2 (fexpo prec top)); [|lra|exact Fr]. intros e. unfold fexpo, FLT_exp. lia. }
  set (c := near (1 - r)). assert (C1 : 0 <= c <= 1) by (apply (near_unit prec top W); lra).
  assert (C2 : c <= 1 - r + u / 2).
  { pose proof (near_binade (1 - r) 0 ltac:(destruct W; lia)) as E. cbn [bpow] in E. rewrite Rabs_pos_eq in E by lra. specialize (E ltac:(lra)). fold c in E. apply Rabs_le_inv in E. lra. }
  assert (X1 : Rabs (near (c * h)) <= c * b (k + 1) + u * b k).
  { pose proof (near_binade (c * h) (k + 1) ltac:(lia)) as E. assert (Y : Rabs (c * h) <= c * b (k + 1)) by (rewrite Rabs_mult, (Rabs_pos_eq c) by lra; apply Rmult_le_compat_l; lra).
    assert (Y2 : c * b (k + 1) <= b (k + 1)) by nra. specialize (E ltac:(lra)). pose proof (Rabs_triang (near (c * h) - c * h) (c * h)) as T. replace (near (c * h) - c * h + c * h) with (near (c * h)) in T by ring. assert (Q : u * b (k + 1) = 2 * (u * b k)) by (rewrite B1; ring). lra. }
  assert (X2 : Rabs (near (r * d)) <= r * b k * (1 + u) + b (3 - top - prec) / 2).
  { pose proof (near_err_half prec top A (r * d)) as E. assert (Y : Rabs (r * d) <= r * b k) by (rewrite Rabs_mult, (Rabs_pos_eq r) by lra; apply Rmult_le_compat_l; lra).
    pose proof (Rabs_triang (near (r * d) - r * d) (r * d)) as T. replace (near (r * d) - r * d + r * d) with (near (r * d)) in T by ring. 
    assert (u * Rabs (r * d) <= u * (r * b k)) by (apply Rmult_le_compat_l; lra). lra. }
  apply near_past; [lia|]. eapply Rle_lt_trans; [apply Rabs_triang|]. eapply Rle_lt_trans; [apply Rplus_le_compat; [exact X1|exact X2]|].
  assert (B0 : 1 <= b k) by (apply (bpow_le radix2 0); lia). pose proof (bpow_gt_0 radix2 (3 - top - prec)) as Eta.
  assert (Z1 : c * b (k + 1) <= (1 - r + u / 2) * b (k + 1)) by (apply Rmult_le_compat_r; lra). rewrite B1 in *.
  assert (Z2 : r <= r * b k) by nra. assert (Z3 : u * (r * b k) <= 1 / 8 * (r * b k)) by (apply Rmult_le_compat_r; nra). lra.
Qed.

(** The counter stops at 2 ^ prec: ties go to even. *)
Lemma near_stuck : near (b prec + 1) = b prec.
Proof.
  pose proof A as (_ & p3 & _). pose proof (top_big prec top A) as T. set (x := b prec + 1). set (n := (2 ^ (prec - 1))%Z).
  assert (B1 : 1 < b prec) by (apply (bpow_lt radix2 0); lia). assert (Nb : IZR n * 2 = b prec).
  { unfold n. change (2 ^ (prec - 1))%Z with (Zpower radix2 (prec - 1)). rewrite (IZR_Zpower radix2) by lia. rewrite <- (Rmult_comm 2), <- b_1. f_equal. lia. }
  assert (M : mag radix2 x = (prec + 1)%Z :> Z).
  { apply mag_unique_pos. replace (prec + 1 - 1)%Z with prec by lia. unfold x. rewrite b_1. lra. }
  assert (C : cexp radix2 (fexpo prec top) x = 1%Z) by (unfold cexp, fexpo, FLT_exp; rewrite M; lia).
  unfold nearest, round. rewrite C. assert (S : scaled_mantissa radix2 (fexpo prec top) x = IZR n + / 2).
  { unfold scaled_mantissa. rewrite C. unfold x. rewrite <- Nb. cbn. field. }
  rewrite S. assert (Z : ZnearestE (IZR n + / 2) = n).
  { unfold Znearest. rewrite (Zfloor_imp n) by (rewrite plus_IZR; lra). replace (IZR n + / 2 - IZR n) with (/ 2) by ring. rewrite Rcompare_Eq by reflexivity.
    assert (Ev : Z.even n = true) by (unfold n; replace (prec - 1)%Z with (Z.succ (prec - 2)) by lia; rewrite Z.pow_succ_r by lia; now rewrite Z.even_mul). now rewrite Ev. }
  rewrite Z. unfold F2R. cbn [Fnum Fexp]. change (b 1) with 2. exact Nb.
Qed.
Lemma pow_prec : IZR (2 ^ prec) = b prec.
Proof. pose proof A as (_ & p3 & _). change (2 ^ prec)%Z with (Zpower radix2 prec). apply (IZR_Zpower radix2). lia. Qed.
Lemma float_count n : (0 <= n <= 2 ^ prec)%Z -> float (IZR n).
Proof.
  intros H. split; [apply (fmt_int prec top W); lia|]. rewrite Rabs_pos_eq by (apply IZR_le; lia). apply Rle_lt_trans with (b prec); [rewrite <- pow_prec; apply IZR_le; lia|].
  apply bpow_lt. pose proof (top_big prec top A). lia.
Qed.
Lemma count_up n : (0 <= n <= 2 ^ prec)%Z -> fadd prec top (Fi (IZR n)) (Fi 1) = Fi (IZR (Z.min (n + 1) (2 ^ prec))).
Proof.
  intros H. unfold fadd. cbn [eadd]. rewrite <- (plus_IZR n 1). destruct (Z.eq_dec n (2 ^ prec)) as [->|N].
  - rewrite Z.min_r by lia. rewrite plus_IZR, pow_prec. cbn [rounded]. rewrite near_stuck. apply overflow_small. rewrite Rabs_pos_eq by apply bpow_ge_0.
    apply bpow_lt. pose proof (top_big prec top A). lia.
  - rewrite Z.min_l by lia. apply rounded_float, float_count. lia.
Qed.

(** One call of tune. *)
Lemma fmul_near x y e : (e + 1 <= top)%Z -> (3 - top <= e)%Z -> Rabs (x * y) <= b e -> fmul prec top (Fi x) (Fi y) = Fi (near (x * y)) /\ float (near (x * y)) /\ Rabs (near (x * y)) <= b e.
Proof.
  intros E E0 H. assert (H' : Rabs (x * y) <= b (top - 1)) by (eapply Rle_trans; [exact H|]; apply bpow_le; lia). unfold fmul. cbn [emul].
  destruct (float_near prec top A _ H') as (-> & F). split; [reflexivity|split; [exact F|]]. apply (near_bpow prec top W); [destruct W; lia|exact H].
Qed.
Lemma fadd_near x y e : (e + 1 <= top)%Z -> (3 - top <= e)%Z -> Rabs (x + y) <= b e -> fadd prec top (Fi x) (Fi y) = Fi (near (x + y)) /\ float (near (x + y)) /\ Rabs (near (x + y)) <= b e.
Proof.
  intros E E0 H. assert (H' : Rabs (x + y) <= b (top - 1)) by (eapply Rle_trans; [exact H|]; apply bpow_le; lia). unfold fadd. cbn [eadd].
  destruct (float_near prec top A _ H') as (-> & F). split; [reflexivity|split; [exact F|]]. apply (near_bpow prec top W); [destruct W; lia|exact H].
Qed.
Lemma fsub_near x y e : (e + 1 <= top)%Z -> (3 - top <= e)%Z -> Rabs (x - y) <= b e -> fsub prec top (Fi x) (Fi y) = Fi (near (x - y)) /\ float (near (x - y)) /\ Rabs (near (x - y)) <= b e.
Proof. unfold fsub, esub, Rminus. cbn [eneg]. exact (fadd_near x (- y) e). Qed.

(** The moving average of the tuner, with the sum in either order. *)
Lemma average r h d k (f : bool) : (0 <= k)%Z -> (k + 3 <= top)%Z -> float r -> 0 <= r <= 1 -> float h -> Rabs h <= b (k + 1) -> float d -> Rabs d <= b k ->
  let c := Fi (if f then 0 else 1) in
  let old := fmul prec top (fmul prec top c (fsub prec top (Fi 1) (Fi r))) (Fi h) in
  let new := fmul prec top (Fi r) (Fi d) in
  let v := near ((if f then 0 else near (near (1 - r) * h)) + near (r * d)) in
  fadd prec top old new = Fi v /\ fadd prec top new old = Fi v /\ float v /\ Rabs v <= b (k + 1).
Proof.
  intros K0 K1 Fr Hr Fh Hh Fd Hd c old new v. pose proof A as (_ & p3 & _). pose proof (bpow_gt_0 radix2 k) as Bk. pose proof (b_1 k) as B1. pose proof (b_1 (k + 1)) as B2.
  assert (En : Rabs (r * d) <= b k) by (rewrite Rabs_mult, (Rabs_pos_eq r) by lra; pose proof (Rabs_pos d); nra).
  destruct (fmul_near r d k ltac:(lia) ltac:(lia) En) as (N1 & N2 & N3).
  destruct (fsub_near 1 r 0 ltac:(lia) ltac:(lia)) as (S1 & S2 & S3); [cbn; apply Rabs_le; lra|]. assert (C1 : 0 <= near (1 - r) <= 1) by (apply (near_unit prec top W); lra).
  assert (O : old = Fi (if f then 0 else near (near (1 - r) * h)) /\ Rabs (if f then 0 else near (near (1 - r) * h)) <= b (k + 1)).
  { unfold old, c. rewrite S1. destruct f.
    - rewrite fmul_0_l by exact S2. rewrite fmul_0_l by exact Fh. split; [reflexivity|]. rewrite Rabs_R0. apply bpow_ge_0.
    - rewrite fmul_1_l by exact S2. destruct (fmul_near (near (1 - r)) h (k + 1)) as (M1 & M2 & M3); [lia|lia| |split; [exact M1|exact M3]].
      rewrite Rabs_mult, (Rabs_pos_eq (near (1 - r))) by lra. pose proof (Rabs_pos h). nra. }
  destruct O as (O1 & O2). set (o := if f then 0 else near (near (1 - r) * h)) in *. unfold new. rewrite O1, N1.
  assert (T : Rabs (o + near (r * d)) <= b (k + 2)) by (eapply Rle_trans; [apply Rabs_triang|]; replace (k + 2)%Z with (k + 1 + 1)%Z by lia; lra).
  destruct (fadd_near o (near (r * d)) (k + 2) ltac:(lia) ltac:(lia) T) as (P1 & P2 & P3). split; [exact P1|]. split.
  { rewrite Rplus_comm in T. destruct (fadd_near (near (r * d)) o (k + 2) ltac:(lia) ltac:(lia) T) as (P1' & _). rewrite P1'. unfold v. fold o. now rewrite Rplus_comm. }
  split; [exact P2|]. unfold v, o. destruct f.
  - rewrite Rplus_0_l, (near_id prec top (near (r * d))) by apply N2. lra.
  - apply blend; [lia|lia|apply Fr|exact Hr|apply Fh|exact Hh|exact Hd].
Qed.

Variables (libexp : R -> R) (libpow : R -> R -> R).
Hypothesis FP : faithful_pow prec top libpow.
Lemma rate_spec n kappa : (1 <= n <= 2 ^ prec)%Z -> float kappa -> 0 <= kappa ->
  exists r, fpow top libpow (Fi (IZR n)) (eneg (Fi kappa)) = Fi r /\ float r /\ 0 <= r <= 1.
Proof.
  intros N Fk K. assert (P : 1 <= IZR n) by (apply IZR_le; lia). pose proof (FP (IZR n) (- kappa) (float_count n ltac:(lia)) (float_opp prec top _ Fk) ltac:(lra)) as F.
  exists (libpow (IZR n) (- kappa)). assert (R : 0 <= libpow (IZR n) (- kappa) <= 1).
  { split; [apply (faithful_ge prec top W _ _ _ _ F); [apply generic_format_0|]; left; apply exp_pos|]. apply (faithful_le prec top W _ _ _ _ F); [apply (fmt_1 prec top W)|].
    unfold Rpower. rewrite <- exp_0. apply exp_le. assert (0 <= ln (IZR n)) by (rewrite <- ln_1; apply ln_le'; lra). nra. }
  assert (Fl : float (libpow (IZR n) (- kappa))) by (split; [apply (faithful_fmt prec top W _ _ _ F)|apply (below_top prec top W); rewrite Rabs_pos_eq; lra]).
  split; [|split; [exact Fl|exact R]]. cbn. destruct (Rlt_dec 0 (IZR n)); [|lra]. apply overflow_small, Fl.
Qed.
Lemma rate1_spec n t0 : (1 <= n <= 2 ^ prec)%Z -> float t0 -> 0 <= t0 <= b (top - 2) ->
  fadd prec top (Fi (IZR n)) (Fi t0) = Fi (near (IZR n + t0)) /\ 1 <= near (IZR n + t0) <= b (top - 1) /\
  fdiv prec top (Fi 1) (Fi (near (IZR n + t0))) = Fi (near (1 / near (IZR n + t0))) /\ float (near (1 / near (IZR n + t0))) /\ 0 <= near (1 / near (IZR n + t0)) <= 1.
Proof.
  intros N Ft (T0 & T1). pose proof (top_big prec top A) as TB. assert (P : 1 <= IZR n) by (apply IZR_le; lia). assert (Q : IZR n <= b (top - 2)).
  { apply Rle_trans with (b prec); [rewrite <- pow_prec; apply IZR_le; lia|apply bpow_le; lia]. }
  pose proof (b_1 (top - 2)) as B1. replace (top - 2 + 1)%Z with (top - 1)%Z in B1 by lia. destruct (fadd_near (IZR n) t0 (top - 1) ltac:(lia) ltac:(destruct W; lia)) as (E & F & H); [rewrite Rabs_pos_eq; lra|].
  assert (G : 1 <= near (IZR n + t0)) by (apply near_ge_fmt; [exact W|apply (fmt_1 prec top W)|lra]). rewrite Rabs_pos_eq in H by lra. split; [exact E|split; [lra|]].
  destruct (div_unit 1 (near (IZR n + t0)) ltac:(lra) ltac:(lra)) as (D1 & D2). rewrite (fdiv_fi prec top) by lra.
  destruct (rounded_unit prec top W (1 / near (IZR n + t0)) (conj D1 D2)) as (-> & F'). split; [reflexivity|split; [exact F'|]]. now apply (near_unit prec top W).
Qed.

Section Call.
Variables mu gamma t0 kappa delta : R.
Hypothesis Fmu : float mu. Hypothesis Bmu : Rabs mu <= b (top - 5).
Hypothesis Fgamma : float gamma. Hypothesis Bgamma : b (prec + 5 - top) <= gamma.
Hypothesis Ft0 : float t0. Hypothesis Bt0 : 0 <= t0 <= b (top - 2).
Hypothesis Fkappa : float kappa. Hypothesis Bkappa : 0 <= kappa.
Hypothesis Fdelta : float delta. Hypothesis Bdelta : 0 <= delta <= 1.
Notation call s adapt fresh a := (ftune prec top libexp libpow (Fi mu) (Fi gamma) (Fi t0) (Fi kappa) (Fi delta) s adapt fresh a).

(** The number of adapting calls since the last fresh start, up to 2 ^ prec. *)
Definition next_count (n : Z) (fresh : bool) : Z := if fresh then 1%Z else Z.min (n + 1) (2 ^ prec).
Definition next_h (n : Z) (h a : R) (fresh : bool) : R :=
  let r := near (1 / near (IZR (next_count n fresh) + t0)) in
  near ((if fresh then 0 else near (near (1 - r) * h)) + near (r * near (delta - a))).
Definition next_le (n : Z) (h a : R) (fresh : bool) : R :=
  near (mu - near (near (near (sqrt (IZR (next_count n fresh))) / gamma) * next_h n h a fresh)).
Lemma pow_pos : (1 <= 2 ^ prec)%Z.
Proof. pose proof A as (_ & p3 & _). pose proof (Z.pow_pos_nonneg 2 prec). lia. Qed.
Lemma next_count_spec n fresh : (0 <= n <= 2 ^ prec)%Z -> (1 <= next_count n fresh <= 2 ^ prec)%Z.
Proof. pose proof pow_pos. unfold next_count. destruct fresh; lia. Qed.
Lemma tune_step n h x a fresh : (0 <= n <= 2 ^ prec)%Z -> float h -> Rabs h <= 2 -> float x -> Rabs x <= b (top - 2) -> float a -> 0 <= a <= 1 ->
  let h' := next_h n h a fresh in let le := next_le n h a fresh in
  exists x', call (FTuner (Fi (IZR n)) (Fi x) (Fi h)) true fresh (Fi a) = (FTuner (Fi (IZR (next_count n fresh))) (Fi x') (Fi h'), feexp top libexp (Fi le)) /\
    float h' /\ Rabs h' <= 2 /\ float x' /\ Rabs x' <= b (top - 2) /\ float le /\ Rabs le <= b (top - 3).
Proof.
  intros Hn Fh Hh Fx Hx Fa Ha h' le. pose proof (next_count_spec n fresh Hn) as N. set (m := next_count n fresh) in *. pose proof (top_big prec top A) as TB. pose proof A as (_ & p3 & _).
  destruct (rate1_spec m t0 N Ft0 Bt0) as (R1 & R2 & R3 & R4 & R5). destruct (rate_spec m kappa N Fkappa Bkappa) as (r & P1 & P2 & P3).
  assert (St : fadd prec top (fmul prec top (Fi (if fresh then 0 else 1)) (Fi (IZR n))) (Fi 1) = Fi (IZR m)).
  { unfold m, next_count. pose proof pow_pos. destruct fresh.
    - rewrite fmul_0_l by (apply float_count; lia). rewrite (count_up 0 ltac:(lia)). f_equal. f_equal. lia.
    - rewrite fmul_1_l by (apply float_count; lia). now apply count_up. }
  destruct (fsub_near delta a 0) as (D1 & D2 & D3); [lia|lia|cbn; apply Rabs_le; lra|].
  destruct (average (near (1 / near (IZR m + t0))) h (near (delta - a)) 0 fresh ltac:(lia) ltac:(lia) R4 R5 Fh) as (H1 & _ & H3 & H4); [exact Hh|exact D2|exact D3|].
  fold m in h'. change (near ((if fresh then 0 else near (near (1 - near (1 / near (IZR m + t0))) * h)) + near (near (1 / near (IZR m + t0)) * near (delta - a)))) with h' in H1, H3, H4.
  change (b (0 + 1)) with 2 in H4.
  (* the step size *)
  assert (Sq : 0 <= sqrt (IZR m) <= b prec).
  { split; [apply sqrt_pos|]. assert (M1 : 1 <= IZR m) by (apply IZR_le; lia). assert (M2 : IZR m <= b prec) by (rewrite <- pow_prec; apply IZR_le; lia).
    apply Rle_trans with (IZR m); [|exact M2]. rewrite <- (sqrt_Rsqr (IZR m)) at 2 by lra. apply sqrt_le_1_alt. unfold Rsqr. nra. }
  assert (S1 : fsqrt prec top (Fi (IZR m)) = Fi (near (sqrt (IZR m))) /\ 0 <= near (sqrt (IZR m)) <= b prec).
  { split; [|split; [apply (near_nonneg prec top W); lra|apply near_le_fmt; [exact W|apply (fmt_bpow prec top W); lia|lra]]].
    unfold fsqrt. destruct (Rlt_dec (IZR m) 0) as [L|L]; [pose proof (IZR_le 1 m ltac:(lia)); lra|].
    destruct (float_near prec top A (sqrt (IZR m))) as (-> & _); [|reflexivity]. rewrite Rabs_pos_eq by lra. apply Rle_trans with (b prec); [lra|apply bpow_le; lia]. }
  destruct S1 as (S1 & S2). set (q := near (sqrt (IZR m))) in *. assert (G0 : 0 < gamma) by (pose proof (bpow_gt_0 radix2 (prec + 5 - top)); lra).
  assert (Q1 : 0 <= q / gamma <= b (top - 5)).
  { split; [apply Rmult_le_pos; [lra|left; now apply Rinv_0_lt_compat]|]. apply (Rmult_le_reg_r gamma); [exact G0|]. unfold Rdiv. rewrite Rmult_assoc, Rinv_l, Rmult_1_r by lra.
    apply Rle_trans with (b (top - 5) * b (prec + 5 - top)); [rewrite <- bpow_plus; replace (top - 5 + (prec + 5 - top))%Z with prec by lia; lra|]. apply Rmult_le_compat_l; [apply bpow_ge_0|exact Bgamma]. }
  assert (Q2 : fdiv prec top (Fi q) (Fi gamma) = Fi (near (q / gamma)) /\ 0 <= near (q / gamma) <= b (top - 5)).
  { rewrite (fdiv_fi prec top) by lra. split; [|split; [apply (near_nonneg prec top W); lra|apply near_le_fmt; [exact W|apply (fmt_bpow prec top W); lia|lra]]].
    destruct (float_near prec top A (q / gamma)) as (-> & _); [|reflexivity]. rewrite Rabs_pos_eq by lra. apply Rle_trans with (b (top - 5)); [lra|apply bpow_le; lia]. }
  destruct Q2 as (Q2 & Q3). destruct (fmul_near (near (q / gamma)) h' (top - 4)) as (M1 & M2 & M3); [lia|lia| |].
  { rewrite Rabs_mult, (Rabs_pos_eq (near (q / gamma))) by lra. replace (top - 4)%Z with (top - 5 + 1)%Z by lia. rewrite b_1. rewrite Rmult_comm. apply Rmult_le_compat; try lra. apply Rabs_pos. }
  destruct (fsub_near mu (near (near (q / gamma) * h')) (top - 3)) as (L1 & L2 & L3); [lia|lia| |].
  { eapply Rle_trans; [apply Rabs_triang|]. rewrite Rabs_Ropp. replace (top - 3)%Z with (top - 4 + 1)%Z by lia. rewrite b_1. assert (b (top - 5) <= b (top - 4)) by (apply bpow_le; lia). lra. }
  change (near (mu - near (near (q / gamma) * h'))) with le in L1, L2, L3.
  destruct (average r x le (top - 3) fresh ltac:(lia) ltac:(lia) P2 P3 Fx) as (_ & X1 & X2 & X3); [replace (top - 3 + 1)%Z with (top - 2)%Z by lia; exact Hx|exact L2|exact L3|].
  eexists. split; [|split; [exact H3|split; [exact H4|split; [exact X2|split; [replace (top - 2)%Z with (top - 3 + 1)%Z by lia; exact X3|split; [exact L2|exact L3]]]]]].
  unfold ftune. cbn [ft_step ft_log_epsilon_bar ft_h_bar]. rewrite (fsub_1 fresh), St, R1, R3, D1, H1, S1, Q2, M1, L1, P1. rewrite X1. reflexivity.
Qed.

(** ** Accuracy *)
Lemma factor x y : Rabs (x - y) <= u * Rabs y -> exists f, x = y * f /\ Rabs (f - 1) <= 1 * u.
Proof.
  intros H. destruct (Req_dec y 0) as [->|N].
  - exists 1. rewrite Rminus_eq_0, Rabs_R0. rewrite Rabs_R0, Rmult_0_r, Rminus_0_r in H. pose proof (u_pos prec). split; [|lra]. rewrite Rmult_0_l. destruct (Req_dec x 0) as [|X]; [assumption|]. pose proof (Rabs_pos_lt x X). lra.
  - exists (x / y). split; [field; exact N|]. replace (x / y - 1) with ((x - y) / y) by (field; exact N). unfold Rdiv. rewrite Rabs_mult, Rabs_inv.
    apply (Rmult_le_reg_r (Rabs y)); [now apply Rabs_pos_lt|]. rewrite Rmult_assoc, Rinv_l by now apply Rabs_no_R0. lra.
Qed.
Lemma factor_sub x y : fmt x -> fmt y -> exists f, near (x - y) = (x - y) * f /\ Rabs (f - 1) <= 1 * u.
Proof. intros Fx Fy. apply factor, (near_sub prec top W); assumption. Qed.
Lemma factor_add x y : fmt x -> fmt y -> exists f, near (x + y) = (x + y) * f /\ Rabs (f - 1) <= 1 * u.
Proof. intros Fx Fy. destruct (factor_sub x (- y) Fx (fmt_opp prec top _ Fy)) as (f & E & B). exists f. replace (x + y) with (x - - y) by ring. auto. Qed.
Lemma factor_normal x : b (2 - top) <= Rabs x -> exists f, near x = x * f /\ Rabs (f - 1) <= 1 * u.
Proof.
  intros H. apply factor. pose proof (relative_error_N_FLT radix2 (3 - top - prec) prec (prec_pos prec top W) (fun z => negb (Z.even z)) x) as X.
  replace (3 - top - prec + prec - 1)%Z with (2 - top)%Z in X by lia. rewrite (half_bpow prec) in X. exact (X H).
Qed.
Lemma factor_mul x : exists f e, near x = x * f + e /\ Rabs (f - 1) <= 1 * u /\ Rabs e <= b (3 - top - prec) / 2.
Proof.
  destruct (Rle_or_lt (b (2 - top)) (Rabs x)) as [H|H].
  - destruct (factor_normal x H) as (f & E & B). exists f, 0. split; [lra|split; [exact B|]]. rewrite Rabs_R0. pose proof (bpow_gt_0 radix2 (3 - top - prec)). lra.
  - exists 1, (near x - x). split; [ring|]. rewrite Rminus_eq_0, Rabs_R0. pose proof (u_pos prec). split; [lra|].
    pose proof (near_binade x (3 - top) ltac:(lia)) as E. assert (b (2 - top) <= b (3 - top)) by (apply bpow_le; lia). specialize (E ltac:(lra)). 
    replace (3 - top - prec)%Z with (- prec + (3 - top))%Z by lia. rewrite bpow_plus. exact E.
Qed.

Lemma h_step n h a fresh : (0 <= n < 2 ^ (prec - 3))%Z -> t0 <= b (prec - 3) -> float h -> (n = 0%Z -> h = 0) -> float a -> 0 <= a <= 1 ->
  let T := IZR (next_count n fresh) + t0 in
  Rabs (next_h n h a fresh * T - ((if fresh then 0 else h * (IZR n + t0)) + (delta - a))) <= 8 * u * (Rabs (if fresh then 0 else h * (IZR n + t0)) + 1).
Proof.
  intros Hn HT Fh H0 Fa Ha T. pose proof A as (_ & p3 & _). pose proof (top_big prec top A) as TB. pose proof (u_pos prec) as U. pose proof (u_eighth prec top A) as U8. pose proof pow_pos as PP.
  assert (P3 : (2 ^ (prec - 3) * 8 = 2 ^ prec)%Z) by (change 8%Z with (2 ^ 3)%Z; rewrite <- Z.pow_add_r by lia; f_equal; lia).
  assert (NC : next_count n fresh = if fresh then 1%Z else (n + 1)%Z) by (unfold next_count; destruct fresh; [reflexivity|]; apply Z.min_l; lia).
  assert (C0 : (1 <= next_count n fresh <= 2 ^ (prec - 3))%Z) by (rewrite NC; destruct fresh; lia). assert (BP : IZR (2 ^ (prec - 3)) = b (prec - 3)) by (change (2 ^ (prec - 3))%Z with (Zpower radix2 (prec - 3)); apply (IZR_Zpower radix2); lia).
  set (m := next_count n fresh) in *. assert (T1 : 1 <= T) by (unfold T; pose proof (IZR_le 1 m ltac:(lia)); lra).
  assert (T2 : T <= b (prec - 2)). { unfold T. pose proof (IZR_le m _ (proj2 C0)). replace (prec - 2)%Z with (prec - 3 + 1)%Z by lia. rewrite b_1. lra. }
  destruct (rate1_spec m t0 ltac:(lia) Ft0 Bt0) as (_ & R2 & _ & R4 & R5). fold T in R2, R4, R5. set (r := near (1 / near T)) in *.
  (* the rate *)
  assert (Ft : fmt (IZR m)) by (apply (fmt_int prec top W); lia). destruct (factor_add (IZR m) t0 Ft (proj1 Ft0)) as (f1 & E1 & B1). fold T in E1.
  destruct (factor_normal (1 / near T)) as (f2 & E2 & B2).
  { rewrite Rabs_pos_eq by (apply Rmult_le_pos; [lra|left; apply Rinv_0_lt_compat; lra]). unfold Rdiv. rewrite Rmult_1_l. replace (2 - top)%Z with (- (top - 2))%Z by lia. rewrite bpow_opp. apply Rinv_le; [lra|].
    assert (X : near T <= b (prec - 1)); [|eapply Rle_trans; [exact X|apply bpow_le; lia]]. apply near_le_fmt; [exact W|apply (fmt_bpow prec top W); lia|]. apply Rle_trans with (b (prec - 2)); [exact T2|apply bpow_le; lia]. }
  fold r in E2. assert (F1 : 7 / 8 <= f1 <= 9 / 8) by (apply Rabs_le_inv in B1; lra). assert (RT : exists t, r * T = 1 + t /\ Rabs t <= 16 / 7 * u).
  { exists (f2 / f1 - 1). rewrite E2, E1. split; [field; lra|]. replace (f2 / f1 - 1) with ((f2 - f1) / f1) by (field; lra). unfold Rdiv. rewrite Rabs_mult, Rabs_inv, (Rabs_pos_eq f1) by lra.
    assert (X : Rabs (f2 - f1) <= 2 * u) by (replace (f2 - f1) with ((f2 - 1) - (f1 - 1)) by ring; eapply Rle_trans; [apply Rabs_triang|]; rewrite Rabs_Ropp; lra).
    apply (Rmult_le_reg_r f1); [lra|]. rewrite Rmult_assoc, Rinv_l by lra. assert (16 / 7 * u * (7 / 8) <= 16 / 7 * u * f1) by (apply Rmult_le_compat_l; lra). lra. }
  destruct RT as (t & RT & Bt).
  (* the new term *)
  destruct (factor_sub delta a (proj1 Fdelta) (proj1 Fa)) as (f3 & E3 & B3). destruct (factor_mul (r * near (delta - a))) as (f4 & e4 & E4 & B4 & S4).
  assert (Eta : b (3 - top - prec) / 2 * T <= u / 8).
  { apply Rle_trans with (b (3 - top - prec) / 2 * b (prec - 2)); [apply Rmult_le_compat_l; [pose proof (bpow_gt_0 radix2 (3 - top - prec)); lra|exact T2]|].
    replace (b (3 - top - prec) / 2 * b (prec - 2)) with (b (3 - top - prec) * b (prec - 2) / 2) by field. rewrite <- bpow_plus. replace (3 - top - prec + (prec - 2))%Z with (1 - top)%Z by lia.
    assert (b (1 - top) <= b (- prec - 2)) by (apply bpow_le; lia). replace (u / 8) with (b (- prec - 2) / 2); [lra|]. unfold Z.sub. rewrite bpow_plus. change (bpow radix2 (- prec)) with u. cbn. lra. }
  (* the old term *)
  assert (Old : exists f e, (if fresh then 0 else near (near (1 - r) * h)) * T = (if fresh then 0 else h * (IZR n + t0)) * f + e /\
      fmt (if fresh then 0 else near (near (1 - r) * h)) /\ Rabs (f - 1) <= 6 * u /\ Rabs e <= u / 8).
  { destruct fresh; [exists 1, 0; split; [ring|]; rewrite Rminus_eq_0, Rabs_R0; split; [apply generic_format_0|]; lra|].
    destruct (Z.eq_dec n 0) as [Z0|Z0].
    { exists 1, 0. rewrite (H0 Z0), Rmult_0_r. rewrite (near_id prec top) by apply generic_format_0. split; [ring|]. rewrite Rminus_eq_0, Rabs_R0. split; [apply generic_format_0|]; lra. }
    destruct (factor_sub 1 r (fmt_1 prec top W) (proj1 R4)) as (f5 & E5 & B5). destruct (factor_mul (near (1 - r) * h)) as (f6 & e6 & E6 & B6 & S6).
    assert (TT : T = IZR n + t0 + 1) by (unfold T; rewrite NC, plus_IZR; ring). assert (N1 : 1 <= IZR n + t0) by (pose proof (IZR_le 1 n ltac:(lia)); lra).
    exists ((1 - t / (IZR n + t0)) * (f5 * f6)), (e6 * T). split; [|split; [apply near_fmt, W|split]].
    - rewrite E6, E5. replace (((1 - r) * f5 * h * f6 + e6) * T) with ((T - r * T) * h * (f5 * f6) + e6 * T) by ring. rewrite RT, TT. field. lra.
    - pose proof (close_mult f5 f6 1 1 u ltac:(lra) ltac:(lra) ltac:(lra) B5 B6) as Q. eapply Rle_trans; [apply (close_mult _ _ (16 / 7) (1 + 1 + 1 * 1 / 8) u); try lra|lra].
      replace (1 - t / (IZR n + t0) - 1) with (- (t / (IZR n + t0))) by ring. rewrite Rabs_Ropp. unfold Rdiv. rewrite Rabs_mult, Rabs_inv, (Rabs_pos_eq (IZR n + t0)) by lra.
      assert (I : 0 < / (IZR n + t0) <= 1) by (split; [apply Rinv_0_lt_compat; lra|rewrite <- Rinv_1; apply Rinv_le; lra]). pose proof (Rabs_pos t). nra.
    - rewrite Rabs_mult, (Rabs_pos_eq T) by lra. apply Rle_trans with (b (3 - top - prec) / 2 * T); [apply Rmult_le_compat_r; lra|exact Eta]. }
  destruct Old as (f7 & e7 & E7 & F7 & B7 & S7). set (o := if fresh then 0 else near (near (1 - r) * h)) in *. set (w := if fresh then 0 else h * (IZR n + t0)) in *.
  destruct (factor_add o (near (r * near (delta - a))) F7 (near_fmt prec top W _)) as (f8 & E8 & B8).
  assert (Total : next_h n h a fresh * T = w * (f7 * f8) + (delta - a) * ((1 + t) * (f3 * f4 * f8)) + (e7 * f8 + e4 * T * f8)).
  { unfold next_h. fold m T r. fold o. rewrite E8, E4, E3. replace ((o + (r * ((delta - a) * f3) * f4 + e4)) * f8 * T) with ((o * T) * f8 + (r * T) * (delta - a) * f3 * f4 * f8 + e4 * T * f8) by ring. rewrite E7, RT. ring. }
  rewrite Total. replace (w * (f7 * f8) + (delta - a) * ((1 + t) * (f3 * f4 * f8)) + (e7 * f8 + e4 * T * f8) - (w + (delta - a)))
    with (w * (f7 * f8 - 1) + (delta - a) * ((1 + t) * (f3 * f4 * f8) - 1) + (e7 * f8 + e4 * T * f8)) by ring.
  pose proof (close_mult f7 f8 6 1 u ltac:(lra) ltac:(lra) ltac:(lra) B7 B8) as Q1. pose proof (close_mult f3 f4 1 1 u ltac:(lra) ltac:(lra) ltac:(lra) B3 B4) as Q2.
  pose proof (close_mult (f3 * f4) f8 (1 + 1 + 1 * 1 / 8) 1 u ltac:(lra) ltac:(lra) ltac:(lra) Q2 B8) as Q3. assert (Bt' : Rabs (1 + t - 1) <= 16 / 7 * u) by (replace (1 + t - 1) with t by ring; exact Bt).
  pose proof (close_mult (1 + t) (f3 * f4 * f8) (16 / 7) (1 + 1 + 1 * 1 / 8 + 1 + (1 + 1 + 1 * 1 / 8) * 1 / 8) u ltac:(lra) ltac:(lra) ltac:(lra) Bt' Q3) as Q4.
  eapply Rle_trans; [apply Rabs_triang|]. eapply Rle_trans; [apply Rplus_le_compat; [apply Rabs_triang|apply Rabs_triang]|]. rewrite !Rabs_mult, (Rabs_pos_eq T) by lra.
  assert (F8 : Rabs f8 <= 9 / 8) by (apply Rabs_le_inv in B8; apply Rabs_le; lra). pose proof (Rabs_pos w). pose proof (Rabs_pos f8). assert (Da : Rabs (delta - a) <= 1) by (apply Rabs_le; lra).
  assert (Z1 : Rabs w * Rabs (f7 * f8 - 1) <= Rabs w * (8 * u)) by (apply Rmult_le_compat_l; lra).
  assert (Z2 : Rabs (delta - a) * Rabs ((1 + t) * (f3 * f4 * f8) - 1) <= 1 * (7 * u)) by (apply Rmult_le_compat; auto using Rabs_pos; lra).
  assert (Z3 : Rabs e7 * Rabs f8 <= u / 8 * (9 / 8)) by (apply Rmult_le_compat; auto using Rabs_pos; lra).
  assert (Z4 : Rabs e4 * T * Rabs f8 <= u / 8 * (9 / 8)).
  { apply Rmult_le_compat; auto using Rabs_pos; [apply Rmult_le_pos; [apply Rabs_pos|lra]|]. apply Rle_trans with (b (3 - top - prec) / 2 * T); [apply Rmult_le_compat_r; lra|exact Eta]. }
  lra.
Qed.
End Call.
End Proofs.
