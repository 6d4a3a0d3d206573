(** Proofs for C70. *)
From Coq Require Import List Arith Bool Reals ZArith Lra Lia.
From Flocq Require Import Core Relative Plus_error.
From Verif Require Import ModelExt ModelSpecial ModelNum ModelFloat ModelFloatSample ModelFloatDensity2 SpecFloat SpecFloatDensity2 ProofFloat ProofFloatSample ProofFloatDensity ProofFloatTune ProofFloatFlow.
Import ListNotations.
Local Open Scope R_scope.

Section Proofs.
Variables prec top : Z.
Hypothesis A : ample prec top.
Hypothesis P6 : (6 <= prec)%Z.
Let W : wide prec top := proj1 A.
Notation u := (unit_roundoff prec).
Notation fmt := (generic_format radix2 (fexpo prec top)).
Notation float := (is_float prec top).
Notation near := (nearest prec top).
Notation b e := (bpow radix2 e).

Definition tracks (c M x : R) (a : ext) : Prop :=
  exists v, a = Fi v /\ float v /\ Rabs x <= M /\ 1 <= M /\ Rabs (v - x) <= c * u * M.

Lemma u_64 : u <= 1 / 64.
Proof. unfold unit_roundoff. apply Rle_trans with (b (-6)); [apply bpow_le; lia|cbn; lra]. Qed.
Lemma eta_64 : b (3 - top - prec) <= u / 64.
Proof.
  pose proof (top_big prec top A). replace (3 - top - prec)%Z with (- prec + (3 - top))%Z by lia. rewrite bpow_plus. fold u. pose proof (u_pos prec).
  assert (b (3 - top) <= 1 / 64) by (apply Rle_trans with (b (-6)); [apply bpow_le; lia|cbn; lra]). apply Rle_trans with (u * (1 / 64)); [apply Rmult_le_compat_l; lra|lra].
Qed.
Lemma tracks_round c M x y : 0 <= c <= 16 -> Rabs x <= M -> 1 <= M <= b (top - 2) -> Rabs (y - x) <= c * u * M -> tracks (c + 4 / 3) M x (rounded prec top (Fi y)).
Proof.
  intros C X (M1 & M2) D. pose proof (u_pos prec) as U. pose proof u_64 as U6. pose proof eta_64 as E.
  assert (CU : c * u <= 1 / 4) by (apply Rle_trans with (16 * (1 / 64)); [apply Rmult_le_compat; lra|lra]).
  assert (D' : Rabs (y - x) <= 1 / 4 * M) by (eapply Rle_trans; [exact D|apply Rmult_le_compat_r; lra]).
  assert (Y : Rabs y <= 5 / 4 * M) by (replace y with (x + (y - x)) by ring; eapply Rle_trans; [apply Rabs_triang|lra]).
  assert (T : b (top - 1) = 2 * b (top - 2)) by (replace (top - 1)%Z with (top - 2 + 1)%Z by lia; rewrite bpow_plus; change (bpow radix2 1) with 2; ring).
  destruct (float_near prec top A y) as (R & F); [lra|]. exists (near y). split; [exact R|]. split; [exact F|]. split; [exact X|]. split; [lra|].
  pose proof (near_err_half prec top A y) as N. replace (near y - x) with ((near y - y) + (y - x)) by ring. eapply Rle_trans; [apply Rabs_triang|].
  assert (u * Rabs y <= u * (5 / 4 * M)) by (apply Rmult_le_compat_l; lra). assert (u * 1 <= u * M) by (apply Rmult_le_compat_l; lra). lra.
Qed.
Lemma tracks_weaken c c' M M' x a : tracks c M x a -> 0 <= c <= c' -> M <= M' -> tracks c' M' x a.
Proof.
  intros (v & E & F & X & M1 & D) C H. pose proof (u_pos prec) as U. exists v. split; [exact E|]. split; [exact F|]. split; [lra|]. split; [lra|]. eapply Rle_trans; [exact D|].
  apply Rmult_le_compat; try lra. apply Rmult_le_pos; lra. apply Rmult_le_compat_r; lra.
Qed.
Lemma tracks_exact x : float x -> tracks 0 (size x) x (Fi x).
Proof. intros F. exists x. unfold size. pose proof (Rabs_pos x). split; [reflexivity|]. split; [exact F|]. split; [lra|]. split; [lra|]. rewrite Rminus_diag_eq, Rabs_R0 by reflexivity. lra. Qed.
Lemma tracks_opp c M x a : tracks c M x a -> tracks c M (- x) (eneg a).
Proof.
  intros (v & -> & F & X & M1 & D). exists (- v). split; [reflexivity|]. split; [now apply float_opp|]. rewrite Rabs_Ropp. split; [exact X|]. split; [exact M1|]. replace (- v - - x) with (- (v - x)) by ring. now rewrite Rabs_Ropp.
Qed.
Lemma tracks_add c1 c2 c M1 M2 x1 x2 a1 a2 : tracks c1 M1 x1 a1 -> tracks c2 M2 x2 a2 -> 0 <= c1 <= c -> 0 <= c2 <= c -> c <= 16 -> M1 + M2 <= b (top - 2) ->
  tracks (c + 4 / 3) (M1 + M2) (x1 + x2) (fadd prec top a1 a2).
Proof.
  intros (v1 & -> & F1 & X1 & m1 & D1) (v2 & -> & F2 & X2 & m2 & D2) C1 C2 C H. pose proof (u_pos prec) as U. unfold fadd. cbn [eadd].
  apply tracks_round; [lra|eapply Rle_trans; [apply Rabs_triang|lra]|lra|]. replace (v1 + v2 - (x1 + x2)) with ((v1 - x1) + (v2 - x2)) by ring. eapply Rle_trans; [apply Rabs_triang|].
  assert (c1 * u * M1 <= c * u * M1) by (apply Rmult_le_compat_r; [lra|apply Rmult_le_compat_r; lra]). assert (c2 * u * M2 <= c * u * M2) by (apply Rmult_le_compat_r; [lra|apply Rmult_le_compat_r; lra]). lra.
Qed.
Lemma tracks_sub c1 c2 c M1 M2 x1 x2 a1 a2 : tracks c1 M1 x1 a1 -> tracks c2 M2 x2 a2 -> 0 <= c1 <= c -> 0 <= c2 <= c -> c <= 16 -> M1 + M2 <= b (top - 2) ->
  tracks (c + 4 / 3) (M1 + M2) (x1 - x2) (fsub prec top a1 a2).
Proof.
  intros T1 T2 C1 C2 C H. apply tracks_opp in T2. exact (tracks_add _ _ _ _ _ _ _ _ _ T1 T2 C1 C2 C H).
Qed.
(** A factor with a relative error of at most u. *)
Lemma tracks_scale c M w w' x a : Rabs (w' - w) <= u * Rabs w -> tracks c M x a -> 0 <= c <= 12 -> 1 + Rabs w * M <= b (top - 2) ->
  tracks (c + 8 / 3) (1 + Rabs w * M) (w * x) (fmul prec top (Fi w') a).
Proof.
  intros D' (v & -> & F & X & m & D) C H. pose proof (u_pos prec) as U. pose proof u_64 as U6. unfold fmul. cbn [emul]. pose proof (Rabs_pos w) as Pw.
  apply tracks_weaken with (c := c + 5 / 4 + 4 / 3) (M := 1 + Rabs w * M); [|lra|lra].
  assert (CU : c * u <= 1 / 4) by (apply Rle_trans with (12 * (1 / 64)); [apply Rmult_le_compat; lra|lra]).
  assert (V : Rabs v <= 5 / 4 * M). { replace v with (x + (v - x)) by ring. eapply Rle_trans; [apply Rabs_triang|]. assert (c * u * M <= 1 / 4 * M) by (apply Rmult_le_compat_r; lra). lra. }
  assert (PM : 0 <= Rabs w * M) by (apply Rmult_le_pos; lra).
  apply tracks_round; [lra| |lra|].
  - rewrite Rabs_mult. assert (Rabs w * Rabs x <= Rabs w * M) by (apply Rmult_le_compat_l; lra). lra.
  - replace (w' * v - w * x) with ((w' - w) * v + w * (v - x)) by ring. eapply Rle_trans; [apply Rabs_triang|]. rewrite !Rabs_mult.
    assert (Rabs (w' - w) * Rabs v <= u * Rabs w * (5 / 4 * M)) by (apply Rmult_le_compat; auto using Rabs_pos).
    assert (Rabs w * Rabs (v - x) <= Rabs w * (c * u * M)) by (apply Rmult_le_compat_l; lra). assert (0 <= (c + 5 / 4) * u) by (apply Rmult_le_pos; lra).
    replace ((c + 5 / 4) * u * (1 + Rabs w * M)) with ((c + 5 / 4) * u + u * Rabs w * (5 / 4 * M) + Rabs w * (c * u * M)) by ring. lra.
Qed.
Lemma tracks_mul c M w x a : tracks c M x a -> 0 <= c <= 12 -> 1 + Rabs w * M <= b (top - 2) -> tracks (c + 4 / 3) (1 + Rabs w * M) (w * x) (fmul prec top (Fi w) a).
Proof.
  intros (v & -> & F & X & m & D) C H. pose proof (u_pos prec) as U. unfold fmul. cbn [emul]. pose proof (Rabs_pos w) as Pw. assert (PM : 0 <= Rabs w * M) by (apply Rmult_le_pos; lra).
  apply tracks_round; [lra| |lra|].
  - rewrite Rabs_mult. assert (Rabs w * Rabs x <= Rabs w * M) by (apply Rmult_le_compat_l; lra). lra.
  - rewrite <- Rmult_minus_distr_l, Rabs_mult. assert (Rabs w * Rabs (v - x) <= Rabs w * (c * u * M)) by (apply Rmult_le_compat_l; lra). assert (0 <= c * u) by (apply Rmult_le_pos; lra).
    replace (c * u * (1 + Rabs w * M)) with (c * u + Rabs w * (c * u * M)) by ring. lra.
Qed.
Lemma tracks_product x y : size (x * y) <= b (top - 2) -> tracks (4 / 3) (size (x * y)) (x * y) (fmul prec top (Fi x) (Fi y)).
Proof.
  intros H. pose proof (u_pos prec). unfold size in *. pose proof (Rabs_pos (x * y)). unfold fmul. cbn [emul]. replace (4 / 3) with (0 + 4 / 3) by ring. apply tracks_round; try lra. rewrite Rminus_diag_eq, Rabs_R0 by reflexivity. lra.
Qed.
Lemma tracks_quotient x y : y <> 0 -> size (x / y) <= b (top - 2) -> tracks (4 / 3) (size (x / y)) (x / y) (fdiv prec top (Fi x) (Fi y)).
Proof.
  intros Y H. pose proof (u_pos prec). unfold size in *. pose proof (Rabs_pos (x / y)). rewrite fdiv_fi by exact Y. replace (4 / 3) with (0 + 4 / 3) by ring. apply tracks_round; try lra. rewrite Rminus_diag_eq, Rabs_R0 by reflexivity. lra.
Qed.
Lemma relative_sub x y : float x -> float y -> Rabs (x - y) <= b (top - 1) -> fsub prec top (Fi x) (Fi y) = Fi (near (x - y)) /\ float (near (x - y)) /\ Rabs (near (x - y) - (x - y)) <= u * Rabs (x - y).
Proof.
  intros (Fx & _) (Fy & _) H. unfold fsub, esub. cbn [eneg eadd]. change (x + - y) with (x - y). destruct (float_near prec top A (x - y) H) as (E & F). split; [exact E|]. split; [exact F|].
  destruct (factor_sub prec top A x y Fx Fy) as (f & -> & B). replace ((x - y) * f - (x - y)) with ((x - y) * (f - 1)) by ring. rewrite Rabs_mult. pose proof (Rabs_pos (x - y)). rewrite (Rmult_comm u). apply Rmult_le_compat_l; lra.
Qed.
Lemma relative_add x y : float x -> float y -> Rabs (x + y) <= b (top - 1) -> fadd prec top (Fi x) (Fi y) = Fi (near (x + y)) /\ float (near (x + y)) /\ Rabs (near (x + y) - (x + y)) <= u * Rabs (x + y).
Proof.
  intros (Fx & _) (Fy & _) H. unfold fadd. cbn [eadd]. destruct (float_near prec top A (x + y) H) as (E & F). split; [exact E|]. split; [exact F|].
  destruct (factor_add prec top A x y Fx Fy) as (f & -> & B). replace ((x + y) * f - (x + y)) with ((x + y) * (f - 1)) by ring. rewrite Rabs_mult. pose proof (Rabs_pos (x + y)). rewrite (Rmult_comm u). apply Rmult_le_compat_l; lra.
Qed.
Variables liblog liblgamma libsoftplus lgamma : R -> R.
Hypothesis FL : faithful_log prec top liblog.
Hypothesis FG : accurate_lgamma prec top liblgamma lgamma.
Hypothesis FS : accurate_softplus prec top libsoftplus.
Lemma tracks_log x : float x -> 0 < x -> tracks 2 (log_size x) (ln x) (felog top liblog (Fi x)).
Proof.
  intros F P. destruct (log_any prec top A liblog x FL F P) as (E & F' & B & D). pose proof (u_pos prec). exists (liblog x). split; [exact E|].
  split; [split; [exact F'|]; eapply Rle_lt_trans; [exact B|]; pose proof (top_bound prec top A); apply Rle_lt_trans with (b (top - 2)); [lra|apply bpow_lt; lia]|].
  unfold log_size. pose proof (Rabs_pos (ln x)). split; [lra|]. split; [lra|]. lra.
Qed.
(** The logarithm of a number with a relative error of at most u. *)
Lemma tracks_log_near x y : float y -> 0 < y -> 0 < x -> Rabs (y - x) <= u * x -> tracks 4 (log_size x) (ln x) (felog top liblog (Fi y)).
Proof.
  intros F Py Px D. destruct (tracks_log y F Py) as (v & E & Fv & _ & _ & Dv). exists v. split; [exact E|]. split; [exact Fv|]. unfold log_size in *. pose proof (Rabs_pos (ln x)). split; [lra|]. split; [lra|].
  pose proof (u_pos prec) as U. pose proof u_64 as U6. assert (PU : 0 <= u * x) by (apply Rmult_le_pos; lra). assert (UX : u * x <= 1 / 64 * x) by (apply Rmult_le_compat_r; lra). apply Rabs_le_inv in D as D1.
  assert (L : Rabs (ln y - ln x) <= 64 / 63 * u).
  { eapply Rle_trans; [apply (ln_close y x (63 / 64 * x)); lra|]. apply Rle_trans with (u * x / (63 / 64 * x)); [apply Rmult_le_compat_r; [left; apply Rinv_0_lt_compat; lra|exact D]|]. right. field. lra. }
  assert (Rabs (ln y) <= Rabs (ln x) + 1 / 63). { replace (ln y) with (ln x + (ln y - ln x)) by ring. eapply Rle_trans; [apply Rabs_triang|]. lra. }
  replace (v - ln x) with ((v - ln y) + (ln y - ln x)) by ring. eapply Rle_trans; [apply Rabs_triang|].
  assert (2 * u * (1 + Rabs (ln y)) <= 2 * u * (1 + (Rabs (ln x) + 1 / 63))) by (apply Rmult_le_compat_l; lra). assert (0 <= u * Rabs (ln x)) by (apply Rmult_le_pos; lra). lra.
Qed.
Lemma tracks_accurate f g x : accurate_at prec top f g x -> size (g x) <= b (top - 2) -> overflow top (f x) = Fi (f x) /\ tracks 2 (size (g x)) (g x) (Fi (f x)).
Proof.
  intros (F & D) H. unfold size in *. pose proof (u_pos prec) as U. pose proof u_64 as U6. pose proof (Rabs_pos (g x)).
  assert (B : Rabs (f x) < b top).
  { replace (f x) with (g x + (f x - g x)) by ring. eapply Rle_lt_trans; [apply Rabs_triang|]. assert (2 * u * (1 + Rabs (g x)) <= 1 / 32 * (1 + Rabs (g x))) by (apply Rmult_le_compat_r; lra).
    apply Rle_lt_trans with (2 * b (top - 2)); [lra|]. replace top with (top - 2 + 2)%Z at 2 by lia. rewrite (bpow_plus radix2 (top - 2) 2). change (bpow radix2 2) with 4. pose proof (bpow_gt_0 radix2 (top - 2)). lra. }
  split; [now apply overflow_small|]. exists (f x). split; [reflexivity|]. split; [now split|]. split; [lra|]. split; [lra|exact D].
Qed.
Lemma not_pole x : 0 < x -> at_pole x = false.
Proof. intros P. unfold at_pole. destruct (Rle_dec x 0); [lra|reflexivity]. Qed.
Lemma tracks_lgamma x : float x -> 0 < x -> size (lgamma x) <= b (top - 2) -> tracks 2 (size (lgamma x)) (lgamma x) (felgamma top liblgamma (Fi x)).
Proof. intros F P H. unfold felgamma. rewrite not_pole by exact P. destruct (tracks_accurate _ _ _ (FG x F P) H) as (-> & T). exact T. Qed.
Lemma softplus_size x : 0 <= ln (1 + exp x) <= 1 + Rabs x.
Proof.
  pose proof (exp_pos x) as P. split; [rewrite <- ln_1; apply ln_le'; lra|]. pose proof (Rle_abs x) as L. pose proof (Rabs_pos x) as N. assert (exp x <= exp (Rabs x)) by now apply exp_le. assert (1 <= exp (Rabs x)) by (rewrite <- exp_0; now apply exp_le).
  apply Rle_trans with (ln (2 * exp (Rabs x))); [apply ln_le'; lra|]. rewrite ln_mult, ln_exp by (try apply exp_pos; lra). pose proof ln_2_le. lra.
Qed.
Lemma tracks_softplus_exact x : float x -> 2 + Rabs x <= b (top - 2) -> tracks 2 (2 + Rabs x) (ln (1 + exp x)) (fsoftplus top libsoftplus (Fi x)).
Proof.
  intros F H. pose proof (softplus_size x) as S. destruct (tracks_accurate _ _ _ (FS x F)) as (E & T); [unfold size; rewrite Rabs_pos_eq; lra|]. unfold fsoftplus. rewrite E.
  eapply tracks_weaken; [exact T|lra|]. unfold size. rewrite Rabs_pos_eq; lra.
Qed.
Lemma tracks_softplus c M x a : tracks c M x a -> 0 <= c <= 12 -> 2 + M <= b (top - 3) -> tracks (c + 5 / 2) (2 + M) (ln (1 + exp x)) (fsoftplus top libsoftplus a).
Proof.
  intros (v & -> & F & X & m & D) C H. pose proof (u_pos prec) as U. pose proof u_64 as U6. pose proof (softplus_size x) as S.
  assert (CU : c * u <= 1 / 4) by (apply Rle_trans with (12 * (1 / 64)); [apply Rmult_le_compat; lra|lra]).
  assert (V : Rabs v <= 5 / 4 * M). { replace v with (x + (v - x)) by ring. eapply Rle_trans; [apply Rabs_triang|]. assert (c * u * M <= 1 / 4 * M) by (apply Rmult_le_compat_r; lra). lra. }
  assert (T : b (top - 2) = 2 * b (top - 3)) by (replace (top - 2)%Z with (top - 3 + 1)%Z by lia; rewrite bpow_plus; change (bpow radix2 1) with 2; ring).
  destruct (tracks_softplus_exact v F) as (w & E & Fw & _ & _ & Dw); [lra|]. exists w. split; [exact E|]. split; [exact Fw|]. rewrite Rabs_pos_eq by lra. split; [lra|]. split; [lra|].
  pose proof (softplus_close v x) as SC. rewrite (Rplus_comm (exp v)), (Rplus_comm (exp x)) in SC. replace (w - ln (1 + exp x)) with ((w - ln (1 + exp v)) + (ln (1 + exp v) - ln (1 + exp x))) by ring. eapply Rle_trans; [apply Rabs_triang|].
  assert (2 * u * (2 + Rabs v) <= 2 * u * (2 + 5 / 4 * M)) by (apply Rmult_le_compat_l; lra). assert (0 <= c * u) by (apply Rmult_le_pos; lra). assert (0 <= u * M) by (apply Rmult_le_pos; lra). lra.
Qed.
End Proofs.

Lemma stirling n : (1 <= n)%nat -> INR n * ln (INR n) - INR n + 1 <= ln (INR (fact n)) <= (INR n + 1) * ln (INR n) - INR n + 1.
Proof.
  induction n as [|n IH]; [lia|]. intros _. destruct (Nat.eq_dec n 0) as [->|N]; [cbn [fact Nat.mul Nat.add INR]; rewrite ln_1; lra|]. specialize (IH ltac:(lia)).
  assert (P : 1 <= INR n) by (apply (le_INR 1); lia). change (fact (S n)) with (S n * fact n)%nat. rewrite mult_INR, ln_mult by (try apply lt_0_INR; try apply lt_O_fact; lia). rewrite S_INR. set (x := INR n) in *.
  assert (L1 : ln (x + 1) - ln x <= 1 / x). { pose proof (ln_le_sub ((x + 1) / x)) as H. unfold Rdiv in *. rewrite ln_mult, ln_Rinv in H by (try apply Rinv_0_lt_compat; lra). assert (0 < (x + 1) * / x) by (apply Rmult_lt_0_compat; [lra|apply Rinv_0_lt_compat; lra]). specialize (H ltac:(assumption)). replace ((x + 1) * / x - 1) with (1 * / x) in H by (field; lra). lra. }
  assert (L2 : 1 / (x + 1) <= ln (x + 1) - ln x). { pose proof (ln_le_sub (x / (x + 1))) as H. unfold Rdiv in *. rewrite ln_mult, ln_Rinv in H by (try apply Rinv_0_lt_compat; lra). assert (0 < x * / (x + 1)) by (apply Rmult_lt_0_compat; [lra|apply Rinv_0_lt_compat; lra]). specialize (H ltac:(assumption)). replace (x * / (x + 1) - 1) with (- (1 * / (x + 1))) in H by (field; lra). lra. }
  assert (M1 : x * (ln (x + 1) - ln x) <= 1). { apply Rle_trans with (x * (1 / x)); [apply Rmult_le_compat_l; lra|right; field; lra]. }
  assert (M2 : 1 <= (x + 1) * (ln (x + 1) - ln x)). { apply Rle_trans with ((x + 1) * (1 / (x + 1))); [right; field; lra|apply Rmult_le_compat_l; lra]. }
  split; lra.
Qed.
Lemma ln_2_range : 3 / 5 <= ln 2 <= 1.
Proof.
  split; [|apply ln_2_le]. assert (3 <= 5 * ln 2); [|lra]. replace (5 * ln 2) with (ln (2 ^ 5)) by (rewrite ln_pow by lra; cbn [INR]; ring). rewrite <- (ln_exp 3). apply ln_le'; [apply exp_pos|].
  replace 3 with (1 + 1 + 1) by ring. rewrite !exp_plus. pose proof exp_le_3 as E. pose proof (exp_pos 1). apply Rle_trans with (3 * 3 * 3); [|lra]. apply Rmult_le_compat; try lra; try (apply Rmult_le_pos; lra). apply Rmult_le_compat; lra.
Qed.
(** Large floats lie on a coarse grid. *)
Lemma coarse prec top v e : generic_format radix2 (fexpo prec top) v -> bpow radix2 e <= Rabs v -> exists z, v = IZR z * bpow radix2 (e + 1 - prec).
Proof.
  intros F B. assert (v <> 0) by (intros ->; rewrite Rabs_R0 in B; pose proof (bpow_gt_0 radix2 e); lra).
  assert (M : (e + 1 <= mag radix2 v)%Z) by (apply mag_ge_bpow; replace (e + 1 - 1)%Z with e by lia; exact B).
  assert (C : (e + 1 - prec <= cexp radix2 (fexpo prec top) v)%Z) by (unfold cexp, fexpo, FLT_exp; lia). set (c := cexp radix2 (fexpo prec top) v) in *.
  exists (Ztrunc (scaled_mantissa radix2 (fexpo prec top) v) * 2 ^ (c - (e + 1 - prec)))%Z. rewrite F at 1. unfold F2R. cbn [Fnum Fexp]. fold c. rewrite mult_IZR.
  change (2 ^ (c - (e + 1 - prec)))%Z with (Zpower radix2 (c - (e + 1 - prec))). rewrite (IZR_Zpower radix2) by lia. rewrite Rmult_assoc, <- bpow_plus. do 2 f_equal. lia.
Qed.
