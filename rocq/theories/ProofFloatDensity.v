(** Proofs for C59. *)
From Coq Require Import List Arith Bool Reals ZArith Lra Lia Permutation.
From Flocq Require Import Core Relative Plus_error Mult_error.
From Verif Require Import ModelExt ModelSpecial ModelNum ModelFloat ModelFloatSample ModelFloatDensity SpecFloat ProofFloat ProofFloatSample.
Import ListNotations.
Local Open Scope R_scope.

Lemma ln_2pi : 0 <= ln (2 * PI) <= 2.
Proof.
  pose proof PI2_3_2 as P3. pose proof (PI_ineq 1) as (_ & PP). unfold PI_tg, tg_alt in PP. cbn in PP.
  pose proof (pow_exp (1 / 32) 32 ltac:(lra)) as X. replace (INR 32 * (1 / 32)) with 1 in X by (rewrite INR_IZR_INZ; cbn; lra). assert (Y : 265 / 100 <= exp 1) by (eapply Rle_trans; [|exact X]; cbn; lra).
  split; [rewrite <- ln_1; apply ln_le'; lra|]. apply Rle_trans with (ln (exp 2)); [|right; apply ln_exp]. apply ln_le'; [lra|]. replace (exp 2) with (exp 1 * exp 1) by (rewrite <- exp_plus; f_equal; ring).
  apply Rle_trans with (265 / 100 * (265 / 100)); [lra|]. apply Rmult_le_compat; lra.
Qed.

Section Proofs.
Variables prec top : Z.
Hypothesis A : ample prec top.
Let W : wide prec top := proj1 A.
Notation u := (unit_roundoff prec).
Notation fmt := (generic_format radix2 (fexpo prec top)).
Notation float := (is_float prec top).
Notation near := (nearest prec top).
Notation b e := (bpow radix2 e).
Local Instance prec_pos_d : Prec_gt_0 prec := prec_pos prec top W.
Local Instance fexpo_valid_d : Valid_exp (fexpo prec top) := fexpo_valid prec top W.
Local Instance fexpo_mono_d : Monotone_exp (fexpo prec top) := fexpo_mono prec top.

Lemma u_eighth : u <= 1 / 8.
Proof.
  pose proof A as (_ & p3 & _). unfold unit_roundoff. apply Rle_trans with (b (-3)); [apply bpow_le; lia|]. cbn. lra.
Qed.
Lemma top_big : (prec + 3 <= top)%Z.
Proof.
  pose proof A as ((w1 & w2 & w3) & p3 & _). destruct (Z.eq_dec top (prec + 2)) as [E|E]; [|lia]. exfalso. rewrite E in w3.
  replace (prec + 2 - prec - 1)%Z with 1%Z in w3 by lia. change (2 ^ 1)%Z with 2%Z in w3. lia.
Qed.
Lemma top_bound : 1 + 2 * IZR top <= b (top - 2).
Proof.
  pose proof top_big. pose proof A as (_ & p3 & _). rewrite <- (IZR_Zpower radix2) by lia. change (Zpower radix2 (top - 2)) with (2 ^ (top - 2))%Z.
  rewrite <- (mult_IZR 2 top), <- (plus_IZR 1). apply IZR_le. destruct (Z.eq_dec top 6) as [->|N]; [vm_compute; discriminate|].
  replace (top - 2)%Z with (2 + (top - 4))%Z by lia. rewrite Z.pow_add_r by lia. change (2 ^ 2)%Z with 4%Z. pose proof (Z.pow_gt_lin_r 2 (top - 4)). lia.
Qed.
Lemma float_near x : Rabs x <= b (top - 1) -> rounded prec top (Fi x) = Fi (near x) /\ float (near x).
Proof.
  intros H. split; [apply rounded_finite; auto|]. split; [apply near_fmt, W|]. apply bounded_float, near_bpow; auto. pose proof top_big. pose proof A as (_ & p3 & _). lia.
Qed.
Lemma near_err_half x : Rabs (near x - x) <= u * Rabs x + b (3 - top - prec) / 2.
Proof. eapply Rle_trans; [apply error_le_half_ulp; exact _|]. pose proof (ulp_bound prec top W x). lra. Qed.
Lemma fmt_twice x : fmt x -> fmt (2 * x).
Proof. intros F. rewrite Rmult_comm. apply (mult_bpow_pos_exact_FLT radix2 (3 - top - prec) prec x 1 F). lia. Qed.
Lemma fmt_half x : fmt x -> b (3 - top) <= x -> fmt (1 / 2 * x).
Proof.
  intros F H. replace (1 / 2 * x) with (x * b (-1)) by (cbn; lra). apply (mult_bpow_exact_FLT radix2 (3 - top - prec) prec x (-1) F).
  assert (4 - top <= mag radix2 x)%Z; [|lia]. apply mag_ge_bpow. replace (4 - top - 1)%Z with (3 - top)%Z by lia. rewrite Rabs_pos_eq; [exact H|]. pose proof (bpow_gt_0 radix2 (3 - top)). lra.
Qed.
Lemma float_pos x : float x -> 0 < x -> b (3 - top - prec) <= x.
Proof.
  intros (F & _) P. apply (generic_format_ge_bpow radix2 (fexpo prec top)); [|exact P|exact F]. intros e. unfold fexpo, FLT_exp. lia.
Qed.
(** tf.log on every positive float. *)
Lemma log_any liblog x : faithful_log prec top liblog -> float x -> 0 < x ->
  felog top liblog (Fi x) = Fi (liblog x) /\ fmt (liblog x) /\ Rabs (liblog x) <= 2 * IZR top /\ Rabs (liblog x - ln x) <= 2 * u * Rabs (ln x) + u / 2.
Proof.
  intros FL Fx P. pose proof (FL x Fx P) as F. pose proof (faithful_fmt prec top W _ _ _ F) as F'. destruct (fmt_top prec top W A) as (Ft & T1 & T2).
  pose proof (fmt_twice _ Ft) as F2. pose proof top_bound as TB. pose proof top_big. pose proof A as (_ & p3 & _). pose proof ln_2_le as L2. pose proof (float_pos x Fx P) as LB.
  assert (R : - (2 * IZR top) <= ln x <= 2 * IZR top).
  { split.
    - apply Rle_trans with (ln (b (3 - top - prec))); [|apply ln_le'; [apply bpow_gt_0|exact LB]]. rewrite ln_bpow.
      assert (- (2 * IZR top) <= IZR (3 - top - prec)) by (rewrite <- mult_IZR, <- opp_IZR; apply IZR_le; lia). assert (IZR (3 - top - prec) <= 0) by (apply IZR_le; lia). nra.
    - destruct Fx as (_ & Bx). rewrite Rabs_pos_eq in Bx by lra. apply Rle_trans with (ln (b top)); [apply ln_le'; lra|]. rewrite ln_bpow.
      assert (0 <= IZR top) by (apply IZR_le; lia). nra. }
  assert (R' : Rabs (liblog x) <= 2 * IZR top).
  { apply Rabs_le. split; [apply (faithful_ge prec top W _ _ _ _ F); [now apply fmt_opp|lra]|apply (faithful_le prec top W _ _ _ _ F); [exact F2|lra]]. }
  split; [|split; [exact F'|split; [exact R'|]]].
  - cbn. destruct (Rlt_dec 0 x); [|lra]. apply overflow_small. eapply Rle_lt_trans; [exact R'|]. apply Rle_lt_trans with (b (top - 2)); [lra|]. apply bpow_lt. lia.
  - eapply Rle_trans; [apply (faithful_err prec top W _ _ _ F)|]. pose proof (ulp_bound prec top W (ln x)). pose proof (eta_small prec top W). lra.
Qed.
Lemma constant_spec c : Rabs c <= 1 -> exists c', constant prec top c = Fi c' /\ fmt c' /\ Rabs c' <= 1 /\ Rabs (c' - c) <= 3 / 2 * u /\ (c <= 0 -> c' <= 0).
Proof.
  intros H. pose proof (one_le_top prec top W). pose proof (u_pos prec). pose proof (eta_small prec top W). exists (near c). destruct (float_near c) as (E & F & _); [lra|].
  split; [exact E|]. split; [exact F|]. split; [apply (near_bpow prec top W c 0); [pose proof A as (_ & p3 & _); pose proof top_big; lia|exact H]|].
  split; [pose proof (near_err prec top W c); nra|]. intros N. apply near_le_fmt; [exact W|apply generic_format_0|exact N].
Qed.
Lemma eneg_overflow y : eneg (overflow top y) = overflow top (- y).
Proof.
  unfold overflow. rewrite Rabs_Ropp. destruct (Rlt_dec (Rabs y) _) as [H|H]; [reflexivity|].
  assert (y <> 0) by (intros ->; apply H; rewrite Rabs_R0; apply bpow_gt_0). destruct (Rlt_dec 0 y), (Rlt_dec 0 (- y)); try lra; reflexivity.
Qed.
Lemma eneg_fsub x y : eneg (fsub prec top x y) = fsub prec top y x.
Proof.
  unfold fsub, esub. destruct x as [x| | |], y as [y| | |]; try reflexivity. cbn [eneg eadd rounded]. rewrite eneg_overflow, <- (near_opp prec top).
  f_equal. f_equal. ring.
Qed.
Lemma NoDup_parts {X} (l l' : list X) : NoDup (l ++ l') -> NoDup l /\ NoDup l' /\ forall x, In x l -> In x l' -> False.
Proof.
  induction l as [|a l IH]; cbn; intros N; [split; [constructor|split; [exact N|intros x []]]|]. inversion N as [|? ? N1 N2]; subst. destruct (IH N2) as (I1 & I2 & I3).
  split; [constructor; [intros H; apply N1, in_or_app; auto|exact I1]|]. split; [exact I2|]. intros x [<-|H] H'; [apply N1, in_or_app; auto|eauto].
Qed.
(** A sum with one term that is not 0. *)
Lemma sum_single w i l : float w -> (forall j, (j < length l)%nat -> nth_error l j = Some (if Nat.eqb j i then Fi w else Fi 0)) ->
  forall p, NoDup (entries p) -> (forall j, In j (entries p) -> (j < length l)%nat) ->
  fsum prec top p l = if in_dec Nat.eq_dec i (entries p) then Fi w else Fi 0.
Proof.
  intros (F & B) H. assert (Z : forall x y, x = w /\ y = 0 \/ x = 0 /\ y = w \/ x = 0 /\ y = 0 -> fadd prec top (Fi x) (Fi y) = Fi (x + y)).
  { intros x y [(-> & ->)|[(-> & ->)|(-> & ->)]]; unfold fadd; cbn [eadd rounded]; rewrite ?Rplus_0_r, ?Rplus_0_l.
    - rewrite (near_id prec top) by exact F. now apply overflow_small.
    - rewrite (near_id prec top) by exact F. now apply overflow_small.
    - rewrite (near_id prec top) by apply generic_format_0. apply overflow_small. rewrite Rabs_R0. apply bpow_gt_0. }
  induction p as [|j|p IHp q IHq]; intros N I; cbn [entries fsum] in *.
  - reflexivity.
  - pose proof (H j (I j (or_introl eq_refl))) as Hj. rewrite (nth_error_nth _ _ _ Hj). destruct (in_dec Nat.eq_dec i [j]) as [[->|[]]|X]; [now rewrite Nat.eqb_refl|].
    destruct (Nat.eqb_spec j i) as [->|]; [exfalso; apply X; now left|reflexivity].
  - destruct (NoDup_parts _ _ N) as (Np & Nq & D). specialize (D i). rewrite IHp, IHq by (auto; intros; apply I, in_or_app; auto).
    destruct (in_dec Nat.eq_dec i (entries p)) as [Ip|Ip], (in_dec Nat.eq_dec i (entries q)) as [Iq|Iq], (in_dec Nat.eq_dec i (entries p ++ entries q)) as [J|J];
      try (exfalso; tauto); try (exfalso; apply J, in_or_app; tauto); try (apply in_app_or in J; exfalso; tauto); rewrite Z by auto; f_equal; ring.
Qed.
End Proofs.
