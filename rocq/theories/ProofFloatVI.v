(** Lemmas for C65. *)
From Coq Require Import List Arith Bool Reals ZArith Lra Lia Permutation.
From Flocq Require Import Core.
From Verif Require Import ModelExt ModelSpecial ModelNum ModelFloat ModelFloatSample ModelFloatTune ModelFloatVI SpecFloat SpecFloatImportance SpecFloatVI ProofFloat ProofFloatSample ProofFloatDensity ProofFloatTune ProofFloatMass ProofFloatImportance.
Import ListNotations.
Local Open Scope R_scope.

(** ** The exact fading mean *)
Definition num (g : R) (xs : list R) : R := rsum (map (fun q => fst q * snd q) (combine (powers g (length xs)) xs)).
Definition den (g : R) (n : nat) : R := rsum (powers g n).
Lemma den_S g n : den g (S n) = g ^ n + den g n. Proof. reflexivity. Qed.
Lemma den_S' g n : den g (S n) = g * den g n + 1.
Proof. induction n as [|n IH]; [cbn; lra|]. rewrite (den_S g (S n)), IH at 1. rewrite (den_S g n). cbn [pow]. ring_simplify. rewrite den_S in IH. lra. Qed.
Lemma den_pow g n : (1 - g) * den g n = 1 - g ^ n.
Proof. induction n as [|n IH]; [cbn; lra|]. rewrite den_S. cbn [pow]. rewrite Rmult_plus_distr_l, IH. ring. Qed.
Lemma den_pos g n : 0 <= g -> (0 < n)%nat -> 1 <= den g n.
Proof. intros G N. destruct n as [|n]; [lia|]. rewrite den_S'. assert (0 <= den g n); [|nra]. clear N. induction n as [|n IH]; [cbn; lra|]. rewrite den_S. pose proof (pow_le g n G). lra. Qed.
Lemma den_nonneg g n : 0 <= g -> 0 <= den g n.
Proof. intros G. destruct n; [cbn; lra|]. pose proof (den_pos g (S n) G ltac:(lia)). lra. Qed.
Lemma num_app g xs x : num g (xs ++ [x]) = g * num g xs + x.
Proof.
  unfold num. induction xs as [|y xs IH]; [cbn; lra|]. rewrite app_length in *. cbn [length app] in *. replace (length xs + 1)%nat with (S (length xs)) in * by lia. cbn [Nat.add powers combine map rsum fold_right fst snd pow] in *. 
  change (fold_right Rplus 0 ?l) with (rsum l) in *. replace (length xs + 1)%nat with (S (length xs)) by lia. cbn [powers combine map rsum fold_right fst snd pow] in *. change (fold_right Rplus 0 ?l) with (rsum l) in *. rewrite IH. ring.
Qed.
Lemma num_bound g xs B : 0 <= g -> Forall (fun x => Rabs x <= B) xs -> Rabs (num g xs) <= B * den g (length xs).
Proof.
  intros G H. unfold num, den. induction H as [|x xs X H IH]; [cbn; rewrite Rabs_R0; lra|]. cbn [length powers combine map rsum fold_right fst snd]. unfold rsum in IH. eapply Rle_trans; [apply Rabs_triang|]. rewrite Rabs_mult, (Rabs_pos_eq (g ^ _)) by now apply pow_le.
  pose proof (pow_le g (length xs) G). assert (g ^ length xs * Rabs x <= g ^ length xs * B) by now apply Rmult_le_compat_l. lra.
Qed.
Lemma num_close g xs ys d : 0 <= g -> Forall2 (fun x y => Rabs (x - y) <= d) xs ys -> Rabs (num g xs - num g ys) <= d * den g (length xs).
Proof.
  intros G H. assert (L : length xs = length ys) by (clear - H; induction H; cbn; auto). unfold num, den. clear L. induction H as [|x y xs ys X H IH]; [cbn; rewrite Rminus_0_r, Rabs_R0; lra|]. 
  assert (L : length xs = length ys) by (clear - H; induction H; cbn; auto). cbn [length powers combine map rsum fold_right fst snd]. rewrite <- L in *. unfold rsum in IH. match goal with |- Rabs (?w * x + ?p - (?w * y + ?q)) <= _ => replace (w * x + p - (w * y + q)) with (w * (x - y) + (p - q)) by ring end.
  eapply Rle_trans; [apply Rabs_triang|]. rewrite Rabs_mult, (Rabs_pos_eq (g ^ _)) by now apply pow_le. pose proof (pow_le g (length xs) G). assert (g ^ length xs * Rabs (x - y) <= g ^ length xs * d) by now apply Rmult_le_compat_l. lra.
Qed.
Lemma fading_close g xs ys d : 0 <= g -> 0 <= d -> Forall2 (fun x y => Rabs (x - y) <= d) xs ys -> Rabs (fading_mean g xs - fading_mean g ys) <= d.
Proof.
  intros G D H. assert (L : length xs = length ys) by (clear - H; induction H; cbn; auto). pose proof (num_close g xs ys d G H) as C. unfold fading_mean. fold (num g xs) (num g ys) (den g (length xs)) (den g (length ys)). rewrite <- L.
  destruct xs as [|x xs]; [destruct ys; [|discriminate]; cbn; unfold Rdiv; rewrite !Rmult_0_l, Rminus_0_r, Rabs_R0; exact D|]. pose proof (den_pos g (length (x :: xs)) G ltac:(cbn; lia)) as P. unfold Rdiv. rewrite <- Rmult_minus_distr_r, Rabs_mult, (Rabs_pos_eq (/ _)) by (left; apply Rinv_0_lt_compat; lra).
  apply (Rmult_le_reg_r (den g (length (x :: xs)))); [lra|]. rewrite Rmult_assoc, Rinv_l by lra. lra.
Qed.
Lemma fading_bound g xs B : 0 <= g -> 0 <= B -> Forall (fun x => Rabs x <= B) xs -> Rabs (fading_mean g xs) <= B.
Proof.
  intros G B0 H. pose proof (num_bound g xs B G H) as C. unfold fading_mean. fold (num g xs) (den g (length xs)). destruct xs as [|x xs]; [cbn; unfold Rdiv; rewrite Rmult_0_l, Rabs_R0; exact B0|].
  pose proof (den_pos g (length (x :: xs)) G ltac:(cbn; lia)) as P. unfold Rdiv. rewrite Rabs_mult, (Rabs_pos_eq (/ _)) by (left; apply Rinv_0_lt_compat; lra). apply (Rmult_le_reg_r (den g (length (x :: xs)))); [lra|]. rewrite Rmult_assoc, Rinv_l by lra. lra.
Qed.
Lemma pow_close g e n : 0 <= g -> 0 <= e <= 1 -> Rabs (e ^ n - g ^ n) <= Rabs (e - g) * den g n.
Proof.
  intros G E. induction n as [|n IH]; [cbn; rewrite Rminus_eq_0, Rabs_R0; pose proof (Rabs_pos (e - g)); lra|]. cbn [pow]. rewrite den_S. replace (e * e ^ n - g * g ^ n) with (e * (e ^ n - g ^ n) + (e - g) * g ^ n) by ring. eapply Rle_trans; [apply Rabs_triang|].
  rewrite !Rabs_mult, (Rabs_pos_eq e), (Rabs_pos_eq (g ^ n)) by (try apply pow_le; lra). pose proof (Rabs_pos (e ^ n - g ^ n)). nra.
Qed.

Lemma den_mono g k n : 0 <= g -> (k <= n)%nat -> den g k <= den g n.
Proof. intros G L. induction L as [|n L IH]; [lra|]. rewrite den_S. pose proof (pow_le g n G). lra. Qed.
Lemma pow_mono g k n : 0 <= g <= 1 -> (k <= n)%nat -> g ^ n <= g ^ k.
Proof. intros G L. induction L as [|n L IH]; [lra|]. cbn [pow]. pose proof (pow_le g n ltac:(lra)). nra. Qed.
Lemma pow_exp_neg c k : c <= 1 -> (1 - c) ^ k <= exp (- (INR k * c)).
Proof.
  intros C. rewrite Ropp_mult_distr_r. induction k as [|k IH]; [cbn; rewrite Rmult_0_l, exp_0; lra|]. rewrite S_INR, Rmult_plus_distr_r, exp_plus, Rmult_1_l. cbn [pow]. rewrite Rmult_comm. pose proof (exp_ineq1_le (- c)).
  apply Rmult_le_compat; try assumption; [apply pow_le|]; lra.
Qed.

Section Proofs.
Variables prec top : Z.
Hypothesis A : ample prec top.
Let W : wide prec top := proj1 A.
Notation u := (unit_roundoff prec).
Notation float := (is_float prec top).
Notation fmt := (generic_format radix2 (fexpo prec top)).
Notation near := (nearest prec top).
Notation b e := (bpow radix2 e).

(** ** The moving mean *)
Section Average.
Variable libpow : R -> R -> R.
Hypothesis FP : faithful_pow prec top libpow.
Variable c : R.
Hypothesis Hc : 64 * u <= c <= 1 - 64 * u.
Hypothesis Hp : IZR prec * u <= c.
Let g := 1 - c.
Let U : 0 < u := u_pos prec.

Lemma complement : exists e, fsub prec top (Fi 1) (Fi c) = Fi e /\ float e /\ Rabs (e - g) <= u / 2 /\ 0 < e <= 1 - 16 * u.
Proof.
  pose proof A as (_ & p3 & _). pose proof (top_big prec top A) as TB. destruct (fsub_near prec top A 1 c 0 ltac:(lia) ltac:(lia)) as (E & F & _); [cbn; apply Rabs_le; lra|]. exists (near (1 - c)). split; [exact E|]. split; [exact F|].
  assert (D : Rabs (near (1 - c) - g) <= u / 2). { pose proof (near_binade prec top A (1 - c) 0 ltac:(lia)) as N. change (b 0) with 1 in N. rewrite Rmult_1_r in N. apply N. apply Rabs_le. lra. }
  split; [exact D|]. apply Rabs_le_inv in D. unfold g in D. lra.
Qed.
Lemma denominator n : (0 < n)%nat -> exists F, fsub prec top (Fi 1) (fpow top libpow (fsub prec top (Fi 1) (Fi c)) (Fi (IZR (Z.min (Z.of_nat n) (2 ^ prec))))) = Fi F /\ float F /\
  Rabs (F - c * den g n) <= 3 * u * den g n.
Proof.
  intros N. destruct complement as (e & Ee & Fe & De & He). rewrite Ee. set (K := Z.min (Z.of_nat n) (2 ^ prec)). pose proof (Z.pow_pos_nonneg 2 prec ltac:(lia) ltac:(pose proof A as (_ & p3 & _); lia)) as PP.
  assert (HK : (1 <= K <= 2 ^ prec)%Z) by (unfold K; lia). pose proof (float_count prec top A K ltac:(lia)) as FK. pose proof (FP e (IZR K) Fe FK ltac:(lra)) as FA. set (k := Z.to_nat K). assert (Ek : Z.of_nat k = K) by (unfold k; lia).
  assert (Ep : Rpower e (IZR K) = e ^ k) by (rewrite <- Ek, <- INR_IZR_INZ; apply Rpower_pow; lra). set (P := libpow e (IZR K)) in *.
  assert (k1 : (k <= n)%nat) by (unfold k, K; lia). assert (Pk : 0 < e ^ k <= e). { split; [apply pow_lt; lra|]. replace k with (S (k - 1)) by lia. cbn [pow]. assert (e ^ (k - 1) <= 1) by (rewrite <- (pow1 (k - 1)); apply pow_incr; lra). nra. }
  assert (P0 : 0 <= P) by (apply (faithful_ge prec top W _ _ _ _ FA); [apply generic_format_0|rewrite Ep; lra]). assert (P1 : P <= e) by (apply (faithful_le prec top W _ _ _ _ FA); [apply Fe|rewrite Ep; lra]).
  assert (Pe : Rabs (P - e ^ k) <= u). { eapply Rle_trans; [rewrite <- Ep; apply (faithful_err prec top W _ _ _ FA)|]. apply (ulp_unit prec top W). rewrite Ep. lra. }
  pose proof A as (_ & p3 & _). pose proof (top_big prec top A) as TB. unfold fpow. destruct (Rlt_dec 0 e) as [_|X]; [|lra]. fold P. rewrite overflow_small by (apply (below_top prec top W); apply Rabs_le; lra).
  destruct (fsub_near prec top A 1 P 0 ltac:(lia) ltac:(lia)) as (E & F & _); [cbn; apply Rabs_le; lra|]. exists (near (1 - P)). split; [exact E|]. split; [exact F|].
  assert (D : Rabs (near (1 - P) - (1 - P)) <= u / 2). { pose proof (near_binade prec top A (1 - P) 0 ltac:(lia)) as Nb. change (b 0) with 1 in Nb. rewrite Rmult_1_r in Nb. apply Nb. apply Rabs_le. lra. }
  assert (G0 : 0 <= g) by (unfold g; lra). pose proof (pow_close g e k G0 ltac:(lra)) as C1. pose proof (den_pos g n G0 N) as D1.
  pose proof (den_mono g k n G0 k1) as Dk.
  assert (C1' : Rabs (e ^ k - g ^ k) <= u / 2 * den g n). { eapply Rle_trans; [exact C1|]. apply Rmult_le_compat; try lra; [apply Rabs_pos|now apply den_nonneg]. }
  assert (C2 : 0 <= g ^ k - g ^ n <= u / 2).
  { destruct (Nat.eq_dec k n) as [->|Nk]; [lra|]. assert (L : K = (2 ^ prec)%Z) by (unfold k, K in Nk |- *; lia). assert (Pn : 0 <= g ^ n) by now apply pow_le.
    pose proof (pow_mono g k n ltac:(unfold g in *; lra) k1) as Q.
    split; [lra|]. assert (S : g ^ k <= u / 2); [|lra].
    pose proof (pow_exp_neg c k ltac:(lra)) as X. fold g in X.
    eapply Rle_trans; [exact X|]. assert (Kc : IZR prec <= INR k * c).
    { rewrite INR_IZR_INZ, Ek, L, (pow_prec prec top A). apply Rle_trans with (b prec * (IZR prec * u)); [|apply Rmult_le_compat_l; [apply bpow_ge_0|exact Hp]]. replace (b prec * (IZR prec * u)) with (IZR prec * (b prec * u)) by ring.
      assert (Q1 : b prec * u = 1) by (unfold unit_roundoff; rewrite <- bpow_plus; replace (prec + - prec)%Z with 0%Z by lia; reflexivity). rewrite Q1. lra. }
    apply Rle_trans with (exp (- IZR prec)); [apply exp_le; lra|].
    assert (E3 : exp (- IZR prec) <= (2 / 5) ^ Z.to_nat prec).
    { replace (IZR prec) with (INR (Z.to_nat prec)) by (rewrite INR_IZR_INZ; f_equal; lia). induction (Z.to_nat prec) as [|j IH]; [cbn; rewrite Ropp_0, exp_0; lra|]. rewrite S_INR, Ropp_plus_distr, exp_plus. cbn [pow]. rewrite Rmult_comm. apply Rmult_le_compat; try (left; apply exp_pos); [|exact IH].
      rewrite exp_Ropp. pose proof exp_1_big. apply (Rmult_le_reg_r (exp 1)); [lra|]. rewrite Rinv_l by lra. lra. }
    eapply Rle_trans; [exact E3|]. unfold unit_roundoff. assert (E4 : b (- prec) = (1 / 2) ^ Z.to_nat prec). { replace prec with (Z.of_nat (Z.to_nat prec)) at 1 by lia. generalize (Z.to_nat prec). intros j. induction j as [|j IH]; [reflexivity|]. replace (- Z.of_nat (S j))%Z with (- Z.of_nat j + -1)%Z by lia. rewrite bpow_plus, IH. cbn [pow]. change (b (-1)) with (/ 2). lra. }
    rewrite E4. replace (Z.to_nat prec) with (S (S (S (S (Z.to_nat (prec - 4)))))); [|].
    2: { assert (Q6 : (6 <= prec)%Z); [|lia]. apply Z.le_ngt. intros Q6. assert (b (-6) < u + 0); [|cbn in *; lra]. rewrite Rplus_0_r. unfold unit_roundoff. apply bpow_lt. lia. }
    cbn [pow]. assert ((2 / 5) ^ Z.to_nat (prec - 4) <= (1 / 2) ^ Z.to_nat (prec - 4)) by (apply pow_incr; lra). assert (0 <= (1 / 2) ^ Z.to_nat (prec - 4)) by (apply pow_le; lra). lra. }
  pose proof (den_pow g n) as DP. unfold g in DP at 1. replace (1 - (1 - c)) with c in DP by ring. rewrite DP. apply Rabs_le_inv in D, Pe, C1'. assert (Q : u <= u * den g n) by nra. apply Rabs_le. lra.
Qed.

Variable r : Z.
Hypothesis R0 : (0 <= r)%Z.
Hypothesis R1 : (r + 3 <= top)%Z.
Let B := b r.
Let B0 : 0 < B := bpow_gt_0 radix2 r.
Let small : forall x k e, (0 <= e <= 2)%Z -> k = b e -> Rabs x <= k * B -> Rabs (near x - x) <= k / 2 * u * B.
Proof.
  intros x k e E -> X. pose proof A as (_ & p3 & _). pose proof (top_big prec top A) as TB. pose proof (near_binade prec top A x (r + e) ltac:(lia)) as N. rewrite bpow_plus in N. fold B in N. rewrite (Rmult_comm B) in N. specialize (N X). lra.
Qed.
Lemma biased_step y x z n : float y -> float x -> Rabs y <= B -> Rabs x <= B -> Rabs (y - c * z) <= 3 * u * B * den g n ->
  exists y', fsub prec top (Fi y) (fmul prec top (fsub prec top (Fi y) (Fi x)) (Fi c)) = Fi y' /\ float y' /\ Rabs y' <= B /\ Rabs (y' - c * (g * z + x)) <= 3 * u * B * den g (S n).
Proof.
  intros Fy Fx By Bx D. pose proof A as (_ & p3 & _). pose proof (top_big prec top A) as TB. pose proof By as By'. pose proof Bx as Bx'. apply Rabs_le_inv in By, Bx. pose proof (b_1 r) as Bs. fold B in Bs. pose proof (b_1 (r + 1)) as Bs2. rewrite Bs in Bs2.
  destruct (fsub_near prec top A y x (r + 1) ltac:(lia) ltac:(lia)) as (E1 & F1 & B1); [rewrite Bs; apply Rabs_le; lra|]. rewrite E1. set (d := near (y - x)) in *. rewrite Bs in B1. apply Rabs_le_inv in B1 as B1'.
  assert (Bd : Rabs (d * c) <= 2 * B). { rewrite Rabs_mult, (Rabs_pos_eq c) by lra. pose proof (Rabs_pos d). nra. }
  destruct (fmul_near prec top A d c (r + 1) ltac:(lia) ltac:(lia)) as (E2 & F2 & B2); [rewrite Bs; exact Bd|]. rewrite E2. set (t := near (d * c)) in *. rewrite Bs in B2. apply Rabs_le_inv in B2.
  destruct (fsub_near prec top A y t (r + 1 + 1) ltac:(lia) ltac:(lia)) as (E3 & F3 & B3); [rewrite Bs2; apply Rabs_le; lra|]. exists (near (y - t)). split; [exact E3|]. split; [exact F3|].
  assert (NM : near (y - t) = next_mean prec top c x y).
  { unfold next_mean. apply f_equal. unfold Rminus at 1. apply f_equal. unfold t, d. rewrite <- (near_opp prec top). apply f_equal. replace (x - y) with (- (y - x)) by ring. rewrite (near_opp prec top). ring. }
  destruct (next_mean_between prec top A c ltac:(lra) c x y (proj1 Fx) (proj1 Fy) ltac:(lra)) as (Up & Dn). rewrite <- NM in Up, Dn.
  assert (BB : Rabs (near (y - t)) <= B) by (apply Rabs_le; destruct (Rle_dec y x) as [L|L]; [specialize (Up L)|specialize (Dn ltac:(lra))]; lra). split; [exact BB|].
  assert (Yt : Rabs (y - t) <= 2 * B).
  { assert (Hg : near (y - t) <= B /\ - B <= near (y - t)) by (apply Rabs_le_inv in BB; lra). apply Rabs_le. 
    destruct (Rle_dec y x) as [L|L]; [|assert (L' : x <= y) by lra].
    - assert (d <= 0) by (apply near_le_fmt; [exact W|apply generic_format_0|lra]). assert (t <= 0) by (apply near_le_fmt; [exact W|apply generic_format_0|nra]). split; [lra|].
      destruct (Rle_dec (y - t) (2 * B)) as [Q|Q]; [exact Q|]. assert (2 * B <= near (y - t)); [|lra]. apply near_ge_fmt; [exact W| |lra]. rewrite <- Bs. apply (fmt_bpow prec top W). lia.
    - assert (0 <= d) by (apply near_ge_fmt; [exact W|apply generic_format_0|lra]). assert (0 <= t) by (apply near_ge_fmt; [exact W|apply generic_format_0|nra]). split; [|lra].
      destruct (Rle_dec (- (2 * B)) (y - t)) as [Q|Q]; [exact Q|]. assert (near (y - t) <= - (2 * B)); [|lra]. apply near_le_fmt; [exact W| |lra]. rewrite <- Bs. apply (fmt_opp prec top), (fmt_bpow prec top W). lia. }
  pose proof (small (y - x) 2 1 ltac:(lia) eq_refl ltac:(apply Rabs_le; lra)) as S1. fold d in S1. pose proof (small (d * c) 2 1 ltac:(lia) eq_refl Bd) as S2. fold t in S2. pose proof (small (y - t) 2 1 ltac:(lia) eq_refl Yt) as S3.
  rewrite den_S'. replace (near (y - t) - c * (g * z + x)) with ((near (y - t) - (y - t)) - (t - d * c) - c * (d - (y - x)) + (1 - c) * (y - c * z)) by (unfold g; ring).
  assert (S1' : Rabs (c * (d - (y - x))) <= u * B) by (rewrite Rabs_mult, (Rabs_pos_eq c) by lra; pose proof (Rabs_pos (d - (y - x))); nra).
  assert (S4 : Rabs ((1 - c) * (y - c * z)) <= g * (3 * u * B * den g n)) by (rewrite Rabs_mult, (Rabs_pos_eq (1 - c)) by lra; unfold g at 1; apply Rmult_le_compat_l; [lra|exact D]).
  apply Rabs_le_inv in S1', S2, S3, S4. apply Rabs_le. replace (3 * u * B * (g * den g n + 1)) with (g * (3 * u * B * den g n) + 3 * u * B) by ring. lra.
Qed.
Definition tracked (xs : list R) (a : faverage) : Prop :=
  fa_step a = Fi (IZR (Z.min (Z.of_nat (length xs)) (2 ^ prec))) /\
  exists y m, fa_biased a = Fi y /\ float y /\ Rabs y <= B /\ Rabs (y - c * num g xs) <= 3 * u * B * den g (length xs) /\
    fa_mean a = Fi m /\ float m /\ Rabs m <= 2 * B /\ Rabs (m - fading_mean g xs) <= 12 * (u / c) * B.
Lemma tracked_0 : tracked [] faverage0.
Proof.
  pose proof A as (_ & p3 & _). split; [cbn [length faverage0 fa_step]; do 2 f_equal; pose proof (Z.pow_pos_nonneg 2 prec); lia|]. exists 0, 0. pose proof (float_0 prec top) as F0. assert (0 <= 12 * (u / c) * B). { assert (0 < u / c) by (apply Rdiv_lt_0_compat; lra). nra. }
  split; [reflexivity|]. split; [exact F0|]. split; [rewrite Rabs_R0; lra|]. split; [cbn; rewrite Rmult_0_r, Rminus_0_r, Rabs_R0; lra|]. split; [reflexivity|]. split; [exact F0|]. split; [rewrite Rabs_R0; lra|].
  unfold fading_mean. cbn. unfold Rdiv. rewrite Rmult_0_l, Rminus_0_r, Rabs_R0. unfold Rdiv in H. lra.
Qed.
Lemma tracked_step xs a x : Forall (fun x => Rabs x <= B) xs -> float x -> Rabs x <= B -> tracked xs a -> tracked (xs ++ [x]) (fassign prec top libpow (Fi c) (Fi x) a).
Proof.
  intros Hx Fx Bx (Es & y & m & Ey & Fy & By & Dy & Em & Fm & Bm & Dm). pose proof A as (_ & p3 & _). pose proof (top_big prec top A) as TB. set (n := length xs) in *. assert (L : length (xs ++ [x]) = S n) by (rewrite app_length; cbn; lia).
  pose proof (Z.pow_pos_nonneg 2 prec ltac:(lia) ltac:(lia)) as PP. assert (G0 : 0 <= g) by (unfold g; lra).
  assert (St : fadd prec top (fa_step a) (Fi 1) = Fi (IZR (Z.min (Z.of_nat (S n)) (2 ^ prec)))) by (rewrite Es, (count_up prec top A) by lia; do 2 f_equal; lia).
  destruct (biased_step y x (num g xs) n Fy Fx By Bx Dy) as (y' & E1 & F1 & B1 & D1). rewrite <- num_app in D1. destruct (denominator (S n) ltac:(lia)) as (F & E2 & F2 & D2). set (Z := num g (xs ++ [x])) in *. set (N := den g (S n)) in *.
  assert (N1 : 1 <= N) by (apply den_pos; [exact G0|lia]). assert (BZ : Rabs Z <= B * N). { unfold Z, N. rewrite <- L. apply num_bound; [exact G0|]. apply Forall_app. split; [exact Hx|]. now constructor. }
  assert (UC : 0 < u / c <= 1 / 64). { split; [apply Rdiv_lt_0_compat; lra|]. apply (Rmult_le_reg_r c); [lra|]. unfold Rdiv at 1. rewrite Rmult_assoc, Rinv_l by lra. lra. } set (rho := u / c) in *. assert (Er : u = rho * c) by (unfold rho; field; lra).
  assert (FF : 61 / 64 * (c * N) <= F). { apply Rabs_le_inv in D2. assert (3 * u * N <= 3 / 64 * (c * N)); [|lra]. replace (3 * u * N) with (3 * u * 1 * N) by ring. assert (64 * u * N <= c * N) by (apply Rmult_le_compat_r; lra). lra. }
  assert (CN : 0 < c * N) by (apply Rmult_lt_0_compat; lra). assert (Fpos : 0 < F) by lra.
  assert (Q : Rabs (y' / F - Z / N) <= 13 / 2 * rho * B).
  { replace (y' / F - Z / N) with ((y' - c * Z) / F + Z / N * ((c * N - F) / F)) by (field; lra). eapply Rle_trans; [apply Rabs_triang|].
    assert (T1 : Rabs ((y' - c * Z) / F) <= 3 * rho * B * (64 / 61)).
    { unfold Rdiv at 1. rewrite Rabs_mult, (Rabs_pos_eq (/ F)) by (left; now apply Rinv_0_lt_compat). apply (Rmult_le_reg_r F); [exact Fpos|]. rewrite Rmult_assoc, Rinv_l, Rmult_1_r by lra. eapply Rle_trans; [exact D1|].
      assert (P : 0 < 3 * rho * B) by nra. apply Rle_trans with (3 * rho * B * (64 / 61) * (61 / 64 * (c * N))); [rewrite Er; right; field|]. apply Rmult_le_compat_l; [lra|exact FF]. }
    assert (T2 : Rabs (Z / N * ((c * N - F) / F)) <= B * (3 * rho * (64 / 61))).
    { rewrite Rabs_mult. apply Rmult_le_compat; try apply Rabs_pos.
      - unfold Rdiv. rewrite Rabs_mult, (Rabs_pos_eq (/ N)) by (left; apply Rinv_0_lt_compat; lra). apply (Rmult_le_reg_r N); [lra|]. rewrite Rmult_assoc, Rinv_l by lra. lra.
      - unfold Rdiv at 1. rewrite Rabs_mult, (Rabs_pos_eq (/ F)) by (left; now apply Rinv_0_lt_compat). apply (Rmult_le_reg_r F); [exact Fpos|]. rewrite Rmult_assoc, Rinv_l, Rmult_1_r by lra. rewrite Rabs_minus_sym. eapply Rle_trans; [exact D2|].
        apply Rle_trans with (3 * rho * (64 / 61) * (61 / 64 * (c * N))); [rewrite Er; right; field|]. apply Rmult_le_compat_l; [lra|exact FF]. }
    assert (0 < rho * B) by (apply Rmult_lt_0_compat; lra). lra. }
  assert (BM : Rabs (Z / N) <= B). { unfold Rdiv. rewrite Rabs_mult, (Rabs_pos_eq (/ N)) by (left; apply Rinv_0_lt_compat; lra). apply (Rmult_le_reg_r N); [lra|]. rewrite Rmult_assoc, Rinv_l by lra. lra. }
  assert (RB : 0 < rho * B <= B / 64) by (split; [apply Rmult_lt_0_compat; lra|]; assert (rho * B <= 1 / 64 * B) by (apply Rmult_le_compat_r; lra); lra). assert (UB : 0 < u * B <= rho * B) by (split; [apply Rmult_lt_0_compat; lra|]; rewrite Er; replace (rho * c * B) with (c * (rho * B)) by ring; nra).
  set (M := Z / N) in *. set (x' := y' / F) in *. apply Rabs_le_inv in Q as Q'. apply Rabs_le_inv in BM as BM'. pose proof (b_1 r) as Bs. fold B in Bs. pose proof (b_1 (r + 1)) as Bs2. rewrite Bs in Bs2.
  assert (Bx' : Rabs x' <= 2 * B) by (apply Rabs_le; lra). destruct (float_near prec top A x') as (E3 & F3); [eapply Rle_trans; [exact Bx'|]; rewrite <- Bs; apply bpow_le; lia|]. assert (B3 : Rabs (near x') <= 2 * B) by (rewrite <- Bs; apply (near_bpow prec top W); [lia|rewrite Bs; exact Bx']).
  pose proof (small x' 2 1 ltac:(lia) eq_refl Bx') as S3. set (v := near x') in *. apply Rabs_le_inv in B3 as B3'. apply Rabs_le_inv in Bm as Bm'.
  destruct (fsub_near prec top A m v (r + 1 + 1) ltac:(lia) ltac:(lia)) as (E4 & F4 & B4); [rewrite Bs2; apply Rabs_le; lra|]. pose proof (small (m - v) 4 2 ltac:(lia) eq_refl ltac:(apply Rabs_le; lra)) as S4. set (d := near (m - v)) in *.
  apply Rabs_le_inv in S3 as S3', S4 as S4'. assert (Bd : Rabs (m - d) <= 4 * B) by (apply Rabs_le; lra).
  destruct (fsub_near prec top A m d (r + 1 + 1) ltac:(lia) ltac:(lia)) as (E5 & F5 & B5); [rewrite Bs2; lra|]. pose proof (small (m - d) 4 2 ltac:(lia) eq_refl Bd) as S5. set (m' := near (m - d)) in *.
  assert (X1 : fa_biased (fassign prec top libpow (Fi c) (Fi x) a) = Fi y') by (unfold fassign; cbn [fa_biased]; rewrite Ey; exact E1).
  assert (X2 : fa_mean (fassign prec top libpow (Fi c) (Fi x) a) = Fi m'). { unfold fassign. cbn [fa_mean]. rewrite St, Ey, E1, E2, (fdiv_fi prec top) by lra. fold x'. rewrite E3, Em. fold v. rewrite E4. exact E5. }
  assert (MD : Rabs (m' - M) <= 12 * rho * B) by (apply Rabs_le_inv in S5; apply Rabs_le; lra).
  split; [unfold fassign; cbn [fa_step]; rewrite St, L; reflexivity|]. exists y', m'. rewrite L. split; [exact X1|]. split; [exact F1|]. split; [exact B1|]. split; [exact D1|]. split; [exact X2|]. split; [exact F5|]. split; [apply Rabs_le_inv in MD; apply Rabs_le; lra|].
  unfold fading_mean. fold (num g (xs ++ [x])) Z. rewrite L. fold (den g (S n)) N M. exact MD.
Qed.
Lemma tracked_all xs : Forall (fun x => float x /\ Rabs x <= B) xs -> tracked xs (fold_left (fun a x => fassign prec top libpow (Fi c) (Fi x) a) xs faverage0).
Proof.
  induction xs as [|x xs IH] using rev_ind; intros H; [exact tracked_0|]. apply Forall_app in H as (H & Hx). inversion Hx as [|? ? (Fx & Bx) _]; subst. rewrite fold_left_app. cbn [fold_left]. apply tracked_step; auto. eapply Forall_impl; [|exact H]. now intros z (_ & Z).
Qed.
End Average.

(** ** Means of rounded terms *)
Lemma terms {T} (f : T -> ext) (h : T -> R) k eps s : Forall (fun q => exists t, f q = Fi t /\ float t /\ Rabs t <= b k /\ Rabs (t - h q) <= eps) s ->
  exists ts, map f s = map Fi ts /\ length ts = length s /\ Forall fmt ts /\ Forall (fun t => Rabs t <= b k) ts /\ Rabs (rsum ts - rsum (map h s)) <= INR (length s) * eps.
Proof.
  induction 1 as [|q s (t & E & F & Bt & D) H (ts & Es & L & Fs & Bs & Ds)]; [exists []; repeat split; try constructor; cbn; rewrite Rminus_0_r, Rabs_R0; lra|]. exists (t :: ts). cbn [map length]. rewrite E, Es, L. split; [reflexivity|]. split; [reflexivity|].
  split; [constructor; [apply F|exact Fs]|]. split; [now constructor|]. cbn [rsum fold_right]. rewrite S_INR. unfold rsum in Ds. match goal with |- Rabs (t + ?x - (h q + ?y)) <= _ => replace (t + x - (h q + y)) with ((t - h q) + (x - y)) by ring end. eapply Rle_trans; [apply Rabs_triang|]. lra.
Qed.
Lemma mean_spec {T} (f : T -> ext) (h : T -> R) k eps s p : let n := length s in
  Forall (fun q => exists t, f q = Fi t /\ float t /\ Rabs t <= b k /\ Rabs (t - h q) <= eps) s -> s <> [] -> adds_up p n -> (8 * Z.of_nat n <= 2 ^ prec)%Z -> (0 <= k)%Z -> (k + prec + 3 <= top)%Z ->
  exists v, fdivn prec top (fsum prec top p (map f s)) (length (map f s)) = Fi v /\ float v /\ Rabs v <= b (k + 1) /\ Rabs (v - mean_of (map h s)) <= (2 * INR n + 1) * u * b k + eps.
Proof.
  intros n H N P L K0 K1. destruct (terms f h k eps s H) as (ts & E & Lt & F & Bt & D). fold n in Lt, D. pose proof A as (_ & p3 & _). pose proof (top_big prec top A) as TB. pose proof (bpow_gt_0 radix2 k) as Bk. pose proof (u_pos prec) as U.
  assert (n0 : 0 < INR n) by (apply lt_0_INR; unfold n; destruct s; [easy|cbn; lia]). assert (NU : INR n * u <= 1 / 8).
  { assert (Q : 8 * INR n <= b prec) by (rewrite INR_IZR_INZ, <- (IZR_Zpower radix2) by lia; rewrite <- mult_IZR; apply IZR_le, L). assert (X : b prec * u = 1) by (unfold unit_roundoff; rewrite <- bpow_plus; replace (prec + - prec)%Z with 0%Z by lia; reflexivity). nra. }
  destruct (list_sum prec top A ts p k F Bt ltac:(now rewrite Lt) ltac:(rewrite Lt; lia) ltac:(lia)) as (S & ES & FS & DS). rewrite Lt in DS. rewrite E, ES, map_length, Lt. set (M := mean_of (map h s)).
  pose proof (rsum_bounded _ _ Bt) as RB. rewrite Lt in RB. set (Z := rsum ts) in *. assert (Q : Rabs (S / INR n - Z / INR n) <= 2 * INR n * u * b k).
  { unfold Rdiv. rewrite <- Rmult_minus_distr_r, Rabs_mult, (Rabs_pos_eq (/ _)) by (left; now apply Rinv_0_lt_compat). apply (Rmult_le_reg_r (INR n)); [exact n0|]. rewrite Rmult_assoc, Rinv_l by lra. lra. }
  assert (Q2 : Rabs (Z / INR n) <= b k). { unfold Rdiv. rewrite Rabs_mult, (Rabs_pos_eq (/ _)) by (left; now apply Rinv_0_lt_compat). apply (Rmult_le_reg_r (INR n)); [exact n0|]. rewrite Rmult_assoc, Rinv_l by lra. lra. }
  assert (Q3 : Rabs (Z / INR n - M) <= eps).
  { unfold M, mean_of. rewrite map_length. fold n. unfold Rdiv. rewrite <- Rmult_minus_distr_r, Rabs_mult, (Rabs_pos_eq (/ _)) by (left; now apply Rinv_0_lt_compat). apply (Rmult_le_reg_r (INR n)); [exact n0|]. rewrite Rmult_assoc, Rinv_l by lra. lra. }
  assert (NUB : INR n * u * b k <= 1 / 8 * b k) by (apply Rmult_le_compat_r; lra). assert (Bq : Rabs (S / INR n) <= b (k + 1)) by (rewrite b_1; apply Rabs_le_inv in Q, Q2; apply Rabs_le; lra).
  destruct (float_near prec top A (S / INR n)) as (E3 & F3); [eapply Rle_trans; [exact Bq|]; apply bpow_le; lia|]. pose proof (near_binade prec top A (S / INR n) (k + 1) ltac:(lia) Bq) as D3. rewrite b_1 in D3.
  exists (near (S / INR n)). split; [unfold fdivn, ediv; destruct (Req_EM_T (INR n) 0); [lra|exact E3]|]. split; [exact F3|]. split; [apply (near_bpow prec top W); [lia|exact Bq]|].
  apply Rabs_le_inv in Q, Q3, D3. apply Rabs_le. lra.
Qed.

(** ** The entries *)
Section Entries.
Variable r : Z.
Hypothesis R0 : (0 <= r)%Z.
Let B := b r.
Let B1 : 1 <= B. Proof. apply (bpow_le radix2 0), R0. Qed.
Let binade : forall x k e, k = b e -> (0 <= e)%Z -> (r + e + 1 <= top)%Z -> Rabs x <= k * B -> rounded prec top (Fi x) = Fi (near x) /\ float (near x) /\ Rabs (near x) <= k * B /\ Rabs (near x - x) <= k / 2 * u * B.
Proof.
  intros x k e -> E T X. pose proof A as (_ & p3 & _). pose proof (top_big prec top A) as TB. assert (EB : b e * B = b (r + e)) by (rewrite bpow_plus; unfold B; ring). rewrite EB in X |- *.
  destruct (float_near prec top A x) as (Q & F); [eapply Rle_trans; [exact X|]; apply bpow_le; lia|]. split; [exact Q|]. split; [exact F|]. split; [apply (near_bpow prec top W); [lia|exact X]|].
  pose proof (near_binade prec top A x (r + e) ltac:(lia) X) as D. rewrite bpow_plus in D. fold B in D. lra.
Qed.
Lemma lower_spec q : entry_within prec top r q -> (r + 2 <= top)%Z -> exists s, flower prec top (to_entry q) = Fi s /\ float s /\ Rabs s <= 2 * B /\ Rabs (s - exact_learning false q) <= u * B.
Proof.
  destruct q as ((lj, e), bl). intros ((F1 & X1) & (F2 & X2) & _) T. fold B in X1, X2. apply Rabs_le_inv in X1, X2. destruct (binade (lj + e) 2 1 eq_refl ltac:(lia) ltac:(lia)) as (E & F & X & D); [apply Rabs_le; lra|].
  exists (near (lj + e)). split; [exact E|]. split; [exact F|]. split; [exact X|]. cbn [exact_learning]. rewrite Rminus_0_r. lra.
Qed.
Lemma learning_spec baseline q : entry_within prec top r q -> (r + 3 <= top)%Z -> exists s, flearning prec top baseline (to_entry q) = Fi s /\ float s /\ Rabs s <= 4 * B /\ Rabs (s - exact_learning baseline q) <= 3 * u * B.
Proof.
  intros H T. destruct (lower_spec q H ltac:(lia)) as (s & E & F & X & D). assert (UB : 0 < u * B) by (apply Rmult_lt_0_compat; [apply u_pos|lra]). unfold flearning. destruct baseline; [|exists s; split; [exact E|]; split; [exact F|]; lra].
  rewrite E. destruct q as ((lj, e), bl). destruct H as (_ & _ & (F3 & X3)). fold B in X3. cbn [to_entry f_baseline]. apply Rabs_le_inv in X3, X. destruct (binade (s - bl) 4 2 eq_refl ltac:(lia) ltac:(lia)) as (E' & F' & X' & D'); [apply Rabs_le; lra|].
  exists (near (s - bl)). split; [exact E'|]. split; [exact F'|]. split; [exact X'|]. cbn [exact_learning] in D |- *. apply Rabs_le_inv in D, D'. apply Rabs_le. lra.
Qed.
Lemma cost_entry_spec baseline m q : entry_within prec top r q -> float m -> Rabs m <= 16 * B -> (2 * r + 7 <= top)%Z ->
  exists t, fcost_entry prec top baseline (Some (Fi m)) (to_entry q) = Fi t /\ float t /\ Rabs t <= b (2 * r + 6) /\
    Rabs (t - (- fst (fst q) + (exact_learning baseline q - m) * snd (fst q))) <= 67 * u * (B * B).
Proof.
  intros H Fm Bm T. pose proof (u_pos prec) as U. destruct (learning_spec baseline q H) as (s & E & F & X & D); [destruct (Z.eq_dec r 0); pose proof A as (_ & p3 & _); pose proof (top_big prec top A); lia|]. destruct q as ((lj, e), bl). destruct H as ((F1 & X1) & (F2 & X2) & _). fold B in X1, X2.
  unfold fcost_entry, fsignal_of. rewrite E. cbn [to_entry f_log_joint f_entropy fst snd eneg]. set (L := exact_learning baseline (lj, e, bl)) in *. apply Rabs_le_inv in X, Bm.
  destruct (binade (s - m) 32 5 eq_refl ltac:(lia) ltac:(destruct (Z.eq_dec r 0); pose proof A as (_ & p3 & _); pose proof (top_big prec top A); lia)) as (E1 & G1 & Y1 & D1); [apply Rabs_le; lra|]. unfold fsub at 1, esub. cbn [eneg eadd]. change (s + - m) with (s - m). rewrite E1. set (d := near (s - m)) in *.
  assert (BB : b (2 * r + 5) = 32 * (B * B)) by (replace (2 * r + 5)%Z with (r + r + 5)%Z by lia; rewrite !bpow_plus; fold B; change (b 5) with 32; ring). assert (BB6 : b (2 * r + 6) = 64 * (B * B)) by (replace (2 * r + 6)%Z with (r + r + 6)%Z by lia; rewrite !bpow_plus; fold B; change (b 6) with 64; ring).
  pose proof A as (_ & p3 & _). pose proof (top_big prec top A) as TB. assert (Pd : Rabs (d * e) <= b (2 * r + 5)). { rewrite Rabs_mult, BB. replace (32 * (B * B)) with (32 * B * B) by ring. apply Rmult_le_compat; try apply Rabs_pos; assumption. }
  destruct (fmul_near prec top A d e (2 * r + 5) ltac:(lia) ltac:(lia) Pd) as (E2 & G2 & Y2). rewrite E2. pose proof (near_binade prec top A (d * e) (2 * r + 5) ltac:(lia) Pd) as D2. set (t := near (d * e)) in *. rewrite BB in D2, Y2.
  assert (Q1 : B <= B * B) by nra. assert (Pt : Rabs (- lj + t) <= b (2 * r + 6)) by (rewrite BB6; apply Rabs_le_inv in X1, Y2; apply Rabs_le; lra).
  destruct (fadd_near prec top A (- lj) t (2 * r + 6) ltac:(lia) ltac:(lia) Pt) as (E3 & G3 & Y3). rewrite E3. pose proof (near_binade prec top A (- lj + t) (2 * r + 6) ltac:(lia) Pt) as D3. rewrite BB6 in D3.
  exists (near (- lj + t)). split; [reflexivity|]. split; [exact G3|]. split; [exact Y3|].
  assert (Q2 : Rabs ((d - (L - m)) * e) <= 19 * u * B * B). { rewrite Rabs_mult. apply Rmult_le_compat; try apply Rabs_pos; [|exact X2]. apply Rabs_le_inv in D, D1. apply Rabs_le. lra. }
  replace (near (- lj + t) - (- lj + (L - m) * e)) with ((near (- lj + t) - (- lj + t)) + (t - d * e) + (d - (L - m)) * e) by ring. apply Rabs_le_inv in D2, D3, Q2. apply Rabs_le. lra.
Qed.
Lemma baseline_entry_spec q : entry_within prec top r q -> (2 * r + 5 <= top)%Z ->
  exists t, fbaseline_entry prec top (to_entry q) = Fi t /\ float t /\ Rabs t <= b (2 * r + 3) /\ Rabs (t - exact_learning true q ^ 2 / 2) <= 21 * u * (B * B).
Proof.
  intros H T. pose proof (u_pos prec) as U. pose proof (u_eighth prec top A) as U8. pose proof A as (_ & p3 & _). pose proof (top_big prec top A) as TB. destruct (learning_spec true q H) as (s & E & F & X & D); [destruct (Z.eq_dec r 0); lia|]. unfold flearning in E. unfold fbaseline_entry. rewrite E. set (L := exact_learning true q) in *.
  assert (BB : b (2 * r + 4) = 16 * (B * B)) by (replace (2 * r + 4)%Z with (r + r + 4)%Z by lia; rewrite !bpow_plus; fold B; change (b 4) with 16; ring). assert (BB3 : b (2 * r + 3) = 8 * (B * B)) by (replace (2 * r + 3)%Z with (r + r + 3)%Z by lia; rewrite !bpow_plus; fold B; change (b 3) with 8; ring).
  assert (Ps : Rabs (s * s) <= b (2 * r + 4)). { rewrite Rabs_mult, BB. replace (16 * (B * B)) with (4 * B * (4 * B)) by ring. apply Rmult_le_compat; try apply Rabs_pos; assumption. }
  destruct (fmul_near prec top A s s (2 * r + 4) ltac:(lia) ltac:(lia) Ps) as (E2 & G2 & Y2). rewrite E2. pose proof (near_binade prec top A (s * s) (2 * r + 4) ltac:(lia) Ps) as D2. set (t := near (s * s)) in *. rewrite BB in D2, Y2.
  assert (Ph : Rabs (1 / 2 * t) <= b (2 * r + 3)) by (rewrite BB3, Rabs_mult, (Rabs_pos_eq (1 / 2)) by lra; lra).
  destruct (fmul_near prec top A (1 / 2) t (2 * r + 3) ltac:(lia) ltac:(lia) Ph) as (E3 & G3 & Y3). pose proof (near_binade prec top A (1 / 2 * t) (2 * r + 3) ltac:(lia) Ph) as D3. rewrite BB3 in D3.
  exists (near (1 / 2 * t)). split; [exact E3|]. split; [exact G3|]. split; [exact Y3|].
  assert (Q2 : Rabs (s * s - L ^ 2) <= 3 * u * B * (8 * B + 3 * u * B)). { replace (s * s - L ^ 2) with ((s - L) * (2 * s - (s - L))) by ring. rewrite Rabs_mult. apply Rmult_le_compat; try apply Rabs_pos; [exact D|]. apply Rabs_le_inv in D, X. apply Rabs_le. lra. }
  assert (UB : u * B <= 1 / 8 * B) by (apply Rmult_le_compat_r; lra). assert (Q3 : Rabs (s * s - L ^ 2) <= 26 * u * (B * B)). { eapply Rle_trans; [exact Q2|]. replace (26 * u * (B * B)) with (26 * (u * B) * B) by ring. assert (0 < u * B) by (apply Rmult_lt_0_compat; lra). nra. }
  apply Rabs_le_inv in D2, D3, Q3. apply Rabs_le. lra.
Qed.
End Entries.
End Proofs.
