(** Lemmas for C66. *)
From Coq Require Import List Arith Bool Reals ZArith Lra Lia Permutation.
From Flocq Require Import Core.
From Verif Require Import ModelExt ModelSpecial ModelNum ModelFloat ModelFloatSample ModelFloatTune ModelDist ModelDiag ModelFloatDiag SpecFloat SpecDist SpecDiag SpecFloatImportance SpecFloatDiag ProofFloat ProofFloatSample ProofFloatDensity ProofFloatTune ProofFloatMass ProofFloatImportance ProofFloatVI ProofDiscrete ProofVI PropDiag.
Import ListNotations.
Local Open Scope R_scope.

Lemma combine_Fi (s t : list R) : combine (map Fi s) (map Fi t) = map (fun q : R * R => (Fi (fst q), Fi (snd q))) (combine s t).
Proof. revert t. induction s as [|x s IH]; intros [|y t]; cbn; [easy..|]. now rewrite IH. Qed.
Lemma mean_of_np l : mean_of l = np_mean l. Proof. reflexivity. Qed.
Lemma mean_bound l B : l <> [] -> Forall (fun x => Rabs x <= B) l -> Rabs (mean_of l) <= B.
Proof.
  intros N H. pose proof (rsum_bounded _ _ H) as RB. assert (n0 : 0 < INR (length l)) by (apply lt_0_INR; destruct l; [easy|cbn; lia]).
  unfold mean_of, Rdiv. rewrite Rabs_mult, (Rabs_pos_eq (/ _)) by (left; now apply Rinv_0_lt_compat). apply (Rmult_le_reg_r (INR (length l))); [exact n0|]. rewrite Rmult_assoc, Rinv_l by lra. lra.
Qed.
Lemma times_factor x f lo hi : 0 <= lo -> lo <= x <= hi -> 99 / 100 <= f <= 101 / 100 -> 99 / 100 * lo <= x * f <= 101 / 100 * hi.
Proof. intros L X F. rewrite !(Rmult_comm _ f). split; apply Rmult_le_compat; lra. Qed.
Lemma inv_close x t : t <= 1 / 16 -> Rabs (x - 1) <= t -> Rabs (/ x - 1) <= 16 / 15 * t.
Proof.
  intros T H. apply Rabs_le_inv in H. assert (X : 15 / 16 <= x) by lra. replace (/ x - 1) with ((1 - x) * / x) by (field; lra). rewrite Rabs_mult, (Rabs_pos_eq (/ x)) by (left; apply Rinv_0_lt_compat; lra).
  assert (/ x <= 16 / 15) by (apply (Rmult_le_reg_r x); [lra|]; rewrite Rinv_l by lra; lra). rewrite (Rmult_comm (16 / 15)). assert (0 < / x) by (apply Rinv_0_lt_compat; lra). apply Rmult_le_compat; [apply Rabs_pos|lra| |lra]. apply Rabs_le. lra.
Qed.
(** A nearly equal estimate, from nearly equal autocorrelations. *)
Lemma sum_close v q d T : 0 <= d <= 1 / 128 -> (forall t, (t < T)%nat -> 0 <= v t /\ Rabs (v t - q t) <= d * (1 + Rabs (q t))) ->
  - (102 / 100 * d * INR T) <= total q (seq 0 T) /\ Rabs (total v (seq 0 T) - total q (seq 0 T)) <= d * (102 / 100 * INR T + total q (seq 0 T)) /\ forall t, (t < T)%nat -> - (102 / 100 * d) <= q t.
Proof.
  intros D H. assert (Q : forall t, (t < T)%nat -> - (102 / 100 * d) <= q t /\ Rabs (v t - q t) <= d * (102 / 100 + q t)).
  { intros t I. destruct (H t I) as (v0 & C). assert (q0 : - (102 / 100 * d) <= q t). { destruct (Rle_or_lt 0 (q t)); [lra|]. rewrite (Rabs_left (q t)) in C by assumption. apply Rabs_le_inv in C. nra. }
    split; [exact q0|]. eapply Rle_trans; [exact C|]. apply Rmult_le_compat_l; [lra|]. unfold Rabs. destruct (Rcase_abs (q t)); lra. }
  clear H. assert (S : - (102 / 100 * d * INR T) <= total q (seq 0 T) /\ Rabs (total v (seq 0 T) - total q (seq 0 T)) <= d * (102 / 100 * INR T + total q (seq 0 T))); [|split; [apply S|split; [apply S|intros t I; apply (Q t I)]]].
  induction T as [|T IH]; [cbn; rewrite Rminus_0_r, Rabs_R0; lra|]. destruct IH as (I1 & I2); [intros; apply Q; lia|]. destruct (Q T ltac:(lia)) as (Q1 & Q2). rewrite seq_S, !total_app, S_INR. cbn [Nat.add]. change (total q [T]) with (q T + 0). change (total v [T]) with (v T + 0).
  split; [lra|]. match goal with |- Rabs (?x + (v T + 0) - (?y + (q T + 0))) <= _ => replace (x + (v T + 0) - (y + (q T + 0))) with ((x - y) + (v T - q T)) by ring end. eapply Rle_trans; [apply Rabs_triang|]. lra.
Qed.
Lemma estimate_close n d T S P a f8 f9 : 0 <= d <= 1 / 128 -> 2 <= n -> 64 * n * d <= 1 -> 0 <= T <= n -> - (102 / 100 * d * T) <= S -> 0 <= P -> Rabs (P - S) <= d * (102 / 100 * T + S) -> Rabs (a - P) <= 1 / 64 * d * T * P ->
  Rabs (f8 - 1) <= / 128 * d -> Rabs (f9 - 1) <= / 128 * d -> 0 < 1 + 2 * S /\ Rabs (n / ((1 + 2 * a) * f8) * f9 - n / (1 + 2 * S)) <= 3 * n * d * (n / (1 + 2 * S)).
Proof.
  intros D N ND T0 HS P0 HP HA F8 F9. assert (TD : 0 <= d * T <= n * d) by (split; [apply Rmult_le_pos; lra|rewrite (Rmult_comm n); apply Rmult_le_compat_l; lra]). assert (S1 : - (16 / 1000) <= S) by lra. split; [lra|].
  assert (x1 : 0 <= n * d <= 1 / 64) by lra. assert (dx : d <= / 2 * (n * d)) by nra. rewrite (Rmult_assoc 3). set (x := n * d) in *.
  assert (H1 : Rabs (P - S) <= x * (103 / 100 + / 2 * Rabs S)).
  { eapply Rle_trans; [exact HP|]. replace (d * (102 / 100 * T + S)) with (102 / 100 * (d * T) + d * S) by ring. assert (d * S <= / 2 * x * Rabs S) by (pose proof (Rle_abs S); pose proof (Rabs_pos S); nra). pose proof (Rabs_pos S). nra. }
  assert (H2 : Rabs (a - P) <= 1 / 64 * x * P) by (eapply Rle_trans; [exact HA|]; apply Rmult_le_compat_r; lra).
  assert (H : Rabs (a - S) <= x * (11 / 10 * (1 + 2 * S))).
  { assert (P <= S + x * (103 / 100 + / 2 * Rabs S)) by (apply Rabs_le_inv in H1; lra). destruct (Rle_or_lt 0 S) as [G|G].
    - rewrite (Rabs_pos_eq S) in * by exact G. assert (x * P <= x * (102 / 100 * S + 2 / 100)) by (apply Rmult_le_compat_l; nra). apply Rabs_le_inv in H1, H2. apply Rabs_le. nra.
    - rewrite (Rabs_left S) in * by exact G. assert (x * P <= x * (2 / 100)) by (apply Rmult_le_compat_l; nra). apply Rabs_le_inv in H1, H2. apply Rabs_le. nra. }
  set (y := 1 + 2 * S) in *. assert (y0 : 9 / 10 < y) by (unfold y; lra). set (z := (1 + 2 * a) / y). assert (Z1 : Rabs (z - 1) <= 22 / 10 * x).
  { replace (z - 1) with (2 * (a - S) * / y) by (unfold z, y; field; unfold y in y0; lra). rewrite Rabs_mult, (Rabs_pos_eq (/ y)) by (left; apply Rinv_0_lt_compat; lra). apply (Rmult_le_reg_r y); [lra|]. rewrite Rmult_assoc, Rinv_l by lra. apply Rabs_le_inv in H. rewrite Rmult_1_r. apply Rabs_le. lra. }
  assert (Z2 : Rabs (z * f8 - 1) <= 221 / 100 * x) by (eapply Rle_trans; [apply (close_mult z f8 (22 / 10) (/ 256) x); try lra|]; nra).
  pose proof (inv_close _ (221 / 100 * x) ltac:(lra) Z2) as Z3. assert (Z4 : Rabs (/ (z * f8) * f9 - 1) <= 3 * x) by (eapply Rle_trans; [apply (close_mult _ f9 (236 / 100) (/ 256) x); try lra|]; nra).
  assert (F8' : 1 / 2 <= f8) by (apply Rabs_le_inv in F8; lra). assert (Z0 : 1 / 2 <= z) by (apply Rabs_le_inv in Z1; lra).
  replace (n / ((1 + 2 * a) * f8) * f9 - n / y) with ((/ (z * f8) * f9 - 1) * (n / y)) by (replace (1 + 2 * a) with (z * y) by (unfold z; field; lra); field; repeat split; lra).
  rewrite Rabs_mult, (Rabs_pos_eq (n / y)) by (apply Rmult_le_pos; [lra|left; apply Rinv_0_lt_compat; lra]). apply Rmult_le_compat_r; [apply Rmult_le_pos; [lra|left; apply Rinv_0_lt_compat; lra]|exact Z4].
Qed.
(** The quotient of the estimates, in terms of the relative errors of its parts. *)
Lemma quotient_close d c g e e' f1 f2 f3 f4 f5 f6 f7 e6 : 0 <= d <= 1 / 128 -> 1 <= c <= 2 -> Rabs e <= 26 / 100 * d -> Rabs e' <= 26 / 100 * d ->
  (forall f, In f [f1; f2; f3; f4; f5; f6; f7] -> Rabs (f - 1) <= / 128 * d) -> Rabs e6 <= / 256 * d ->
  Rabs ((1 - ((c * ((1 + e) * (f1 * f2)) - (g + e')) * f5 / ((1 + e) * (f1 * f2) * (f3 * f4)) * f6 + e6)) * f7 - (1 - c + g)) <= d * (1 + Rabs (1 - c + g)).
Proof.
  intros D C He He' F H6. assert (Fi' : forall f, In f [f1; f2; f3; f4; f5; f6; f7] -> 1 / 2 <= f) by (intros f I; pose proof (F f I) as Q; apply Rabs_le_inv in Q; lra).
  assert (K34 : Rabs (f3 * f4 - 1) <= 16 / 1000 * d) by (eapply Rle_trans; [apply (close_mult f3 f4 (/ 128) (/ 128) d); try lra; apply F; cbn; auto 8|]; nra).
  assert (K12 : Rabs (f1 * f2 - 1) <= 16 / 1000 * d) by (eapply Rle_trans; [apply (close_mult f1 f2 (/ 128) (/ 128) d); try lra; apply F; cbn; auto 8|]; nra).
  assert (K56 : Rabs (f5 * f6 - 1) <= 16 / 1000 * d) by (eapply Rle_trans; [apply (close_mult f5 f6 (/ 128) (/ 128) d); try lra; apply F; cbn; auto 8|]; nra).
  assert (Ke : Rabs ((1 + e) - 1) <= 26 / 100 * d) by (replace (1 + e - 1) with e by ring; exact He).
  assert (K : Rabs ((1 + e) * (f1 * f2) - 1) <= 277 / 1000 * d) by (eapply Rle_trans; [apply (close_mult _ _ (26 / 100) (16 / 1000) d); try lra; assumption|]; nra).
  assert (K' : Rabs ((1 + e) * (f1 * f2) * (f3 * f4) - 1) <= 294 / 1000 * d) by (eapply Rle_trans; [apply (close_mult _ _ (277 / 1000) (16 / 1000) d); try lra; assumption|]; nra).
  pose proof (inv_close _ (16 / 1000 * d) ltac:(lra) K34) as I34. pose proof (inv_close _ (294 / 1000 * d) ltac:(lra) K') as I. set (a := (1 + e) * (f1 * f2)) in *. set (k := f3 * f4) in *. set (z := a * k) in *.
  assert (a0 : 1 / 2 <= a) by (apply Rabs_le_inv in K; lra). assert (k0 : 1 / 2 <= k) by (apply Rabs_le_inv in K34; lra). assert (z0 : 1 / 2 <= z) by (apply Rabs_le_inv in K'; lra).
  set (P := 1 + Rabs (1 - c + g)). assert (P1 : 1 <= P) by (unfold P; pose proof (Rabs_pos (1 - c + g)); lra). assert (G : Rabs g <= P) by (unfold P; clear - C; revert C; unfold Rabs; repeat destruct Rcase_abs; lra). assert (G1 : Rabs (1 - c + g) <= P - 1) by (unfold P; lra).
  assert (E : (c * a - (g + e')) * f5 / z * f6 = (c * / k - (g + e') * / z) * (f5 * f6)) by (unfold z; field; split; lra). rewrite E. set (Z := c * / k - (g + e') * / z).
  assert (DP : d <= d * P) by nra. assert (DZ : Rabs (Z - (c - g)) <= 63 / 100 * (d * P)).
  { replace (Z - (c - g)) with (c * (/ k - 1) - (g * (/ z - 1) + e' * / z)) by (unfold Z; ring). assert (Q1 : Rabs (c * (/ k - 1)) <= 2 * (16 / 15 * (16 / 1000 * d))) by (rewrite Rabs_mult, (Rabs_pos_eq c) by lra; apply Rmult_le_compat; [lra|apply Rabs_pos|lra|exact I34]).
    assert (Q2 : Rabs (g * (/ z - 1)) <= P * (16 / 15 * (294 / 1000 * d))) by (rewrite Rabs_mult; apply Rmult_le_compat; [apply Rabs_pos|apply Rabs_pos|exact G|exact I]).
    assert (Q3 : Rabs (e' * / z) <= 26 / 100 * d * (102 / 100)). { rewrite Rabs_mult. apply Rmult_le_compat; [apply Rabs_pos|apply Rabs_pos|exact He'|]. apply Rabs_le_inv in I. apply Rabs_le. lra. }
    apply Rabs_le_inv in Q1, Q2, Q3. apply Rabs_le. lra. }
  assert (BZ : Rabs Z <= 101 / 100 * P). { assert (d * P <= 1 / 128 * P) by (apply Rmult_le_compat_r; lra). assert (X : Rabs (c - g) <= P) by (unfold P; replace (c - g) with (1 - (1 - c + g)) by ring; eapply Rle_trans; [apply Rabs_triang|]; rewrite Rabs_Ropp, Rabs_R1; lra). apply Rabs_le_inv in X, DZ. apply Rabs_le. lra. }
  assert (DZ2 : Rabs (Z * (f5 * f6) + e6 - (c - g)) <= 66 / 100 * (d * P)).
  { assert (Q : Rabs (Z * (f5 * f6 - 1)) <= 101 / 100 * P * (16 / 1000 * d)) by (rewrite Rabs_mult; apply Rmult_le_compat; [apply Rabs_pos|apply Rabs_pos|exact BZ|exact K56]). replace (Z * (f5 * f6) + e6 - (c - g)) with (Z * (f5 * f6 - 1) + e6 + (Z - (c - g))) by ring. apply Rabs_le_inv in Q, DZ, H6. apply Rabs_le. lra. }
  set (Y := Z * (f5 * f6) + e6) in *. pose proof (F f7 ltac:(cbn; auto 10)) as F7. assert (BY : Rabs (1 - Y) <= 101 / 100 * P).
  { assert (d * P <= 1 / 128 * P) by (apply Rmult_le_compat_r; lra). replace (1 - Y) with ((1 - c + g) - (Y - (c - g))) by ring. apply Rabs_le_inv in G1, DZ2. apply Rabs_le. lra. }
  replace ((1 - Y) * f7 - (1 - c + g)) with ((1 - Y) * (f7 - 1) - (Y - (c - g))) by ring. assert (Q : Rabs ((1 - Y) * (f7 - 1)) <= 101 / 100 * P * (/ 128 * d)) by (rewrite Rabs_mult; apply Rmult_le_compat; [apply Rabs_pos|apply Rabs_pos|exact BY|exact F7]).
  apply Rabs_le_inv in Q, DZ2. apply Rabs_le. lra.
Qed.

Section Format.
Variables prec top : Z.
Hypothesis A : ample prec top.
Let W : wide prec top := proj1 A.
Notation u := (unit_roundoff prec).
Notation float := (is_float prec top).
Notation fmt := (generic_format radix2 (fexpo prec top)).
Notation near := (nearest prec top).
Notation b e := (bpow radix2 e).
Variable r : Z.
Hypothesis R0 : (0 <= r)%Z.
Hypothesis RT : (2 * r + prec + 8 <= top)%Z.
Notation M := (b r).
Notation B := (b (2 * r)).
Let BB : B = M * M. Proof. replace (2 * r)%Z with (r + r)%Z by lia. apply bpow_plus. Qed.
Let M1 : 1 <= M. Proof. apply (bpow_le radix2 0). exact R0. Qed.

Section Chain.
Variable s : list R.
Let n := length s.
Hypothesis Hs : chain_within prec top r s.
Hypothesis N0 : s <> [].
Hypothesis L : (8 * Z.of_nat n <= 2 ^ prec)%Z.

Lemma n_u : INR n * u <= 1 / 8.
Proof.
  pose proof A as (_ & p3 & _). pose proof (u_pos prec) as U. assert (Q : 8 * INR n <= b prec) by (rewrite INR_IZR_INZ, <- (IZR_Zpower radix2) by lia; rewrite <- mult_IZR; apply IZR_le, L).
  assert (X : b prec * u = 1) by (unfold unit_roundoff; rewrite <- bpow_plus; replace (prec + - prec)%Z with 0%Z by lia; reflexivity). nra.
Qed.
Lemma mu_spec p : adds_up p n -> exists m, fmean prec top p (map Fi s) = Fi m /\ float m /\ Rabs m <= 2 * M /\ Rabs (m - np_mean s) <= (2 * INR n + 1) * u * M.
Proof.
  intros P. pose proof A as (_ & p3 & _). destruct (mean_spec prec top A Fi (fun x => x) r 0 s p) as (m & E & F & Bm & D); try assumption; try lia.
  { eapply Forall_impl; [|exact Hs]. intros x (Fx & Bx). exists x. split; [reflexivity|]. split; [exact Fx|]. split; [exact Bx|]. rewrite Rminus_eq_0, Rabs_R0. lra. }
  exists m. split; [exact E|]. split; [exact F|]. rewrite b_1 in Bm. split; [exact Bm|]. rewrite map_id, mean_of_np in D. fold n in D. lra.
Qed.
Lemma mean_le : Rabs (np_mean s) <= M.
Proof. rewrite <- mean_of_np. apply mean_bound; [exact N0|]. eapply Forall_impl; [|exact Hs]. now intros x (_ & H). Qed.

Section Centred.
Variable m : R.
Hypothesis Bm : Rabs m <= 2 * M.
Hypothesis Dm : Rabs (m - np_mean s) <= (2 * INR n + 1) * u * M.
Lemma dev_spec x : float x -> Rabs x <= M -> exists d, fsub prec top (Fi x) (Fi m) = Fi d /\ float d /\ Rabs d <= 4 * M /\ Rabs (x - np_mean s) <= 2 * M /\ Rabs (d - (x - np_mean s)) <= (2 * INR n + 3) * u * M.
Proof.
  intros Fx Bx. pose proof A as (_ & p3 & _). pose proof (u_pos prec) as U. assert (B2 : b (r + 2) = 4 * M) by (rewrite bpow_plus; change (b 2) with 4; ring).
  assert (H : Rabs (x - m) <= b (r + 2)) by (rewrite B2; apply Rabs_le_inv in Bx, Bm; apply Rabs_le; lra).
  destruct (fsub_near prec top A x m (r + 2) ltac:(lia) ltac:(lia) H) as (E & F & Bd). pose proof (near_binade prec top A (x - m) (r + 2) ltac:(lia) H) as D. rewrite B2 in *.
  exists (near (x - m)). split; [exact E|]. split; [exact F|]. split; [exact Bd|]. pose proof mean_le as ML. split; [apply Rabs_le_inv in Bx, ML; apply Rabs_le; lra|]. apply Rabs_le_inv in D, Dm. apply Rabs_le. lra.
Qed.
Lemma prod_spec x y : float x -> Rabs x <= M -> float y -> Rabs y <= M -> exists v, fmul prec top (fsub prec top (Fi x) (Fi m)) (fsub prec top (Fi y) (Fi m)) = Fi v /\ float v /\ Rabs v <= b (2 * r + 4) /\
  Rabs (v - (x - np_mean s) * (y - np_mean s)) <= (12 * INR n + 26) * u * B.
Proof.
  intros Fx Bx Fy By. pose proof A as (_ & p3 & _). pose proof (u_pos prec) as U. destruct (dev_spec x Fx Bx) as (d & E & F & Bd & Bt & D). destruct (dev_spec y Fy By) as (d' & E' & F' & Bd' & Bt' & D').
  assert (B4 : b (2 * r + 4) = 16 * B) by (rewrite bpow_plus; change (b 4) with 16; ring). assert (H : Rabs (d * d') <= b (2 * r + 4)).
  { rewrite B4, BB, Rabs_mult. pose proof (Rabs_pos d). pose proof (Rabs_pos d'). replace (16 * (M * M)) with ((4 * M) * (4 * M)) by ring. apply Rmult_le_compat; assumption. }
  rewrite E, E'. destruct (fmul_near prec top A d d' (2 * r + 4) ltac:(lia) ltac:(lia) H) as (E1 & F1 & B1). pose proof (near_binade prec top A (d * d') (2 * r + 4) ltac:(lia) H) as D1. exists (near (d * d')). split; [exact E1|]. split; [exact F1|]. split; [exact B1|].
  set (a := x - np_mean s) in *. set (c := y - np_mean s) in *. assert (Q : Rabs (d * d' - a * c) <= (12 * INR n + 18) * u * B).
  { replace (d * d' - a * c) with ((d - a) * d' + a * (d' - c)) by ring. eapply Rle_trans; [apply Rabs_triang|]. rewrite !Rabs_mult. pose proof (Rabs_pos (d - a)). pose proof (Rabs_pos d'). pose proof (Rabs_pos a). pose proof (Rabs_pos (d' - c)).
    assert (Rabs (d - a) * Rabs d' <= ((2 * INR n + 3) * u * M) * (4 * M)) by (apply Rmult_le_compat; assumption). assert (Rabs a * Rabs (d' - c) <= (2 * M) * ((2 * INR n + 3) * u * M)) by (apply Rmult_le_compat; assumption). rewrite BB. lra. }
  rewrite B4 in D1. apply Rabs_le_inv in D1, Q. apply Rabs_le. lra.
Qed.
Lemma products_spec p l : (forall q, In q l -> In (fst q) s /\ In (snd q) s) -> l <> [] -> (length l <= n)%nat -> adds_up p (length l) ->
  exists v, fmean prec top p (map (fun q : R * R => fmul prec top (fsub prec top (Fi (fst q)) (Fi m)) (fsub prec top (Fi (snd q)) (Fi m))) l) = Fi v /\ float v /\ Rabs v <= b (2 * r + 5) /\
    Rabs (v - np_mean (map (fun q => (fst q - np_mean s) * (snd q - np_mean s)) l)) <= (44 * INR n + 42) * u * B.
Proof.
  intros H Nl Ln P. pose proof A as (_ & p3 & _). pose proof (u_pos prec) as U. pose proof Hs as Hs'. unfold chain_within in Hs'. rewrite Forall_forall in Hs'.
  destruct (mean_spec prec top A (fun q : R * R => fmul prec top (fsub prec top (Fi (fst q)) (Fi m)) (fsub prec top (Fi (snd q)) (Fi m))) (fun q => (fst q - np_mean s) * (snd q - np_mean s)) (2 * r + 4) ((12 * INR n + 26) * u * B) l p) as (v & E & F & Bv & D); try assumption; try lia.
  { apply Forall_forall. intros q I. destruct (H q I) as (I1 & I2). destruct (Hs' _ I1), (Hs' _ I2). now apply prod_spec. }
  exists v. split; [exact E|]. split; [exact F|]. split; [replace (2 * r + 5)%Z with (2 * r + 4 + 1)%Z by lia; exact Bv|]. rewrite mean_of_np in D. eapply Rle_trans; [exact D|]. assert (Q : INR (length l) <= INR n) by now apply le_INR.
  replace (b (2 * r + 4)) with (16 * B) by (rewrite bpow_plus; change (b 4) with 16; ring). pose proof (bpow_gt_0 radix2 (2 * r)) as B0. assert (0 < u * B) by now apply Rmult_lt_0_compat. assert (INR (length l) * (u * B) <= INR n * (u * B)) by (apply Rmult_le_compat_r; lra). lra.
Qed.
End Centred.

Lemma in_pairs lag (q : R * R) : In q (combine (firstn (n - lag) s) (skipn lag s)) -> In (fst q) s /\ In (snd q) s.
Proof.
  destruct q as (x, y). intros I. split; cbn.
  - apply in_combine_l in I. rewrite <- (firstn_skipn (n - lag) s). apply in_or_app. now left.
  - apply in_combine_r in I. rewrite <- (firstn_skipn lag s). apply in_or_app. now right.
Qed.
Lemma cov_spec p q lag : adds_up p n -> (lag < n)%nat -> adds_up q (n - lag) -> exists v, fauto_covariance prec top q (fmean prec top p (map Fi s)) (map Fi s) lag = Fi v /\ float v /\ Rabs v <= b (2 * r + 5) /\ Rabs (v - autocov s lag) <= (44 * INR n + 42) * u * B.
Proof.
  intros P Hl Q. destruct (mu_spec p P) as (m & E & F & Bm & Dm). rewrite E. unfold fauto_covariance. rewrite map_length, firstn_map, skipn_map, combine_Fi, map_map. rewrite <- auto_covariance_eq by (fold n; lia). unfold auto_covariance. fold n.
  assert (Len : length (combine (firstn (n - lag) s) (skipn lag s)) = (n - lag)%nat) by (rewrite combine_length, firstn_length, skipn_length; fold n; lia).
  apply (products_spec m Bm Dm); [intros z; apply in_pairs|intros Z; rewrite Z in Len; cbn in Len; lia|lia|now rewrite Len].
Qed.
Lemma np_var_spec p q : adds_up p n -> adds_up q n -> exists v, fnp_var prec top p q (map Fi s) = Fi v /\ float v /\ Rabs v <= b (2 * r + 5) /\ Rabs (v - variance s) <= (44 * INR n + 42) * u * B.
Proof.
  intros P Q. destruct (mu_spec p P) as (m & E & F & Bm & Dm). unfold fnp_var. rewrite E, map_map. rewrite <- np_var_eq. unfold np_var.
  destruct (products_spec m Bm Dm q (map (fun x => (x, x)) s)) as (v & Ev & R1).
  - intros z I. apply in_map_iff in I as (x & <- & I). auto.
  - intros Z. apply map_eq_nil in Z. contradiction.
  - rewrite map_length. fold n. lia.
  - now rewrite map_length.
  - exists v. rewrite !map_map in *. cbn [fst snd] in *. auto.
Qed.

Section Rho.
Hypothesis N2 : (2 <= n)%nat.
Let V := variance s.
Let c := INR n / (INR n - 1).
Let d := rho_error prec r s.
Hypothesis V0 : 0 < V.
Hypothesis Hd : 64 * INR n * d <= 1.
Let n2 : 2 <= INR n. Proof. change 2 with (INR 2). now apply le_INR. Qed.
Let dV : d * V = 256 * INR n * u * B. Proof. unfold d, rho_error. fold V n. unfold Rdiv. rewrite (Rmult_assoc _ (/ V) V), Rinv_l by lra. ring. Qed.
Let B0 : 1 <= B. Proof. apply (bpow_le radix2 0). lia. Qed.
Lemma d_nonneg : 0 <= d.
Proof. pose proof (u_pos prec) as U. unfold d, rho_error. fold V n. apply Rmult_le_pos; [|left; now apply Rinv_0_lt_compat]. repeat apply Rmult_le_pos; lra. Qed.
Lemma d_small : d <= 1 / 128.
Proof. pose proof d_nonneg. assert (2 * d <= INR n * d) by (apply Rmult_le_compat_r; lra). lra. Qed.
Lemma V_le : V <= 4 * B.
Proof.
  unfold V. rewrite <- np_var_eq. unfold np_var. rewrite <- mean_of_np. eapply Rle_trans; [apply Rle_abs|]. apply mean_bound; [intros Z; apply map_eq_nil in Z; contradiction|]. apply Forall_map. eapply Forall_impl; [|exact Hs]. intros x (_ & Bx).
  pose proof mean_le as ML. rewrite Rabs_mult, BB. assert (Q : Rabs (x - np_mean s) <= 2 * M) by (apply Rabs_le_inv in Bx, ML; apply Rabs_le; lra). replace (4 * (M * M)) with ((2 * M) * (2 * M)) by ring. apply Rmult_le_compat; auto using Rabs_pos.
Qed.
Lemma u_d : u <= / 128 * d.
Proof.
  pose proof (u_pos prec) as U. pose proof V_le as VL. apply (Rmult_le_reg_r V); [exact V0|]. rewrite Rmult_assoc, dV. assert (u * V <= u * (4 * B)) by (apply Rmult_le_compat_l; lra). assert (2 * (u * B) <= INR n * (u * B)) by (apply Rmult_le_compat_r; [apply Rmult_le_pos; lra|lra]). lra.
Qed.
Lemma E_d : (44 * INR n + 42) * u * B <= 26 / 100 * d * V.
Proof. pose proof (u_pos prec) as U. rewrite Rmult_assoc, (Rmult_assoc (26 / 100)), dV. assert (0 < u * B) by (apply Rmult_lt_0_compat; lra). assert (2 * (u * B) <= INR n * (u * B)) by (apply Rmult_le_compat_r; [apply Rmult_le_pos; lra|lra]). lra. Qed.
Lemma V_ge : 65536 * (u * B) <= V.
Proof.
  pose proof (u_pos prec) as U. assert (Q : 64 * INR n * d * V <= 1 * V) by (apply Rmult_le_compat_r; lra). rewrite Rmult_assoc, dV in Q. assert (UB : 0 < u * B) by (apply Rmult_lt_0_compat; lra). assert (4 * (u * B) <= INR n * INR n * (u * B)) by (apply Rmult_le_compat_r; [lra|nra]). nra.
Qed.
Lemma n_le : INR n <= b (prec - 3).
Proof. pose proof A as (_ & p3 & _). assert (Q : 8 * INR n <= b prec) by (rewrite INR_IZR_INZ, <- (IZR_Zpower radix2) by lia; rewrite <- mult_IZR; apply IZR_le, L). replace prec with (prec - 3 + 3)%Z in Q by lia. rewrite bpow_plus in Q. change (b 3) with 8 in Q. lra. Qed.
Let VT : b (2 - top) <= / 2 * V.
Proof. pose proof A as ((_ & w & _) & _ & _). pose proof V_ge. assert (Q : b (2 - top) <= u) by (apply bpow_le; lia). pose proof (u_pos prec) as U. assert (u <= u * B) by nra. lra. Qed.

Variable k : reductions.
Hypothesis K : reduces k n.
Lemma variances : exists e f1 f2 f3 f4, Rabs e <= 26 / 100 * d /\ (forall f, In f [f1; f2; f3; f4] -> Rabs (f - 1) <= / 128 * d) /\
  fvar prec top k (map Fi s) = Fi (V * (c * ((1 + e) * (f1 * f2)))) /\ float (V * (c * ((1 + e) * (f1 * f2)))) /\ fvar_plus prec top k (map Fi s) = Fi (V * ((1 + e) * (f1 * f2) * (f3 * f4))).
Proof.
  destruct K as (_ & K2 & K3 & _). destruct (np_var_spec _ _ K2 K3) as (v & E & F & Bv & D). pose proof A as (_ & p3 & _). pose proof u_d as UD. pose proof d_small as DS. pose proof d_nonneg as D0. pose proof (u_pos prec) as U. pose proof n_le as NL. pose proof V_le as VL.
  assert (D' : Rabs (v - V) <= 26 / 100 * d * V) by (eapply Rle_trans; [exact D|exact E_d]). set (e := v / V - 1). assert (Ve : v = V * (1 + e)) by (unfold e; field; lra). assert (He : Rabs e <= 26 / 100 * d).
  { replace e with ((v - V) * / V) by (unfold e; field; lra). rewrite Rabs_mult, (Rabs_pos_eq (/ V)) by (left; now apply Rinv_0_lt_compat). apply (Rmult_le_reg_r V); [exact V0|]. rewrite Rmult_assoc, Rinv_l by lra. lra. }
  assert (Lv : 99 / 100 * V <= v <= 101 / 100 * V). { assert (d * V <= 1 / 128 * V) by (apply Rmult_le_compat_r; lra). apply Rabs_le_inv in D'. lra. }
  assert (T1 : 5 * B * b (prec - 3) <= b (top - 2)). { apply Rle_trans with (b 3 * B * b (prec - 3)); [apply Rmult_le_compat_r; [apply bpow_ge_0|]; apply Rmult_le_compat_r; [lra|change (b 3) with 8; lra]|]. rewrite <- !bpow_plus. apply bpow_le. lia. }
  assert (NV : forall x, 0 <= x <= 101 / 100 * V -> INR n * x <= b (top - 2)). { intros x X. eapply Rle_trans; [|exact T1]. rewrite Rmult_comm. pose proof (bpow_gt_0 radix2 (prec - 3)). apply Rmult_le_compat; lra. }
  assert (TT : b (top - 1) = 2 * b (top - 2)) by (replace (top - 1)%Z with (top - 2 + 1)%Z by lia; apply b_1).
  assert (S1 : INR n * v <= b (top - 2)) by (apply NV; lra). 
  (* var * n *)
  destruct (factor_normal prec top A (v * INR n)) as (f1 & E1 & F1). { rewrite Rabs_pos_eq by (apply Rmult_le_pos; lra). nra. }
  destruct (float_near prec top A (v * INR n)) as (X1 & Y1). { rewrite Rabs_pos_eq by (apply Rmult_le_pos; lra). pose proof (bpow_gt_0 radix2 (top - 2)). lra. }
  assert (f1b : 99 / 100 <= f1 <= 101 / 100) by (apply Rabs_le_inv in F1; lra). set (w := v * INR n * f1) in *. assert (wb : 99 / 100 * (v * INR n) <= w <= 101 / 100 * (v * INR n)) by (unfold w; assert (0 <= v * INR n) by (apply Rmult_le_pos; lra); nra).
  assert (vn0 : V <= v * INR n) by nra.
  (* / (n - 1) *)
  assert (wq : w = w / (INR n - 1) * (INR n - 1)) by (field; lra). set (y := w / (INR n - 1)) in *. assert (y0 : 0 <= y) by (unfold y; apply Rmult_le_pos; [lra|left; apply Rinv_0_lt_compat; lra]). assert (yb : y <= w) by (assert (0 <= y * (INR n - 2)) by (apply Rmult_le_pos; lra); lra). assert (yv : 98 / 100 * V <= y).
  { apply (Rmult_le_reg_r (INR n - 1)); [lra|]. rewrite <- wq. assert (99 / 100 * (99 / 100 * V * INR n) <= w) by (eapply Rle_trans; [|apply wb]; apply Rmult_le_compat_l; [lra|]; apply Rmult_le_compat_r; lra). assert (0 <= V * INR n) by (apply Rmult_le_pos; lra). nra. }
  destruct (factor_normal prec top A y) as (f2 & E2 & F2). { rewrite Rabs_pos_eq by exact y0. lra. }
  destruct (float_near prec top A y) as (X2 & Y2). { rewrite Rabs_pos_eq by exact y0. lra. }
  assert (f2b : 99 / 100 <= f2 <= 101 / 100) by (apply Rabs_le_inv in F2; lra). set (a := y * f2) in *. assert (ab : 99 / 100 * y <= a <= 101 / 100 * y) by (unfold a; nra).
  (* * (n - 1) *)
  assert (an : a * (INR n - 1) = w * f2) by (unfold a; rewrite wq; ring). assert (wf : 99 / 100 * w <= w * f2 <= 101 / 100 * w) by (assert (0 <= w) by lra; nra).
  destruct (factor_normal prec top A (a * (INR n - 1))) as (f3 & E3 & F3). { rewrite an, Rabs_pos_eq by lra. lra. }
  destruct (float_near prec top A (a * (INR n - 1))) as (X3 & Y3). { rewrite an, Rabs_pos_eq by lra. lra. }
  assert (f3b : 99 / 100 <= f3 <= 101 / 100) by (apply Rabs_le_inv in F3; lra). rewrite an in *. set (x := w * f2 * f3) in *. assert (xb : 99 / 100 * (w * f2) <= x <= 101 / 100 * (w * f2)) by (unfold x; assert (0 <= w * f2) by lra; nra).
  (* / n *)
  assert (zq : x / INR n = v * f1 * f2 * f3) by (unfold x, w; field; lra). set (z := x / INR n) in *. assert (zb : 95 / 100 * V <= z <= 106 / 100 * V).
  { rewrite zq. pose proof (times_factor v f1 (99 / 100 * V) (101 / 100 * V) ltac:(lra) Lv f1b) as P1. pose proof (times_factor _ f2 (99 / 100 * (99 / 100 * V)) (101 / 100 * (101 / 100 * V)) ltac:(lra) P1 f2b) as P2. pose proof (times_factor _ f3 (99 / 100 * (99 / 100 * (99 / 100 * V))) (101 / 100 * (101 / 100 * (101 / 100 * V))) ltac:(lra) P2 f3b) as P3. lra. }
  destruct (factor_normal prec top A z) as (f4 & E4 & F4). { rewrite Rabs_pos_eq by lra. lra. }
  destruct (float_near prec top A z) as (X4 & Y4). { rewrite Rabs_pos_eq by lra. pose proof (NV V ltac:(lra)). assert (2 * V <= INR n * V) by (apply Rmult_le_compat_r; lra). lra. }
  exists e, f1, f2, f3, f4. split; [exact He|]. split.
  { assert (G : forall f, Rabs (f - 1) <= 1 * u -> Rabs (f - 1) <= / 128 * d) by (intros; lra). intros f [<-|[<-|[<-|[<-|[]]]]]; now apply G. }
  assert (Ea : V * (c * ((1 + e) * (f1 * f2))) = a). { unfold a, y, w, c. rewrite Ve. field. lra. } assert (Ez : V * ((1 + e) * (f1 * f2) * (f3 * f4)) = z * f4) by (rewrite zq, Ve; ring).
  assert (Ev : fvar prec top k (map Fi s) = Fi a). { unfold fvar. rewrite map_length. fold n. rewrite E. unfold fmul. cbn [emul]. rewrite X1, E1, fdiv_fi by lra. fold y. rewrite X2, E2. reflexivity. }
  split; [rewrite Ea; exact Ev|]. rewrite Ea, Ez. split; [fold a in E2; rewrite <- E2; exact Y2|]. unfold fvar_plus. rewrite Ev, map_length. fold n. unfold fmul. cbn [emul]. rewrite an, X3, E3, fdiv_fi by lra. fold z. rewrite X4, E4. reflexivity.
Qed.
Lemma rho_spec lag : (lag < n)%nat -> exists v, frho prec top k (map Fi s) lag = Fi v /\ float v /\ Rabs (v - rho s lag) <= d * (1 + Rabs (rho s lag)).
Proof.
  intros Hl. destruct variances as (e & f1 & f2 & f3 & f4 & He & Hf & Ea & Fa & Ez). destruct K as (K1 & _ & _ & K4). destruct (cov_spec _ _ lag K1 Hl (K4 lag Hl)) as (C & EC & FC & BC & DC).
  pose proof A as (W' & p3 & _). pose proof u_d as UD. pose proof d_small as DS. pose proof d_nonneg as D0. pose proof (u_pos prec) as U. pose proof V_le as VL. pose proof V_ge as VG.
  assert (c2 : 1 <= c <= 2). { unfold c. split; apply (Rmult_le_reg_r (INR n - 1)); try lra; unfold Rdiv; rewrite Rmult_assoc, Rinv_l by lra; lra. }
  set (g := autocov s lag / V). set (e' := C / V - g). assert (He' : Rabs e' <= 26 / 100 * d).
  { replace e' with ((C - autocov s lag) * / V) by (unfold e', g; field; lra). rewrite Rabs_mult, (Rabs_pos_eq (/ V)) by (left; now apply Rinv_0_lt_compat). apply (Rmult_le_reg_r V); [exact V0|]. rewrite Rmult_assoc, Rinv_l by lra. pose proof E_d. lra. }
  assert (CV : C = V * (g + e')) by (unfold e'; field; lra). assert (Rh : rho s lag = 1 - c + g). { unfold rho, g, c. fold n V. field. lra. }
  unfold frho. rewrite Ea, Ez, EC. set (a := V * (c * ((1 + e) * (f1 * f2)))) in *. set (z := V * ((1 + e) * (f1 * f2) * (f3 * f4))).
  assert (Hi : forall f, In f [f1; f2; f3; f4] -> 99 / 100 <= f <= 101 / 100) by (intros f I; pose proof (Hf f I) as Q; apply Rabs_le_inv in Q; lra). assert (h : forall i, 0 <= i -> 99 / 100 <= i <= 101 / 100 -> True) by auto.
  pose proof (Hi f1 ltac:(cbn; auto)) as i1. pose proof (Hi f2 ltac:(cbn; auto)) as i2. pose proof (Hi f3 ltac:(cbn; auto)) as i3. pose proof (Hi f4 ltac:(cbn; auto)) as i4. assert (ie : 99 / 100 <= 1 + e <= 101 / 100) by (apply Rabs_le_inv in He; lra).
  assert (j12 : 98 / 100 <= f1 * f2 <= 103 / 100) by nra. assert (j34 : 98 / 100 <= f3 * f4 <= 103 / 100) by nra. assert (j : 96 / 100 <= (1 + e) * (f1 * f2) <= 105 / 100) by nra. assert (j' : 9 / 10 <= (1 + e) * (f1 * f2) * (f3 * f4) <= 11 / 10) by nra.
  assert (ba : Rabs a <= 16 * B). { unfold a. assert (Q : 0 <= c * ((1 + e) * (f1 * f2)) <= 3) by nra. rewrite Rabs_pos_eq by nra. nra. } assert (z0 : 9 / 10 * V <= z) by (unfold z; nra).
  assert (b5 : b (2 * r + 5) = 32 * B) by (rewrite bpow_plus; change (b 5) with 32; ring). rewrite b5 in BC.
  assert (bd : Rabs (a - C) <= 64 * B) by (apply Rabs_le_inv in ba, BC; apply Rabs_le; lra). assert (b6 : b (2 * r + 6) = 64 * B) by (rewrite bpow_plus; change (b 6) with 64; ring).
  destruct (fsub_near prec top A a C (2 * r + 6) ltac:(lia) ltac:(lia) ltac:(lra)) as (E5 & F5 & B5). destruct (factor_sub prec top A a C (proj1 Fa) (proj1 FC)) as (f5 & E5' & G5). rewrite E5. rewrite b6 in B5.
  assert (Qb : Rabs (near (a - C) / z) <= b (top - 2)).
  { unfold Rdiv. rewrite Rabs_mult, (Rabs_pos_eq (/ z)) by (left; apply Rinv_0_lt_compat; lra). apply (Rmult_le_reg_r z); [lra|]. rewrite Rmult_assoc, Rinv_l, Rmult_1_r by lra. apply Rle_trans with (b prec * z); [|apply Rmult_le_compat_r; [lra|apply bpow_le; destruct W'; lia]].
    assert (X : b prec * u = 1) by (unfold unit_roundoff; rewrite <- bpow_plus; replace (prec + - prec)%Z with 0%Z by lia; reflexivity). assert (b prec * (58000 * (u * B)) <= b prec * z) by (apply Rmult_le_compat_l; [apply bpow_ge_0|lra]). nra. }
  assert (TT : b (top - 1) = 2 * b (top - 2)) by (replace (top - 1)%Z with (top - 2 + 1)%Z by lia; apply b_1). pose proof (bpow_gt_0 radix2 (top - 2)) as T0.
  rewrite fdiv_fi by lra. destruct (float_near prec top A (near (a - C) / z) ltac:(lra)) as (X6 & Y6). rewrite X6. destruct (factor_mul prec top A (near (a - C) / z)) as (f6 & e6 & E6 & G6 & H6). set (q := near (near (a - C) / z)) in *.
  assert (bq : Rabs q <= b (top - 2)) by (apply (near_bpow prec top W'); [lia|exact Qb]). assert (T3 : b (top - 2) + 1 <= b (top - 1)). { assert (1 <= b (top - 2)) by (apply (bpow_le radix2 0); pose proof (top_big prec top A); lia). lra. }
  assert (b7 : Rabs (1 - q) <= b (top - 1)) by (apply Rabs_le_inv in bq; apply Rabs_le; lra). destruct (fsub_near prec top A 1 q (top - 1) ltac:(lia) ltac:(pose proof (top_big prec top A); lia) b7) as (E7 & F7 & B7). rewrite E7.
  destruct (factor_sub prec top A 1 q (fmt_1 prec top W') (proj1 Y6)) as (f7 & E7' & G7). exists (near (1 - q)). split; [reflexivity|]. split; [exact F7|]. rewrite E7', E6, E5', Rh.
  replace ((a - C) * f5 / z * f6 + e6) with ((c * ((1 + e) * (f1 * f2)) - (g + e')) * f5 / ((1 + e) * (f1 * f2) * (f3 * f4)) * f6 + e6). 2: { rewrite CV. unfold a, z. field. repeat split; lra. }
  apply quotient_close; try assumption; [lra|..].
  - intros f I. assert (G : Rabs (f - 1) <= 1 * u -> Rabs (f - 1) <= / 128 * d) by (intros; lra). cbn in I. destruct I as [<-|[<-|[<-|[<-|[<-|[<-|[<-|[]]]]]]]]; first [now apply G|apply Hf; cbn; now auto 6].
  - eapply Rle_trans; [exact H6|]. pose proof (eta_small prec top W'). lra.
Qed.
Lemma rho_le lag : (lag < n)%nat -> INR n * (1 + Rabs (rho s lag)) <= b (prec - 1).
Proof.
  intros Hl. pose proof A as (_ & p3 & _). pose proof (u_pos prec) as U. pose proof n_le as NL. assert (NB : INR n * INR n * (u * B) * 16384 <= V) by (assert (Q : 64 * INR n * d * V <= 1 * V) by (apply Rmult_le_compat_r; lra); rewrite Rmult_assoc, dV in Q; lra).
  assert (C : Rabs (autocov s lag) <= 4 * B).
  { rewrite <- auto_covariance_eq by (fold n; lia). unfold auto_covariance. rewrite <- mean_of_np. assert (Len : length (combine (firstn (n - lag) s) (skipn lag s)) = (n - lag)%nat) by (rewrite combine_length, firstn_length, skipn_length; fold n; lia). fold n.
    apply mean_bound; [intros Z; apply map_eq_nil in Z; rewrite Z in Len; cbn in Len; lia|]. apply Forall_map, Forall_forall. intros q I. apply in_pairs in I as (I1 & I2). pose proof Hs as Hs'. unfold chain_within in Hs'. rewrite Forall_forall in Hs'. destruct (Hs' _ I1) as (_ & X1). destruct (Hs' _ I2) as (_ & X2). pose proof mean_le as ML.
    rewrite Rabs_mult, BB. replace (4 * (M * M)) with ((2 * M) * (2 * M)) by ring. apply Rmult_le_compat; auto using Rabs_pos; apply Rabs_le_inv in X1, X2, ML; apply Rabs_le; lra. }
  assert (UB : 0 < u * B) by (apply Rmult_lt_0_compat; lra). assert (X : b prec * u = 1) by (unfold unit_roundoff; rewrite <- bpow_plus; replace (prec + - prec)%Z with 0%Z by lia; reflexivity). pose proof (bpow_gt_0 radix2 prec) as BP.
  assert (G : INR n * Rabs (autocov s lag / V) <= / 8 * b prec).
  { unfold Rdiv. rewrite Rabs_mult, (Rabs_pos_eq (/ V)) by (left; now apply Rinv_0_lt_compat). apply (Rmult_le_reg_r V); [exact V0|]. replace (INR n * (Rabs (autocov s lag) * / V) * V) with (INR n * Rabs (autocov s lag)) by (field; lra).
    apply Rle_trans with (INR n * (4 * B)); [apply Rmult_le_compat_l; lra|]. apply Rle_trans with (/ 8 * b prec * (INR n * INR n * (u * B) * 16384)); [|apply Rmult_le_compat_l; lra]. replace (/ 8 * b prec * (INR n * INR n * (u * B) * 16384)) with (2048 * (INR n * INR n * B) * (b prec * u)) by field. rewrite X. assert (0 < INR n * B) by (apply Rmult_lt_0_compat; lra). assert (2 * (INR n * B) <= INR n * (INR n * B)) by (apply Rmult_le_compat_r; lra). lra. }
  assert (R1 : Rabs (rho s lag) <= Rabs (autocov s lag / V) + 1).
  { unfold rho. fold n V. assert (Q : 0 <= 1 / (INR n - 1) <= 1). { split; [apply Rmult_le_pos; [lra|left; apply Rinv_0_lt_compat; lra]|]. apply (Rmult_le_reg_r (INR n - 1)); [lra|]. unfold Rdiv. rewrite Rmult_assoc, Rinv_l by lra. lra. } set (z := 1 / (INR n - 1)) in *. unfold Rminus. eapply Rle_trans; [apply Rabs_triang|]. rewrite Rabs_Ropp, (Rabs_pos_eq z) by lra. lra. }
  assert (INR n * Rabs (rho s lag) <= INR n * (Rabs (autocov s lag / V) + 1)) by (apply Rmult_le_compat_l; lra). assert (B3 : b prec = 8 * b (prec - 3)) by (replace prec with (prec - 3 + 3)%Z at 1 by lia; rewrite bpow_plus; change (b 3) with 8; ring). assert (B1 : b prec = 2 * b (prec - 1)) by (replace prec with (prec - 1 + 1)%Z at 1 by lia; apply b_1). lra.
Qed.
Section Loop.
Variable q : nat -> ext.
Variable v : nat -> R.
Hypothesis Hv : forall t, (t < n)%nat -> q t = Fi (v t) /\ fmt (v t) /\ INR n * v t <= b prec.
Lemma partial_le T : (T <= n)%nat -> (forall t, (t < T)%nat -> 0 <= v t) -> 0 <= total v (seq 0 T) <= b prec.
Proof.
  intros HT P. assert (Q : 0 <= total v (seq 0 T) /\ INR n * total v (seq 0 T) <= INR T * b prec).
  { induction T as [|T IH]; [cbn; lra|]. destruct IH as (I1 & I2); [lia|intros; apply P; lia|]. destruct (Hv T ltac:(lia)) as (_ & _ & Bv). pose proof (P T ltac:(lia)) as Pt. rewrite seq_S, total_app, S_INR. change (total v [(0 + T)%nat]) with (v T + 0). lra. }
  destruct Q as (Q1 & Q2). split; [exact Q1|]. apply (Rmult_le_reg_l (INR n)); [lra|]. eapply Rle_trans; [exact Q2|]. apply Rmult_le_compat_r; [apply bpow_ge_0|now apply le_INR].
Qed.
Lemma loop_float fuel : forall t a, (t + fuel = n)%nat -> (forall k, (k < t)%nat -> 0 <= v k) -> float a -> Rabs (a - total v (seq 0 t)) <= ((1 + u) ^ t - 1) * total v (seq 0 t) ->
  exists T x, fsum_rho_loop prec top q fuel t (Fi a) = Fi x /\ (T <= n)%nat /\ (forall k, (k < T)%nat -> 0 <= v k) /\ (T = n \/ (T < n)%nat /\ v T < 0) /\ float x /\ Rabs (x - total v (seq 0 T)) <= ((1 + u) ^ T - 1) * total v (seq 0 T).
Proof.
  pose proof (u_pos prec) as U. pose proof A as ((_ & w & _) & p3 & _). induction fuel as [|fuel IH]; intros t a Ht P Fa Da; cbn [fsum_rho_loop].
  - exists t, a. split; [reflexivity|]. split; [lia|]. split; [exact P|]. split; [left; lia|]. split; [exact Fa|exact Da].
  - destruct (Hv t ltac:(lia)) as (E & Fv & Bv). rewrite E. cbn [eltb]. destruct (Rlt_dec (v t) 0) as [G|G].
    + exists t, a. split; [reflexivity|]. split; [lia|]. split; [exact P|]. split; [right; split; [lia|exact G]|]. split; [exact Fa|exact Da].
    + assert (P' : forall k, (k < S t)%nat -> 0 <= v k) by (intros k' Hk; destruct (Nat.eq_dec k' t) as [->|]; [lra|apply P; lia]). pose proof (partial_le t ltac:(lia) P) as PL. pose proof (partial_le (S t) ltac:(lia) P') as PL'.
      assert (ES : total v (seq 0 (S t)) = total v (seq 0 t) + v t) by (rewrite seq_S, total_app; change (total v [(0 + t)%nat]) with (v t + 0); ring). rewrite ES in PL'. set (Pt := total v (seq 0 t)) in *.
      assert (pw : 1 <= (1 + u) ^ t <= 2). { split; [apply pow_R1_Rle; lra|]. pose proof (pow_upper prec top W (S t) ltac:(lia) ltac:(lia)) as Q. replace (S t - 1)%nat with t in Q by lia. rewrite S_INR in Q. assert (INR t <= INR n) by (apply le_INR; lia). pose proof n_u. assert (INR t * u <= INR n * u) by (apply Rmult_le_compat_r; lra). lra. }
      assert (a1 : Rabs (a + v t) <= (1 + u) ^ t * Pt + v t). { assert (((1 + u) ^ t - 1) * Pt = (1 + u) ^ t * Pt - Pt) by ring. assert (1 * Pt <= (1 + u) ^ t * Pt) by (apply Rmult_le_compat_r; lra). apply Rabs_le_inv in Da. apply Rabs_le. lra. }
      assert (a2 : Rabs (a + v t) <= b (top - 1)). { eapply Rle_trans; [exact a1|]. assert ((1 + u) ^ t * Pt <= 2 * Pt) by (apply Rmult_le_compat_r; lra). apply Rle_trans with (b (prec + 1)); [rewrite b_1; lra|apply bpow_le; lia]. }
      destruct (fadd_near prec top A a (v t) (top - 1) ltac:(lia) ltac:(lia) a2) as (E1 & F1 & _). rewrite E1. destruct (factor_add prec top A a (v t) (proj1 Fa) Fv) as (f & Ef & Hf). apply IH; [lia|exact P'|exact F1|]. rewrite ES. fold Pt. rewrite Ef.
      replace ((a + v t) * f - (Pt + v t)) with ((a + v t) * (f - 1) + (a - Pt)) by ring. eapply Rle_trans; [apply Rabs_triang|]. rewrite Rabs_mult. assert (Rabs (a + v t) * Rabs (f - 1) <= ((1 + u) ^ t * Pt + v t) * (1 * u)) by (apply Rmult_le_compat; auto using Rabs_pos). cbn [pow]. assert (0 <= ((1 + u) ^ t - 1) * v t * (1 + u)) by (apply Rmult_le_pos; [apply Rmult_le_pos; lra|lra]). nra.
Qed.
End Loop.
Lemma estimate_spec : exists T e, fess_1d prec top k (map Fi s) = Fi e /\ float e /\ (T <= n)%nat /\ (forall t, (t < T)%nat -> - (2 * d) <= rho s t) /\ (T = n \/ (T < n)%nat /\ rho s T <= 2 * d) /\
  let exact := INR n / (1 + 2 * total (rho s) (seq 0 T)) in 0 < exact /\ Rabs (e - exact) <= 3 * INR n * d * exact.
Proof.
  pose proof A as ((W1 & w & W2) & p3 & _). pose proof u_d as UD. pose proof d_small as DS. pose proof d_nonneg as D0. pose proof (u_pos prec) as U. pose proof n_le as NL. pose proof n_u as NU.
  set (v := fun t => match frho prec top k (map Fi s) t with Fi x => x | _ => 0 end).
  assert (Hv : forall t, (t < n)%nat -> frho prec top k (map Fi s) t = Fi (v t) /\ float (v t) /\ Rabs (v t - rho s t) <= d * (1 + Rabs (rho s t))) by (intros t I; unfold v; destruct (rho_spec t I) as (x & E & F & D); rewrite E; auto).
  assert (Bp : b prec = 2 * b (prec - 1)) by (replace prec with (prec - 1 + 1)%Z at 1 by lia; apply b_1).
  destruct (loop_float (frho prec top k (map Fi s)) v) with (fuel := n) (t := 0%nat) (a := 0) as (T & x & E & TL & P & End & Fx & Dx).
  { intros t I. destruct (Hv t I) as (Q1 & Q2 & Q3). split; [exact Q1|]. split; [apply Q2|]. pose proof (rho_le t I) as RL. assert (v t <= 2 * (1 + Rabs (rho s t))). { pose proof (Rabs_pos (rho s t)). assert (d * (1 + Rabs (rho s t)) <= 1 * (1 + Rabs (rho s t))) by (apply Rmult_le_compat_r; lra). apply Rabs_le_inv in Q3. pose proof (Rle_abs (rho s t)). lra. } assert (INR n * v t <= INR n * (2 * (1 + Rabs (rho s t)))) by (apply Rmult_le_compat_l; lra). lra. }
  { lia. } { intros; lia. } { apply float_0. } { cbn. rewrite Rminus_0_r, Rabs_R0. lra. }
  assert (PL : 0 <= total v (seq 0 T) <= b prec). { apply (partial_le (frho prec top k (map Fi s)) v); [|exact TL|exact P]. intros t I. destruct (Hv t I) as (Q1 & Q2 & Q3). split; [exact Q1|]. split; [apply Q2|]. pose proof (rho_le t I) as RL. assert (v t <= 2 * (1 + Rabs (rho s t))). { pose proof (Rabs_pos (rho s t)). assert (d * (1 + Rabs (rho s t)) <= 1 * (1 + Rabs (rho s t))) by (apply Rmult_le_compat_r; lra). apply Rabs_le_inv in Q3. pose proof (Rle_abs (rho s t)). lra. } assert (INR n * v t <= INR n * (2 * (1 + Rabs (rho s t)))) by (apply Rmult_le_compat_l; lra). lra. }
  assert (TN : INR T <= INR n) by now apply le_INR. pose proof (pos_INR T) as T0. assert (TU : INR T * u <= INR n * u) by (apply Rmult_le_compat_r; lra).
  assert (pw : (1 + u) ^ T - 1 <= 2 * INR T * u). { pose proof (pow_upper prec top W (S T) ltac:(lia) ltac:(lia)) as Q. replace (S T - 1)%nat with T in Q by lia. rewrite S_INR in Q. lra. } set (Pt := total v (seq 0 T)) in *.
  assert (Dx' : Rabs (x - Pt) <= 1 / 64 * d * INR T * Pt). { eapply Rle_trans; [exact Dx|]. apply Rmult_le_compat_r; [lra|]. assert (INR T * u <= INR T * (/ 128 * d)) by (apply Rmult_le_compat_l; lra). lra. }
  assert (x0 : 0 <= x <= 2 * b prec). { assert (1 / 64 * d * INR T * Pt <= 1 * Pt). { apply Rmult_le_compat_r; [lra|]. assert (d * INR T <= d * INR n) by (apply Rmult_le_compat_l; lra). lra. } apply Rabs_le_inv in Dx'. lra. }
  destruct (sum_close v (rho s) d T ltac:(lra)) as (S1 & S2 & S3). { intros t I. split; [apply P, I|apply Hv; lia]. } set (S := total (rho s) (seq 0 T)) in *.
  (* 1 + 2 x *)
  assert (B3 : b (prec + 3) = 8 * b prec) by (rewrite bpow_plus; change (b 3) with 8; ring). assert (bp1 : 1 <= b prec) by (apply (bpow_le radix2 0); lia).
  assert (M2 : fmul prec top (Fi 2) (Fi x) = Fi (2 * x)). { unfold fmul. cbn [emul]. apply (rounded_float prec top). split; [apply (fmt_twice prec top), Fx|]. rewrite Rabs_pos_eq by lra. apply Rle_lt_trans with (b (prec + 3)); [lra|apply bpow_lt; lia]. }
  assert (F2 : fmt (2 * x)) by (apply (fmt_twice prec top), Fx). destruct (fadd_near prec top A 1 (2 * x) (top - 1) ltac:(lia) ltac:(lia)) as (E8 & F8 & _). { rewrite Rabs_pos_eq by lra. apply Rle_trans with (b (prec + 3)); [lra|apply bpow_le; lia]. }
  destruct (factor_add prec top A 1 (2 * x) (fmt_1 prec top W) F2) as (f8 & Ef8 & Hf8). assert (f8b : 99 / 100 <= f8 <= 101 / 100) by (apply Rabs_le_inv in Hf8; lra). set (y := (1 + 2 * x) * f8) in *. assert (yb : 1 / 2 <= y <= b (prec + 3)) by (unfold y; rewrite B3; split; nra).
  assert (ny : b (2 - top) <= INR n / y <= b (top - 1)).
  { split; (apply (Rmult_le_reg_r y); [lra|]); unfold Rdiv; rewrite Rmult_assoc, Rinv_l by lra.
    - apply Rle_trans with (b (2 - top) * b (prec + 3)); [apply Rmult_le_compat_l; [apply bpow_ge_0|lra]|]. rewrite <- bpow_plus. apply Rle_trans with (b 0); [apply bpow_le; lia|cbn; lra].
    - apply Rle_trans with (b (top - 1) * (1 / 2)); [|apply Rmult_le_compat_l; [apply bpow_ge_0|lra]]. assert (Q : b (prec - 3 + 1) <= b (top - 1)) by (apply bpow_le; lia). rewrite b_1 in Q. lra. }
  destruct (factor_normal prec top A (INR n / y)) as (f9 & Ef9 & Hf9). { rewrite Rabs_pos_eq by (pose proof (bpow_gt_0 radix2 (2 - top)); lra). apply ny. }
  destruct (float_near prec top A (INR n / y)) as (X9 & Y9). { rewrite Rabs_pos_eq by (pose proof (bpow_gt_0 radix2 (2 - top)); lra). apply ny. }
  destruct (estimate_close (INR n) d (INR T) S Pt x f8 f9) as (G0 & G); try lra; try assumption.
  exists T, (near (INR n / y)). split. { unfold fess_1d. rewrite map_length. fold n. rewrite E, M2, E8, Ef8. fold y. rewrite fdiv_fi by lra. exact X9. }
  split; [exact Y9|]. split; [exact TL|]. split; [intros t I; pose proof (S3 t I); lra|]. split.
  { destruct End as [|(I & G1)]; [now left|right; split; [exact I|]]. destruct (Hv T I) as (_ & _ & Q). destruct (Rle_or_lt (rho s T) 0); [lra|]. rewrite (Rabs_pos_eq (rho s T)) in Q by lra. apply Rabs_le_inv in Q. nra. }
  intros ex. split; [apply Rmult_lt_0_compat; [lra|now apply Rinv_0_lt_compat]|]. rewrite Ef9. exact G.
Qed.
End Rho.
End Chain.
End Format.

(** ** Samples that are not finite *)
Section Bad.
Variables prec top : Z.
Lemma bad_or_nan l i p x : not_finite x -> nth i l NaN = x -> In i (entries p) -> fsum prec top p l = x \/ fsum prec top p l = NaN.
Proof.
  intros N H. induction p as [|j|p IHp q IHq]; cbn [entries fsum]; [intros []|intros [->|[]]; now left|]. intros I. apply in_app_or in I as [I|I]; [destruct (IHp I) as [E|E]|destruct (IHq I) as [E|E]]; rewrite E; unfold fadd.
  - destruct x, (fsum prec top q l); cbn in *; auto; contradiction.
  - now right.
  - destruct x, (fsum prec top p l); cbn in *; auto; contradiction.
  - right. now destruct (fsum prec top p l).
Qed.
Lemma nan_mul a c : a = NaN \/ c = NaN -> fmul prec top a c = NaN.
Proof. intros [-> | ->]; [reflexivity|]. unfold fmul. destruct a as [x| | |]; cbn; try reflexivity; destruct (Rlt_dec x 0), (Rlt_dec 0 x); reflexivity. Qed.
Lemma nan_div a c : a = NaN \/ c = NaN -> fdiv prec top a c = NaN.
Proof. intros [-> | ->]; unfold fdiv; [|reflexivity]. destruct c; reflexivity. Qed.
Lemma nan_loop q fuel : (forall t, q t = NaN) -> forall t a, (0 < fuel)%nat \/ a = NaN -> fsum_rho_loop prec top q fuel t a = NaN.
Proof.
  intros H. induction fuel as [|fuel IH]; intros t a C; cbn [fsum_rho_loop]; [destruct C as [C|C]; [lia|exact C]|]. rewrite H. cbn [eltb]. apply IH. right. unfold fadd. now destruct a.
Qed.
Lemma nan_var k s : fnp_var prec top (p_var_mean k) (p_var k) s = NaN -> s <> [] -> fess_1d prec top k s = NaN.
Proof.
  intros E N. assert (V : fvar prec top k s = NaN) by (unfold fvar; rewrite E, nan_mul, nan_div by auto; reflexivity). unfold fess_1d. rewrite nan_loop; [rewrite nan_mul by auto; unfold fadd; cbn [eadd rounded]; now apply nan_div; right| |left; destruct s; [easy|cbn; lia]].
  intros t. unfold frho. rewrite V. match goal with |- context [fsub prec top NaN ?y] => change (fsub prec top NaN y) with NaN end. rewrite nan_div by auto. reflexivity.
Qed.
Lemma bad_column k s x : In x s -> not_finite x -> adds_up (p_var_mean k) (length s) -> adds_up (p_var k) (length s) -> fess_1d prec top k s = NaN.
Proof.
  intros I N P Q. destruct (In_nth s x NaN I) as (i & Hi & Ei). assert (Ip : In i (entries (p_var_mean k))) by (apply (Permutation_in _ (Permutation_sym P)), in_seq; lia). assert (Iq : In i (entries (p_var k))) by (apply (Permutation_in _ (Permutation_sym Q)), in_seq; lia).
  apply nan_var; [|intros ->; contradiction]. unfold fnp_var. set (m := fmean prec top (p_var_mean k) s). assert (Em : m = x \/ m = NaN).
  { unfold m, fmean, fdivn. pose proof (pos_INR (length s)). destruct (bad_or_nan s i _ x N Ei Ip) as [E|E]; rewrite E; [|now right]. destruct x; cbn; try contradiction; auto; destruct (Rlt_dec (INR (length s)) 0); auto; lra. }
  assert (E : fsub prec top x m = NaN) by (destruct Em as [-> | ->]; unfold fsub, esub; destruct x; cbn; try reflexivity; contradiction).
  assert (S : fsum prec top (p_var k) (map (fun x => fmul prec top (fsub prec top x m) (fsub prec top x m)) s) = NaN).
  { apply (nan_sum prec top _ i); [|exact Iq]. rewrite (nth_indep _ NaN ((fun x => fmul prec top (fsub prec top x m) (fsub prec top x m)) NaN)) by now rewrite map_length. rewrite (map_nth (fun x => fmul prec top (fsub prec top x m) (fsub prec top x m))), Ei, E. reflexivity. }
  unfold fmean at 1. rewrite S. reflexivity.
Qed.
End Bad.

(** ** A chain that does not move *)
Section Constant.
Variables prec top : Z.
Hypothesis A : ample prec top.
Let W : wide prec top := proj1 A.
Notation float := (is_float prec top).
Notation fmt := (generic_format radix2 (fexpo prec top)).
Notation near := (nearest prec top).
Notation b e := (bpow radix2 e).
Local Instance prec_pos_d : Prec_gt_0 prec := prec_pos prec top W.
Lemma near_grid y e j : (3 - top - prec <= e)%Z -> b (prec + e - 1) <= y < b (prec + e) -> Rabs (y - IZR j * b e) < / 2 * b e -> near y = IZR j * b e.
Proof.
  intros E Y D. assert (C : cexp radix2 (fexpo prec top) y = e) by (unfold cexp, fexpo, FLT_exp; rewrite (mag_unique_pos radix2 y (prec + e)) by assumption; lia). unfold nearest, round, scaled_mantissa. rewrite C. unfold F2R. cbn [Fnum Fexp]. f_equal. f_equal. apply Znearest_imp.
  pose proof (bpow_gt_0 radix2 e) as B0. assert (X : b e * b (- e) = 1) by (rewrite <- bpow_plus; replace (e + - e)%Z with 0%Z by lia; reflexivity). apply (Rmult_lt_reg_r (b e)); [exact B0|]. rewrite <- (Rabs_pos_eq (b e)) at 1 by lra. rewrite <- Rabs_mult. replace ((y * b (- e) - IZR j) * b e) with (y * (b e * b (- e)) - IZR j * b e) by ring. rewrite X, Rmult_1_r. exact D.
Qed.
Lemma sum_ones l p : (forall i, In i (entries p) -> nth i l NaN = Fi 1) -> (Z.of_nat (length (entries p)) <= 2 ^ prec)%Z -> fsum prec top p l = Fi (INR (length (entries p))).
Proof.
  induction p as [|i|p IHp q IHq]; cbn [entries fsum]; intros H N; [reflexivity|now apply H; left|]. rewrite app_length in *. rewrite IHp, IHq by (try lia; intros; apply H, in_or_app; auto). unfold fadd. cbn [eadd]. rewrite <- plus_INR, INR_IZR_INZ. apply (rounded_float prec top), (float_count prec top A). lia.
Qed.
Lemma mean_ones {T} (f : T -> ext) l p : (forall x, In x l -> f x = Fi 1) -> l <> [] -> adds_up p (length l) -> (Z.of_nat (length l) <= 2 ^ prec)%Z -> fmean prec top p (map f l) = Fi 1.
Proof.
  intros H N P L. assert (E : length (entries p) = length l) by (rewrite (Permutation_length P); apply seq_length). unfold fmean. rewrite sum_ones, E, map_length; [| |rewrite E; exact L].
  - unfold fdivn, ediv. assert (0 < INR (length l)) by (apply lt_0_INR; destruct l; [easy|cbn; lia]). destruct (Req_EM_T (INR (length l)) 0); [lra|]. unfold Rdiv. rewrite Rinv_r by lra. apply (rounded_float prec top), (float_1 prec top A).
  - intros i I. apply (Permutation_in _ P), in_seq in I. destruct l as [|x l']; [easy|]. set (l := x :: l') in *. rewrite (nth_indep _ NaN (f x)) by (rewrite map_length; lia). rewrite (map_nth f). apply H, nth_In. lia.
Qed.
Hypothesis P11 : (11 <= prec)%Z.
Hypothesis T5 : (prec + 5 <= top)%Z.
Notation x := (b prec - 1).
Lemma stuck_mean : fmean prec top (numpy_plan 10) (map Fi (repeat x 10)) = Fi (b prec - 2).
Proof.
  assert (B11 : 2048 <= b prec) by (apply (bpow_le radix2 11); lia). assert (Fx : fmt x). { replace x with (IZR (2 ^ prec - 1)) by (rewrite minus_IZR, (pow_prec prec top A); reflexivity). apply (fmt_int prec top W). lia. }
  assert (R : forall y e, b y <= b e -> b y <= b e) by auto. assert (G : forall y, fmt y -> 0 <= y < b (prec + 4) -> rounded prec top (Fi y) = Fi y). { intros y Fy By. apply (rounded_float prec top). split; [exact Fy|]. rewrite Rabs_pos_eq by lra. eapply Rlt_le_trans; [apply By|]. apply bpow_le. lia. }
  assert (B4 : b (prec + 4) = 16 * b prec) by (rewrite bpow_plus; change (b 4) with 16; ring).
  assert (E2 : fadd prec top (Fi x) (Fi x) = Fi (2 * x)) by (unfold fadd; cbn [eadd]; replace (x + x) with (2 * x) by ring; apply G; [now apply (fmt_twice prec top)|rewrite B4; lra]).
  assert (E4 : fadd prec top (Fi (2 * x)) (Fi (2 * x)) = Fi (2 * (2 * x))) by (unfold fadd; cbn [eadd]; replace (2 * x + 2 * x) with (2 * (2 * x)) by ring; apply G; [now repeat apply (fmt_twice prec top)|rewrite B4; lra]).
  assert (E8 : fadd prec top (Fi (2 * (2 * x))) (Fi (2 * (2 * x))) = Fi (2 * (2 * (2 * x)))) by (unfold fadd; cbn [eadd]; replace (2 * (2 * x) + 2 * (2 * x)) with (2 * (2 * (2 * x))) by ring; apply G; [now repeat apply (fmt_twice prec top)|rewrite B4; lra]).
  assert (b4 : b prec = 16 * b (prec - 4)) by (replace prec with (prec - 4 + 4)%Z at 1 by lia; rewrite bpow_plus; change (b 4) with 16; ring). assert (I4 : b (prec - 4) = IZR (2 ^ (prec - 4))) by (change (2 ^ (prec - 4))%Z with (Zpower radix2 (prec - 4)); rewrite (IZR_Zpower radix2) by lia; reflexivity).
  assert (B3 : b (prec + 4 - 1) = 8 * b prec) by (replace (prec + 4 - 1)%Z with (prec + 3)%Z by lia; rewrite bpow_plus; change (b 3) with 8; ring).
  assert (E9 : fadd prec top (Fi (2 * (2 * (2 * x)))) (Fi x) = Fi (9 * b prec - 16)).
  { unfold fadd. cbn [eadd rounded]. rewrite (near_grid _ 4 (9 * 2 ^ (prec - 4) - 1)); [|lia|rewrite B3, B4; lra|]; rewrite minus_IZR, mult_IZR, <- I4; change (b 4) with 16; [|apply Rabs_def1; lra]. replace ((9 * b (prec - 4) - 1) * 16) with (9 * b prec - 16) by (rewrite b4; ring). apply overflow_small. rewrite Rabs_pos_eq by lra. apply Rlt_le_trans with (b (prec + 4)); [lra|apply bpow_le; lia]. }
  assert (E10 : fadd prec top (Fi (9 * b prec - 16)) (Fi x) = Fi (10 * b prec - 16)).
  { unfold fadd. cbn [eadd rounded]. rewrite (near_grid _ 4 (10 * 2 ^ (prec - 4) - 1)); [|lia|rewrite B3, B4; lra|]; rewrite minus_IZR, mult_IZR, <- I4; change (b 4) with 16; [|apply Rabs_def1; lra]. replace ((10 * b (prec - 4) - 1) * 16) with (10 * b prec - 16) by (rewrite b4; ring). apply overflow_small. rewrite Rabs_pos_eq by lra. apply Rlt_le_trans with (b (prec + 4)); [lra|apply bpow_le; lia]. }
  assert (Q : fdivn prec top (Fi (10 * b prec - 16)) 10 = Fi (b prec - 2)).
  { unfold fdivn, ediv. assert (TEN : INR 10 = 10) by (cbn; lra). rewrite TEN. destruct (Req_EM_T 10 0); [lra|]. cbn [rounded]. assert (B1 : b prec = 2 * b (prec + 0 - 1)) by (replace prec with (prec + 0 - 1 + 1)%Z at 1 by lia; apply b_1).
    rewrite (near_grid _ 0 (2 ^ prec - 2)); [|lia|replace (prec + 0)%Z with prec in * by lia; lra|]; rewrite minus_IZR, (pow_prec prec top A); change (b 0) with 1; [|apply Rabs_def1; lra]. rewrite Rmult_1_r. apply overflow_small. rewrite Rabs_pos_eq by lra. apply Rlt_le_trans with (b prec); [lra|apply bpow_le; lia]. }
  unfold fmean. rewrite map_length, repeat_length. transitivity (fdivn prec top (fadd prec top (fadd prec top (fadd prec top (fadd prec top (fadd prec top (Fi x) (Fi x)) (fadd prec top (Fi x) (Fi x))) (fadd prec top (fadd prec top (Fi x) (Fi x)) (fadd prec top (Fi x) (Fi x)))) (Fi x)) (Fi x)) 10); [reflexivity|]. rewrite E2, E4, E8, E9, E10. exact Q.
Qed.
Lemma between lo hi y : fmt lo -> fmt hi -> 0 <= lo -> lo <= y <= hi -> hi <= 1024 -> exists z, rounded prec top (Fi y) = Fi z /\ fmt z /\ lo <= z <= hi.
Proof.
  intros Fl Fh L0 Y H. exists (near y). assert (Q : lo <= near y <= hi) by (split; [apply (near_ge_fmt prec top W); [exact Fl|lra]|apply (near_le_fmt prec top W); [exact Fh|lra]]). split; [|split; [apply (near_fmt prec top W)|exact Q]]. cbn [rounded]. apply overflow_small. rewrite Rabs_pos_eq by lra. apply Rle_lt_trans with (b 10); [change (b 10) with 1024; lra|apply bpow_lt; lia].
Qed.
Lemma fmt_dyadic j e : (0 <= j <= 2048)%Z -> (-20 <= e)%Z -> fmt (IZR j * b e).
Proof. intros J E. apply (fmt_grid prec top W); [|pose proof (top_big prec top A); lia]. rewrite Z.abs_eq by lia. apply Z.le_trans with (2 ^ 11)%Z; [lia|apply Z.pow_le_mono_r; lia]. Qed.
End Constant.
