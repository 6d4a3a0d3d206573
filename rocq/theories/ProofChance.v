(** Mean squared errors and Chebyshev's inequality for averages of independent draws. *)
From Coq Require Import List Arith Bool Reals Lra Lia.
From Coquelicot Require Import Coquelicot.
From Verif Require Import SpecDist ModelVI SpecVI SpecChance ProofDiscrete ProofVI PropELBO.
Import ListNotations.
Local Open Scope R_scope.

Section Chance.
Context {Z : Type} (q : Z -> R) (Zs : list Z).
Hypothesis D : distribution q Zs.
Lemma variance_nonneg f : 0 <= variance q Zs f.
Proof.
  unfold variance. apply Rle_trans with (expect q Zs (fun _ => 0)); [rewrite (expect_const q Zs D); lra|]. apply expect_le; [exact D|]. intros; apply pow2_ge_0.
Qed.
Lemma centred f : expect q Zs (fun z => f z - expect q Zs f) = 0.
Proof.
  unfold Rminus. rewrite (expect_plus q Zs f (fun _ => - expect q Zs f)), (expect_const q Zs D). ring.
Qed.
Lemma square_sum f K : let m := expect q Zs f in expects q Zs K (fun zs => (total f zs - INR K * m) ^ 2) = INR K * variance q Zs f.
Proof.
  intros m. induction K as [|K IH]; [cbn; ring|]. cbn [expects]. rewrite (expect_ext q Zs _ (fun z => (f z - m) ^ 2 + INR K * variance q Zs f)).
  - rewrite (expect_plus q Zs (fun z => (f z - m) ^ 2)), (expect_const q Zs D), S_INR. fold m. unfold variance. fold m. ring.
  - intros z _. rewrite <- IH. rewrite (expects_ext q Zs K _ (fun zs => (f z - m) ^ 2 + 2 * (f z - m) * (total f zs - INR K * m) + (total f zs - INR K * m) ^ 2)).
    + rewrite !expects_plus, (expects_const q Zs D), expects_scal, (expects_minus q Zs K (fun zs => total f zs)), (expects_const q Zs D), (expects_each q Zs K f D). fold m. ring.
    + intros zs _. cbn [SpecDist.total]. rewrite S_INR. ring.
Qed.
(** The average of K draws. *)
Lemma mse_mean f v K : (1 <= K)%nat -> (forall zs, length zs = K -> v zs = total f zs / INR K) -> mean_squared_error q Zs K v (expect q Zs f) = variance q Zs f / INR K.
Proof.
  intros HK V. assert (N : INR K <> 0) by (apply not_0_INR; lia). unfold mean_squared_error.
  rewrite (expects_ext q Zs K _ (fun zs => / (INR K * INR K) * (total f zs - INR K * expect q Zs f) ^ 2)).
  - rewrite expects_scal, square_sum. now field.
  - intros zs [L _]. rewrite (V zs L). now field.
Qed.
Lemma chance_le K eps eps' v v' a a' : (forall zs, possible q Zs K zs -> eps <= Rabs (v zs - a) -> eps' <= Rabs (v' zs - a')) -> chance_off q Zs K eps v a <= chance_off q Zs K eps' v' a'.
Proof.
  intros H. apply expects_le; [exact D|]. intros zs P. specialize (H zs P). destruct (Rle_dec eps _) as [A|A], (Rle_dec eps' _) as [B|B]; lra.
Qed.
Lemma chance_or K eps e1 e2 v v1 v2 a a1 a2 : (forall zs, possible q Zs K zs -> eps <= Rabs (v zs - a) -> e1 <= Rabs (v1 zs - a1) \/ e2 <= Rabs (v2 zs - a2)) ->
  chance_off q Zs K eps v a <= chance_off q Zs K e1 v1 a1 + chance_off q Zs K e2 v2 a2.
Proof.
  intros H. unfold chance_off. rewrite <- expects_plus. apply expects_le; [exact D|]. intros zs P. specialize (H zs P).
  destruct (Rle_dec eps _) as [A|A], (Rle_dec e1 _) as [B|B], (Rle_dec e2 _) as [C|C]; lra.
Qed.
Lemma chance_range K eps v a : 0 <= chance_off q Zs K eps v a <= 1.
Proof.
  unfold chance_off. split.
  - apply Rle_trans with (expects q Zs K (fun _ => 0)); [rewrite (expects_const q Zs D); lra|]. apply expects_le; [exact D|]. intros zs _. destruct (Rle_dec _ _); lra.
  - apply Rle_trans with (expects q Zs K (fun _ => 1)); [|rewrite (expects_const q Zs D); lra]. apply expects_le; [exact D|]. intros zs _. destruct (Rle_dec _ _); lra.
Qed.
Lemma markov K eps v a : 0 < eps -> chance_off q Zs K eps v a <= mean_squared_error q Zs K v a / eps ^ 2.
Proof.
  intros E. assert (E2 : 0 < eps ^ 2) by now apply pow_lt. unfold chance_off, mean_squared_error, Rdiv. rewrite <- expects_scal_r. apply expects_le; [exact D|]. intros zs _.
  assert (P : 0 <= (v zs - a) ^ 2 * / eps ^ 2) by (apply Rmult_le_pos; [apply pow2_ge_0|left; now apply Rinv_0_lt_compat]).
  destruct (Rle_dec eps _) as [A|A]; [|exact P]. apply (Rmult_le_reg_r (eps ^ 2)); [exact E2|]. rewrite Rmult_assoc, Rinv_l, Rmult_1_l, Rmult_1_r by lra. rewrite <- (pow2_abs (v zs - a)). apply pow_incr. lra.
Qed.
Lemma chebyshev f v K eps : (1 <= K)%nat -> 0 < eps -> (forall zs, length zs = K -> v zs = total f zs / INR K) -> chance_off q Zs K eps v (expect q Zs f) <= variance q Zs f / (INR K * eps ^ 2).
Proof.
  intros HK E V. eapply Rle_trans; [apply (markov K eps v _ E)|]. rewrite (mse_mean f v K HK V). assert (N : INR K <> 0) by (apply not_0_INR; lia). apply Req_le. field. split; [lra|exact N].
Qed.
(** A probability of at most c / K vanishes. *)
Lemma vanishing v a (c : R -> R) : (forall K eps, (1 <= K)%nat -> 0 < eps -> chance_off q Zs K eps v a <= c eps / INR K) -> consistent q Zs v a.
Proof.
  intros H eps E. apply (is_lim_seq_le_le_loc (fun _ => 0) _ (fun K => c eps / INR K)).
  - exists 1%nat. intros K HK. split; [apply chance_range|now apply H].
  - apply is_lim_seq_const.
  - replace (Finite 0) with (Rbar_mult (c eps) 0) by (cbn; f_equal; ring). apply (is_lim_seq_scal_l (fun K => / INR K) (c eps) 0). apply (is_lim_seq_inv INR p_infty is_lim_seq_INR). easy.
Qed.
End Chance.

Section More.
Context {Z : Type} (q : Z -> R) (Zs : list Z).
Hypothesis D : distribution q Zs.
(** An estimate converges to at most one number. *)
Lemma consistent_unique v a b : consistent q Zs v a -> consistent q Zs v b -> a = b.
Proof.
  intros A B. destruct (Req_dec a b) as [E|E]; [exact E|exfalso]. set (e := Rabs (a - b) / 2). assert (He : 0 < e) by (unfold e; pose proof (Rabs_pos_lt (a - b) ltac:(lra)); lra).
  assert (L : is_lim_seq (fun K => chance_off q Zs K e v a + chance_off q Zs K e v b) 0) by (replace (Finite 0) with (Finite (0 + 0)) by (f_equal; ring); apply is_lim_seq_plus'; auto).
  assert (G : forall K, 1 <= chance_off q Zs K e v a + chance_off q Zs K e v b).
  { intros K. unfold chance_off. rewrite <- expects_plus. apply Rle_trans with (expects q Zs K (fun _ => 1)); [rewrite (expects_const q Zs D); lra|]. apply expects_le; [exact D|]. intros zs _.
    destruct (Rle_dec e (Rabs (v zs - a))) as [P|P], (Rle_dec e (Rabs (v zs - b))) as [Q|Q]; try lra. exfalso. pose proof (Rabs_triang (- (v zs - a)) (v zs - b)) as T. rewrite Rabs_Ropp in T. replace (- (v zs - a) + (v zs - b)) with (a - b) in T by ring. unfold e in *. lra. }
  pose proof (is_lim_seq_le (fun _ => 1) _ 1 0 G (is_lim_seq_const 1) L) as C. cbn in C. lra.
Qed.
(** Ratios of averages: self-normalised estimates. *)
Lemma ratio_off (w h : Z -> R) v K eps : let S := expect q Zs w in let c := expect q Zs (fun z => w z * h z) / S in 0 < S -> (1 <= K)%nat -> 0 < eps ->
  (forall zs, possible q Zs K zs -> 0 < total w zs /\ v zs = total (fun z => w z * h z) zs / total w zs) ->
  chance_off q Zs K eps v c <= (4 * variance q Zs w / S ^ 2 + 4 * variance q Zs (fun z => w z * (h z - c)) / (eps * S) ^ 2) / INR K.
Proof.
  intros S c PS HK E V. assert (PK : 0 < INR K) by (apply lt_0_INR; lia).
  assert (M : expect q Zs (fun z => w z * (h z - c)) = 0). { rewrite (expect_ext q Zs _ (fun z => w z * h z + - c * w z)) by (intros; ring). rewrite (expect_plus q Zs (fun z => w z * h z)), (expect_scal q Zs (- c) w). fold S. unfold c. field. lra. }
  apply Rle_trans with (chance_off q Zs K (S / 2) (fun zs => total w zs / INR K) S + chance_off q Zs K (eps * S / 2) (fun zs => total (fun z => w z * (h z - c)) zs / INR K) (expect q Zs (fun z => w z * (h z - c)))).
  - apply (chance_or q Zs D). intros zs P H. rewrite M, Rminus_0_r. destruct (V zs P) as (T & Ev). rewrite Ev in H. destruct (Rle_dec (S / 2) (Rabs (total w zs / INR K - S))) as [A|A]; [now left|right]. apply Rnot_le_lt in A. apply Rabs_def2 in A as (_ & A).
    assert (W : S / 2 < total w zs / INR K) by lra. assert (X : total (fun z => w z * (h z - c)) zs = (total (fun z => w z * h z) zs / total w zs - c) * total w zs). { rewrite (total_ext _ (fun z => w z * h z + - c * w z)) by (intros; ring). rewrite (total_plus (fun z => w z * h z)), (total_scal w (- c)). field. lra. }
    rewrite X. unfold Rdiv at 2. rewrite Rmult_assoc, Rabs_mult, (Rabs_pos_eq (total w zs * / INR K)) by (left; apply Rmult_lt_0_compat; [exact T|now apply Rinv_0_lt_compat]). fold (total w zs / INR K). replace (eps * S / 2) with (eps * (S / 2)) by field. apply Rmult_le_compat; lra.
  - assert (0 < eps * S) by now apply Rmult_lt_0_compat. pose proof (chebyshev q Zs D w (fun zs => total w zs / INR K) K (S / 2) HK ltac:(lra)) as C1. pose proof (chebyshev q Zs D (fun z => w z * (h z - c)) (fun zs => total (fun z => w z * (h z - c)) zs / INR K) K (eps * S / 2) HK ltac:(lra)) as C2.
    fold S in C1. specialize (C1 ltac:(reflexivity)). specialize (C2 ltac:(reflexivity)).
    assert (E1 : variance q Zs w / (INR K * (S / 2) ^ 2) = 4 * variance q Zs w / S ^ 2 / INR K) by (field; lra). assert (E2 : variance q Zs (fun z => w z * (h z - c)) / (INR K * (eps * S / 2) ^ 2) = 4 * variance q Zs (fun z => w z * (h z - c)) / (eps * S) ^ 2 / INR K) by (field; lra).
    rewrite E1 in C1. rewrite E2 in C2. match goal with |- _ <= (?x + ?y) / _ => set (a1 := x) in *; set (a2 := y) in * end. replace ((a1 + a2) / INR K) with (a1 / INR K + a2 / INR K) by (field; lra). lra.
Qed.
(** Logarithms of averages. *)
Lemma log_off (w : Z -> R) v K eps : let S := expect q Zs w in 0 < S -> (1 <= K)%nat -> 0 < eps -> (forall zs, possible q Zs K zs -> 0 < total w zs /\ v zs = ln (total w zs / INR K)) ->
  chance_off q Zs K eps v (ln S) <= variance q Zs w / (INR K * (S * (1 - exp (- eps))) ^ 2).
Proof.
  intros S PS HK E V. assert (PK : 0 < INR K) by (apply lt_0_INR; lia). assert (E1 : exp (- eps) < 1) by (rewrite <- exp_0; apply exp_increasing; lra). pose proof (exp_pos (- eps)) as E0.
  eapply Rle_trans; [|apply (chebyshev q Zs D w (fun zs => total w zs / INR K) K (S * (1 - exp (- eps))) HK); [apply Rmult_lt_0_compat; lra|reflexivity]].
  apply (chance_le q Zs D). intros zs P H. destruct (V zs P) as (T & Ev). rewrite Ev in H. fold S. set (m := total w zs / INR K) in *. assert (Pm : 0 < m) by now apply Rdiv_lt_0_compat.
  unfold Rabs in H. destruct (Rcase_abs _) as [C|C].
  - assert (ln m <= ln S - eps) by lra. assert (m <= S * exp (- eps)). { rewrite <- (exp_ln m Pm), <- (exp_ln S PS) at 1. rewrite <- exp_plus. destruct H0 as [L|L]; [left; apply exp_increasing; lra|right; f_equal; lra]. } rewrite Rabs_left1; nra.
  - assert (G : ln S + eps <= ln m) by lra. assert (S * exp eps <= m). { rewrite <- (exp_ln m Pm), <- (exp_ln S PS) at 1. rewrite <- exp_plus. destruct G as [L|L]; [left; apply exp_increasing; lra|right; f_equal; lra]. }
    assert (X : exp eps * exp (- eps) = 1) by (rewrite <- exp_plus, Rplus_opp_r, exp_0; reflexivity). assert (1 < exp eps) by (rewrite <- exp_0; apply exp_increasing; lra). assert (1 - exp (- eps) <= exp eps - 1) by nra. rewrite Rabs_pos_eq; nra.
Qed.
End More.
