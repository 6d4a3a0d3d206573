(** Lemmas on kernels and conditional Gaussians. *)
From Coq Require Import List Reals Lra Lia Arith.
From Verif Require Import SpecDist SpecChol SpecGP ModelChol ModelGP ProofChol.
Import ListNotations.
Local Open Scope R_scope.

Lemma softplus_pos a : 0 < softplus a.
Proof.
  unfold softplus. pose proof (exp_pos a). replace 0 with (ln 1) by apply ln_1. apply ln_increasing; lra.
Qed.
Lemma rsum_nonneg n f : (forall k, (k < n)%nat -> 0 <= f k) -> 0 <= rsum n f.
Proof.
  intros H. induction n; [cbn; lra|]. rewrite rsum_S. pose proof (H n ltac:(lia)).
  assert (0 <= rsum n f) by (apply IHn; intros; apply H; lia). lra.
Qed.
Lemma rsum_nonneg_0 n f : (forall k, (k < n)%nat -> 0 <= f k) -> rsum n f = 0 ->
  forall k, (k < n)%nat -> f k = 0.
Proof.
  intros H. induction n; intros E k Hk; [lia|]. rewrite rsum_S in E. pose proof (H n ltac:(lia)).
  assert (0 <= rsum n f) by (apply rsum_nonneg; intros; apply H; lia).
  destruct (Nat.eq_dec k n) as [->|]; [lra|]. apply IHn; [intros; apply H; lia|lra|lia].
Qed.
Lemma rsum_scal_r n f c : rsum n (fun k => f k * c) = rsum n f * c.
Proof. rewrite Rmult_comm, <- rsum_scal. apply rsum_ext. intros; ring. Qed.
Lemma rsum_opp n f : rsum n (fun k => - f k) = - rsum n f.
Proof. rewrite (rsum_ext n _ (fun k => -1 * f k)) by (intros; ring). rewrite rsum_scal. ring. Qed.
Lemma rsum_split n m f : rsum (n + m) f = rsum n f + rsum m (fun k => f (n + k)%nat).
Proof.
  induction m.
  - rewrite Nat.add_0_r. cbn. lra.
  - rewrite Nat.add_succ_r, !rsum_S, IHm. ring.
Qed.
Lemma rsum_delta n c f : (c < n)%nat -> rsum n (fun k => (if Nat.eqb k c then 1 else 0) * f k) = f c.
Proof.
  intros Hc. induction n; [lia|]. rewrite rsum_S. destruct (Nat.eqb_spec n c) as [->|N].
  - rewrite rsum_zero; [lra|]. intros k Hk. destruct (Nat.eqb_spec k c); [lia|lra].
  - rewrite IHn by lia. lra.
Qed.

(** ** The kernel is positive semidefinite *)
Lemma inner_pow_psd d n (p : nat -> nat -> R) k : forall c : nat -> R,
  0 <= rsum n (fun i => rsum n (fun j => c i * c j * (rsum d (fun e => p i e * p j e)) ^ k)).
Proof.
  induction k; intros c.
  - cbn [pow]. rewrite (rsum_ext n _ (fun i => c i * rsum n c)).
    + rewrite rsum_scal_r. apply Rle_0_sqr.
    + intros i _. rewrite <- rsum_scal. apply rsum_ext. intros; ring.
  - rewrite (rsum_ext n _ (fun i => rsum d (fun e => rsum n (fun j =>
       (c i * p i e) * (c j * p j e) * (rsum d (fun e => p i e * p j e)) ^ k)))).
    + rewrite rsum_swap. apply rsum_nonneg. intros e _. apply (IHk (fun i => c i * p i e)).
    + intros i _. rewrite <- rsum_swap. apply rsum_ext. intros j _. cbn [pow].
      set (q := rsum d (fun e => p i e * p j e) ^ k). symmetry.
      rewrite (rsum_ext d _ (fun e => (c i * c j * q) * (p i e * p j e))) by (intros; ring).
      rewrite rsum_scal. ring.
Qed.
Lemma Un_cv_const a : Un_cv (fun _ => a) a.
Proof. intros e He. exists 0%nat. intros. unfold R_dist. rewrite Rminus_diag_eq, Rabs_R0 by reflexivity. exact He. Qed.
Lemma Un_cv_rsum n (u : nat -> nat -> R) l : (forall i, Un_cv (fun N => u N i) (l i)) ->
  Un_cv (fun N => rsum n (u N)) (rsum n l).
Proof.
  intros H. induction n.
  - exact (Un_cv_const 0).
  - rewrite rsum_S. intros e He. destruct (CV_plus _ _ _ _ IHn (H n) e He) as [N HN].
    exists N. intros k Hk. rewrite rsum_S. apply (HN k Hk).
Qed.
Lemma Un_cv_nonneg u l : (forall N, 0 <= u N) -> Un_cv u l -> 0 <= l.
Proof.
  intros H C. destruct (Rle_lt_dec 0 l) as [|L]; [assumption|].
  destruct (C (- l) ltac:(lra)) as [N HN]. specialize (HN N (le_n N)). specialize (H N).
  unfold R_dist in HN. rewrite Rabs_pos_eq in HN by lra. lra.
Qed.
Lemma exp_inner_psd d n (p : nat -> nat -> R) (c : nat -> R) :
  0 <= rsum n (fun i => rsum n (fun j => c i * c j * exp (rsum d (fun e => p i e * p j e)))).
Proof.
  apply (Un_cv_nonneg (fun N => rsum n (fun i => rsum n (fun j =>
    c i * c j * E1 (rsum d (fun e => p i e * p j e)) N)))).
  - intros N. unfold E1. induction N.
    + cbn [sum_f_R0]. rewrite (rsum_ext n _ (fun i => rsum n (fun j => c i * c j * (rsum d (fun e => p i e * p j e)) ^ 0))).
      * apply inner_pow_psd.
      * intros. apply rsum_ext. intros. cbn. field.
    + rewrite (rsum_ext n _ (fun i =>
        rsum n (fun j => c i * c j * sum_f_R0 (fun k => / INR (fact k) * (rsum d (fun e => p i e * p j e)) ^ k) N) +
        / INR (fact (S N)) * rsum n (fun j => c i * c j * (rsum d (fun e => p i e * p j e)) ^ (S N)))).
      * rewrite rsum_plus, rsum_scal. apply Rplus_le_le_0_compat; [exact IHN|].
        apply Rmult_le_pos; [|apply inner_pow_psd]. left. apply Rinv_0_lt_compat, INR_fact_lt_0.
      * intros i _. rewrite <- rsum_scal, <- rsum_plus. apply rsum_ext. intros j _.
        rewrite tech5. ring.
  - apply Un_cv_rsum. intros i. apply Un_cv_rsum. intros j.
    exact (CV_mult _ _ _ _ (Un_cv_const (c i * c j)) (E1_cvg _)).
Qed.
Lemma rbf_psd d raw n p : semidefinite n (fun i j => rbf d raw (p i) (p j)).
Proof.
  intros c.
  set (w := fun i => exp (- rsum d (fun e => p i e ^ 2 / kernel_scale raw e) / 2)).
  rewrite (rsum_ext n _ (fun i => rsum n (fun j => (c i * w i) * (c j * w j) *
     exp (rsum d (fun e => (p i e / sqrt (kernel_scale raw e)) * (p j e / sqrt (kernel_scale raw e))))))).
  - apply (exp_inner_psd d n (fun i e => p i e / sqrt (kernel_scale raw e)) (fun i => c i * w i)).
  - intros i _. apply rsum_ext. intros j _.
    transitivity (c i * c j * (w i * w j * exp (rsum d (fun e =>
      p i e / sqrt (kernel_scale raw e) * (p j e / sqrt (kernel_scale raw e)))))); [|ring].
    f_equal. unfold w, rbf. rewrite <- !exp_plus. f_equal. rewrite sumn_rsum.
    rewrite (rsum_ext d (fun c0 => (p i c0 - p j c0) ^ 2 / kernel_scale raw c0) (fun e =>
      p i e ^ 2 / kernel_scale raw e + p j e ^ 2 / kernel_scale raw e +
      -2 * (p i e / sqrt (kernel_scale raw e) * (p j e / sqrt (kernel_scale raw e))))).
    + rewrite !rsum_plus, rsum_scal. field.
    + intros e _. pose proof (softplus_pos (raw e)) as P. fold (kernel_scale raw e) in P.
      assert (Q : 0 < sqrt (kernel_scale raw e)) by (apply sqrt_lt_R0; exact P).
      assert (S : kernel_scale raw e = sqrt (kernel_scale raw e) * sqrt (kernel_scale raw e)) by (rewrite sqrt_sqrt; lra).
      remember (sqrt (kernel_scale raw e)) as s. rewrite S. field. lra.
Qed.

(** ** Forward substitution solves the triangular system *)
Lemma fsub_solves L y n : (forall r, (r < n)%nat -> L r r <> 0) ->
  forall r, (r < n)%nat -> rsum (S r) (fun k => L r k * nth k (fsub L y n) 0) = y r.
Proof.
  intros D. induction n; intros r Hr; [lia|]. cbn [fsub].
  assert (E : forall k, (k < n)%nat -> nth k (fsub L y n ++ [(y n - sumn n (fun j => L n j * nth j (fsub L y n) 0)) / L n n]) 0
     = nth k (fsub L y n) 0) by (intros k Hk; apply app_nth1; rewrite fsub_length; exact Hk).
  destruct (Nat.eq_dec r n) as [->|N].
  - rewrite rsum_S. rewrite (rsum_ext n _ (fun k => L n k * nth k (fsub L y n) 0)) by (intros; now rewrite E).
    rewrite app_nth2 by (rewrite fsub_length; lia). rewrite fsub_length, Nat.sub_diag. cbn [nth].
    rewrite sumn_rsum. field. apply D. lia.
  - rewrite (rsum_ext (S r) _ (fun k => L r k * nth k (fsub L y n) 0)) by (intros k Hk; rewrite E by lia; reflexivity).
    apply IHn; [intros; apply D; lia|lia].
Qed.

Section inverse.
Variables (n : nat) (K L : nat -> nat -> R).
Hypothesis F : factor_of n K L.
Let inv (r c : nat) : R := nth r (fsub L (fun i => if Nat.eqb i c then 1 else 0) n) 0.
Lemma diag_nonzero r : (r < n)%nat -> L r r <> 0.
Proof. intros Hr. pose proof (proj2 (proj1 F) r Hr). lra. Qed.
Lemma inv_right r c : (r < n)%nat -> rsum n (fun k => L r k * inv k c) = if Nat.eqb r c then 1 else 0.
Proof.
  intros Hr. rewrite <- (fsub_solves L (fun i => if Nat.eqb i c then 1 else 0) n diag_nonzero r Hr).
  apply rsum_cut; [lia|]. intros k Hk. rewrite (proj1 (proj1 F)) by lia. lra.
Qed.
(** A triangular system has one solution. *)
Lemma unique x y : (forall r, (r < n)%nat -> rsum n (fun k => L r k * x k) = rsum n (fun k => L r k * y k)) ->
  forall k, (k < n)%nat -> x k = y k.
Proof.
  intros H k Hk.
  pose proof (fsub_factor n L (fun r => rsum n (fun k => L r k * x k)) x (proj1 F) (fun r _ => eq_refl)) as A.
  pose proof (fsub_factor n L (fun r => rsum n (fun k => L r k * x k)) y (proj1 F) H) as B.
  rewrite <- (nth_map_seq x n k 0 Hk), <- (nth_map_seq y n k 0 Hk). now rewrite <- A, <- B.
Qed.
Lemma inv_left r c : (r < n)%nat -> (c < n)%nat ->
  rsum n (fun k => inv r k * L k c) = if Nat.eqb r c then 1 else 0.
Proof.
  intros Hr Hc.
  apply (unique (fun r => rsum n (fun k => inv r k * L k c)) (fun r => if Nat.eqb r c then 1 else 0)); [|exact Hr].
  intros q Hq.
  rewrite (rsum_ext n _ (fun k => rsum n (fun m => (L q k * inv k m) * L m c))) by
    (intros; rewrite <- rsum_scal; apply rsum_ext; intros; ring).
  rewrite rsum_swap.
  rewrite (rsum_ext n _ (fun m => (if Nat.eqb m q then 1 else 0) * L m c)).
  - rewrite rsum_delta by exact Hq.
    rewrite (rsum_ext n _ (fun k => (if Nat.eqb k c then 1 else 0) * L q k)) by (intros; ring).
    now rewrite rsum_delta.
  - intros m Hm. rewrite rsum_scal_r, inv_right by exact Hq. now rewrite Nat.eqb_sym.
Qed.
Let Ki (i j : nat) : R := rsum n (fun k => inv k i * inv k j).
Lemma Ki_sym i j : Ki i j = Ki j i.
Proof. apply rsum_ext. intros; ring. Qed.
(** K^-1 K = 1 *)
Lemma Ki_left i j : (i < n)%nat -> (j < n)%nat -> rsum n (fun k => Ki i k * K k j) = if Nat.eqb i j then 1 else 0.
Proof.
  intros Hi Hj.
  rewrite (rsum_ext n _ (fun k => rsum n (fun a => inv a i * rsum n (fun b => inv a k * L k b * L j b)))).
  - rewrite rsum_swap.
    rewrite (rsum_ext n _ (fun a => L j a * inv a i)).
    + rewrite inv_right by exact Hj. now rewrite Nat.eqb_sym.
    + intros a Ha. rewrite rsum_scal.
      rewrite rsum_swap.
      rewrite (rsum_ext n _ (fun b => (if Nat.eqb b a then 1 else 0) * L j b)).
      * rewrite rsum_delta by exact Ha. ring.
      * intros b Hb. rewrite rsum_scal_r, inv_left by assumption. now rewrite Nat.eqb_sym.
  - intros k Hk. unfold Ki. rewrite <- rsum_scal_r. apply rsum_ext. intros a _.
    rewrite <- (proj2 F k j Hk Hj). rewrite Rmult_assoc, <- rsum_scal. f_equal. apply rsum_ext. intros; ring.
Qed.
Lemma K_sym i j : (i < n)%nat -> (j < n)%nat -> K i j = K j i.
Proof. intros Hi Hj. rewrite <- !(proj2 F) by assumption. apply rsum_ext. intros; ring. Qed.
(** K K^-1 = 1 *)
Lemma Ki_right i j : (i < n)%nat -> (j < n)%nat -> rsum n (fun k => K i k * Ki k j) = if Nat.eqb i j then 1 else 0.
Proof.
  intros Hi Hj. rewrite (rsum_ext n _ (fun k => Ki j k * K k i)).
  - rewrite Ki_left by assumption. now rewrite Nat.eqb_sym.
  - intros k Hk. rewrite (K_sym i k), (Ki_sym k j) by assumption. ring.
Qed.
(** The weights v K^-1: multiplied by K they give v back. *)
Lemma weights v j : (j < n)%nat ->
  rsum n (fun m => rsum n (fun k => v k * Ki k m) * K m j) = v j.
Proof.
  intros Hj.
  rewrite (rsum_ext n _ (fun m => rsum n (fun k => v k * (Ki k m * K m j)))) by
    (intros; rewrite <- rsum_scal_r; apply rsum_ext; intros; ring).
  rewrite rsum_swap. rewrite (rsum_ext n _ (fun k => (if Nat.eqb k j then 1 else 0) * v k)).
  - now rewrite rsum_delta.
  - intros k Hk. rewrite rsum_scal, Ki_left by assumption. ring.
Qed.
(** v K^-1 b = v a whenever K a = b. *)
Lemma weights_solution v a b : solves n K a b ->
  rsum n (fun m => rsum n (fun k => v k * Ki k m) * b m) = rsum n (fun k => v k * a k).
Proof.
  intros S.
  rewrite (rsum_ext n _ (fun m => rsum n (fun j => (rsum n (fun k => v k * Ki k m) * K m j) * a j))).
  - rewrite rsum_swap. apply rsum_ext. intros j Hj. rewrite rsum_scal_r. now rewrite weights.
  - intros m Hm. rewrite <- (S m Hm), <- rsum_scal. apply rsum_ext. intros; ring.
Qed.
Lemma solution_exists b : exists a, solves n K a b.
Proof.
  exists (fun k => rsum n (fun m => Ki k m * b m)). intros i Hi.
  rewrite (rsum_ext n _ (fun k => rsum n (fun m => K i k * Ki k m * b m))) by
    (intros; rewrite <- rsum_scal; apply rsum_ext; intros; ring).
  rewrite rsum_swap. rewrite (rsum_ext n _ (fun m => (if Nat.eqb m i then 1 else 0) * b m)).
  - now rewrite rsum_delta.
  - intros m Hm. rewrite rsum_scal_r, Ki_right by assumption. now rewrite Nat.eqb_sym.
Qed.
(** v K^-1 v is a sum of squares. *)
Lemma weights_squares v :
  rsum n (fun m => rsum n (fun k => v k * Ki k m) * v m) =
  rsum n (fun a => (rsum n (fun k => v k * inv a k)) ^ 2).
Proof.
  rewrite (rsum_ext n _ (fun m => rsum n (fun a => rsum n (fun k => v k * inv a k) * (v m * inv a m)))).
  - rewrite rsum_swap. apply rsum_ext. intros a _. rewrite rsum_scal. ring.
  - intros m _. unfold Ki.
    rewrite (rsum_ext n _ (fun k => rsum n (fun a => v k * inv a k * inv a m))) by
      (intros; rewrite <- rsum_scal; apply rsum_ext; intros; ring).
    rewrite rsum_swap, <- rsum_scal_r. apply rsum_ext. intros a _. rewrite rsum_scal_r. ring.
Qed.
End inverse.

(** The Schur complement of a semidefinite matrix. *)
Lemma schur n m (K A W : nat -> nat -> R) (B : nat -> nat -> R) :
  (forall i k, (k < n)%nat -> rsum n (fun l => W i l * K l k) = A i k) ->
  (forall c e : nat -> R, 0 <= rsum n (fun k => rsum n (fun l => e k * e l * K k l))
     + 2 * rsum m (fun i => rsum n (fun k => c i * e k * A i k))
     + rsum m (fun i => rsum m (fun j => c i * c j * B i j))) ->
  semidefinite m (fun i j => B i j - rsum n (fun k => W i k * A j k)).
Proof.
  intros HW P c.
  set (v := fun k => rsum m (fun i => c i * W i k)). set (u := fun k => rsum m (fun i => c i * A i k)).
  assert (E1' : rsum n (fun k => rsum n (fun l => - v k * - v l * K k l)) = rsum n (fun k => v k * u k)).
  { rewrite rsum_swap. apply rsum_ext. intros l Hl.
    transitivity (v l * rsum n (fun k => v k * K k l)).
    - rewrite <- rsum_scal. apply rsum_ext. intros; ring.
    - f_equal. unfold v, u.
      rewrite (rsum_ext n _ (fun k => rsum m (fun i => c i * (W i k * K k l)))) by
        (intros; rewrite <- rsum_scal_r; apply rsum_ext; intros; ring).
      rewrite rsum_swap. apply rsum_ext. intros i _. rewrite rsum_scal. now rewrite HW. }
  assert (E2 : rsum m (fun i => rsum n (fun k => c i * - v k * A i k)) = - rsum n (fun k => v k * u k)).
  { rewrite rsum_swap, <- rsum_opp. apply rsum_ext. intros k _. unfold u.
    rewrite (rsum_ext m _ (fun i => - v k * (c i * A i k))) by (intros; ring). rewrite rsum_scal. ring. }
  assert (E3 : rsum m (fun i => rsum m (fun j => c i * c j * (B i j - rsum n (fun k => W i k * A j k)))) =
     rsum m (fun i => rsum m (fun j => c i * c j * B i j)) - rsum n (fun k => v k * u k)).
  { rewrite (rsum_ext m _ (fun i => rsum m (fun j => c i * c j * B i j) +
       - rsum n (fun k => c i * W i k * u k))).
    - rewrite rsum_plus, rsum_opp. unfold Rminus. do 2 f_equal. rewrite rsum_swap. apply rsum_ext.
      intros k _. now rewrite rsum_scal_r.
    - intros i _. rewrite <- rsum_opp.
      rewrite (rsum_ext n _ (fun k => rsum m (fun j => - (c i * c j * (W i k * A j k))))).
      + rewrite <- rsum_swap, <- rsum_plus. apply rsum_ext. intros j _. rewrite rsum_opp, rsum_scal. ring.
      + intros k _. rewrite rsum_opp. f_equal. unfold u. rewrite <- rsum_scal. apply rsum_ext. intros; ring. }
  rewrite E3. specialize (P c (fun k => - v k)). cbv beta in P. rewrite E1', E2 in P. lra.
Qed.
