(** Linear images of independent normals under a lower triangular factor. *)
From Coq Require Import List Reals Lra Lia Arith.
From Coquelicot Require Import Coquelicot.
From Verif Require Import ModelDist SpecDist ProofDiscrete SpecDensity ProofDensity PropDensity PropSampler SpecMass ProofMass.
From Verif Require Import ModelShape SpecShape ProofShape ModelTensor SpecTensor ProofTensor ModelChol SpecChol ProofChol.
Import List ListNotations.
Local Open Scope R_scope.

Lemma standard_normal_total : mass standard_normal to_minus_infinity to_plus_infinity 1.
Proof.
  apply (mass_ext (fun z => exp (normal_lp z 0 0))); try apply Rbar_locally_filter.
  - intros x. symmetry. apply standard_normal_lp.
  - apply (C16_normal 0 0).
Qed.
Lemma standard_normal_exp z : standard_normal z = exp (- (1 / 2) * ln (2 * PI) - z * z / 2).
Proof.
  unfold standard_normal. pose proof PI_RGT_0. 
  replace (- (1 / 2) * ln (2 * PI) - z * z / 2) with (- (1 / 2 * ln (2 * PI)) + - (z * z) / 2) by field.
  rewrite exp_plus. f_equal. rewrite exp_Ropp. f_equal.
  rewrite <- Rpower_sqrt by lra. unfold Rpower. f_equal. field.
Qed.
Lemma rsum_shift n f : rsum (S n) f = f 0%nat + rsum n (fun k => f (S k)).
Proof. unfold rsum. cbn [seq total]. rewrite <- seq_shift, total_map. reflexivity. Qed.
Lemma normal_noise_exp z : normal_noise z =
  exp (- (INR (length z) / 2) * ln (2 * PI) - rsum (length z) (fun k => nth k z 0 * nth k z 0) / 2).
Proof.
  induction z as [|a z IH].
  - cbn [normal_noise length]. unfold rsum. simpl. replace (- (0 / 2) * ln (2 * PI) - 0 / 2) with 0 by field. now rewrite exp_0.
  - cbn [normal_noise length]. rewrite IH, standard_normal_exp, <- exp_plus. f_equal. rewrite rsum_shift, S_INR. cbn [nth]. field.
Qed.
Lemma prodd_exp d n : (forall k, 0 < d k) -> forall j, prodd d j n = exp (rsum n (fun k => ln (d (j + k)%nat))).
Proof.
  intros D. induction n as [|n IH]; intros j.
  - unfold rsum. simpl. now rewrite exp_0.
  - cbn [prodd]. rewrite rsum_shift, exp_plus, exp_ln, Nat.add_0_r, IH by auto. do 2 f_equal. apply rsum_ext. intros k _.
    do 2 f_equal. lia.
Qed.
Lemma linear_draws n (mu : nat -> R) W sample f : cholesky_factor n W ->
  (forall z, length z = n -> length (sample z) = n /\
     forall r, (r < n)%nat -> nth r (sample z) 0 = mu r + rsum n (fun k => W r k * nth k z 0)) ->
  (forall x, length x = n -> forall z, length z = n ->
     (forall r, (r < n)%nat -> nth r x 0 = mu r + rsum n (fun k => W r k * nth k z 0)) ->
     f x = exp (mvn_reference n W (fun k => nth k z 0))) ->
  normal_draws_from n sample n f.
Proof.
  intros [T P] S F.
  set (shift := fun pre : list R => mu (length pre) + rsum (length pre) (fun k => W (length pre) k * nth k pre 0)).
  set (d := fun k => if Nat.ltb k n then W k k else 1).
  assert (D : forall k, 0 < d k) by (intros k; unfold d; destruct (Nat.ltb_spec k n); [now apply P|lra]).
  assert (E : forall z, length z = n -> forall r, (r < n)%nat ->
     nth r (tri shift d [] z) 0 = mu r + rsum n (fun k => W r k * nth k z 0)).
  { intros z L r Hr. rewrite tri_nth by lia. cbn [app length]. unfold shift. rewrite firstn_length, Nat.min_l by lia.
    unfold d. change (0 + r)%nat with r. destruct (Nat.ltb_spec r n); [|lia].
    rewrite (rsum_cut (Datatypes.S r) n (fun k => W r k * nth k z 0)); [|lia|intros k Hk; rewrite T by lia; apply Rmult_0_l]. rewrite rsum_S.
    rewrite (rsum_ext r (fun k => W r k * nth k (firstn r z) 0) (fun k => W r k * nth k z 0)); [ring|].
    intros k Hk. f_equal. rewrite <- (firstn_skipn r z) at 2. rewrite app_nth1; [reflexivity|]. rewrite firstn_length. lia. }
  apply (tri_draws n shift d); [exact D| |].
  - intros z L. destruct (S z L) as [L' V]. apply (nth_ext _ _ 0 0); [now rewrite tri_length, L'|].
    intros r Hr. rewrite E by lia. apply V. lia.
  - intros z L. rewrite (F (tri shift d [] z) ltac:(now rewrite tri_length) z L) by (now apply E).
    rewrite normal_noise_exp, (prodd_exp d n D). rewrite L. unfold Rdiv. rewrite <- exp_Ropp, <- exp_plus. f_equal.
    unfold mvn_reference. rewrite (rsum_ext n (fun k => ln (d (0 + k)%nat)) (fun k => ln (W k k))); [field|].
    intros k Hk. unfold d. change (0 + k)%nat with k. destruct (Nat.ltb_spec k n); [reflexivity|lia].
Qed.

(** ** Row-major double sums *)
Lemma rsum_grid r c f : rsum (r * c) f = rsum r (fun p => rsum c (fun q => f (p * c + q)%nat)).
Proof.
  induction r as [|r IH]; [reflexivity|]. rewrite rsum_S, <- IH. clear IH.
  replace (S r * c)%nat with (r * c + c)%nat by lia. unfold rsum. rewrite seq_app, total_app, Nat.add_0_l. f_equal.
  generalize (r * c)%nat. intros k. replace (seq k c) with (map (fun q => k + q)%nat (seq 0 c)).
  - now rewrite total_map.
  - clear. revert k. induction c as [|c IH]; intros k; [reflexivity|]. cbn [seq map]. f_equal; [lia|].
    rewrite <- (seq_shift c 0), map_map, <- (IH (Datatypes.S k)). apply map_ext. intros; lia.
Qed.
Lemma grid_div c p q : (q < c)%nat -> ((p * c + q) / c = p)%nat.
Proof. intros H. rewrite Nat.div_add_l by lia. rewrite Nat.div_small by assumption. lia. Qed.
Lemma grid_mod c p q : (q < c)%nat -> ((p * c + q) mod c = q)%nat.
Proof. intros H. rewrite Nat.add_comm, Nat.mod_add by lia. now apply Nat.mod_small. Qed.
Definition kron (c : nat) (U V : nat -> nat -> R) (i j : nat) : R := U (i / c)%nat (j / c)%nat * V (i mod c)%nat (j mod c)%nat.
Lemma kron_factor r c U V : (0 < c)%nat -> cholesky_factor r U -> cholesky_factor c V -> cholesky_factor (r * c) (kron c U V).
Proof.
  intros C [TU PU] [TV PV].
  assert (DV : forall k, (k < r * c)%nat -> (k / c < r)%nat /\ (k mod c < c)%nat).
  { intros k K. split; [apply Nat.div_lt_upper_bound; lia|apply Nat.mod_upper_bound; lia]. }
  split.
  - intros i j L J. unfold kron. destruct (DV j J) as [J1 J2].
    destruct (Nat.lt_ge_cases (i / c) (j / c)) as [H|H]; [rewrite TU by assumption; ring|].
    assert (Q : (i / c = j / c)%nat) by (assert (i / c <= j / c)%nat by (apply Nat.div_le_mono; lia); lia).
    rewrite (TV (i mod c)%nat (j mod c)%nat); [ring| |assumption].
    pose proof (Nat.div_mod i c ltac:(lia)). pose proof (Nat.div_mod j c ltac:(lia)). rewrite Q in *. lia.
  - intros k K. unfold kron. destruct (DV k K). apply Rmult_lt_0_compat; auto.
Qed.
Lemma kron_reference r c U V z : (0 < c)%nat -> cholesky_factor r U -> cholesky_factor c V ->
  mvn_reference (r * c) (kron c U V) z = mvmn_reference r c U V (fun p q => z (p * c + q)%nat).
Proof.
  intros C [_ PU] [_ PV]. unfold mvn_reference, mvmn_reference. rewrite mult_INR, !rsum_grid.
  replace (rsum r (fun p => rsum c (fun q => ln (kron c U V (p * c + q) (p * c + q))))) with
    (INR c * rsum r (fun k => ln (U k k)) + INR r * rsum c (fun k => ln (V k k))); [ring|].
  symmetry. rewrite (rsum_ext r _ (fun p => INR c * ln (U p p) + rsum c (fun q => ln (V q q)))).
  - rewrite rsum_plus, rsum_scal. f_equal. clear. induction r as [|r IH]; [simpl; unfold rsum; simpl; ring|].
    rewrite rsum_S, IH, S_INR. ring.
  - intros p Hp.
    rewrite (rsum_ext c _ (fun q => ln (U p p) + ln (V q q))).
    + rewrite rsum_plus. f_equal. clear. induction c as [|c IH]; [simpl; unfold rsum; simpl; ring|]. rewrite rsum_S, IH, S_INR. ring.
    + intros q Hq. unfold kron. rewrite grid_div, grid_mod by assumption. apply ln_mult; auto.
Qed.
