(** C78: conditioning a Gaussian process (examples/gaussian_process). *)
From Coq Require Import List Reals Lra Lia Arith.
From Verif Require Import SpecDist SpecChol SpecGP ModelChol ModelGP ProofChol ProofGP.
Local Open Scope R_scope.

(** ** The kernel *)
(** Kernel values lie in (0, 1], do not depend on the order of the arguments, and are 1 exactly
    for equal points, whatever the trained scales. *)
Theorem C78_kernel : forall d raw x y,
  0 < rbf d raw x y <= 1 /\ rbf d raw x y = rbf d raw y x /\
  (rbf d raw x y = 1 <-> forall c, (c < d)%nat -> x c = y c).
Proof.
  intros d raw x y. unfold rbf. rewrite !sumn_rsum.
  assert (T : forall c, (c < d)%nat -> 0 <= (x c - y c) ^ 2 / kernel_scale raw c).
  { intros c _. apply Rmult_le_pos; [apply pow2_ge_0|]. left. apply Rinv_0_lt_compat, softplus_pos. }
  pose proof (rsum_nonneg d _ T) as P.
  repeat split.
  - apply exp_pos.
  - rewrite <- exp_0. destruct (Rle_lt_or_eq_dec _ _ P) as [L|E].
    + left. apply exp_increasing. lra.
    + right. f_equal. lra.
  - do 3 f_equal. apply rsum_ext. intros c _. f_equal. ring.
  - intros E c Hc. rewrite <- exp_0 in E. apply exp_inv in E.
    pose proof (rsum_nonneg_0 d _ T ltac:(lra) c Hc) as Z. cbv beta in Z.
    apply Rmult_integral in Z. destruct Z as [Z|Z].
    + apply Rsqr_0_uniq in Z || (replace ((x c - y c) ^ 2) with (Rsqr (x c - y c)) in Z by (unfold Rsqr; ring); apply Rsqr_0_uniq in Z). lra.
    + pose proof (Rinv_0_lt_compat _ (softplus_pos (raw c))). unfold kernel_scale in Z. lra.
  - intros E. rewrite rsum_zero; [replace (- 0 / 2) with 0 by lra; apply exp_0|].
    intros c Hc. rewrite E by exact Hc. unfold Rdiv. ring.
Qed.
Example C78_kernel_case : rbf 1 (fun _ => 0) (fun _ => 0) (fun _ => 1) <> 1.
Proof.
  intros E. pose proof (proj1 (proj2 (proj2 (C78_kernel _ _ _ _))) E) as C. clear E. rename C into E. specialize (E 0%nat ltac:(lia)). lra.
Qed.
Print Assumptions C78_kernel.

(** Kdiag is the diagonal of the kernel matrix. *)
Theorem C78_kdiag : forall d raw x i, kdiag x i = rbf d raw (x i) (x i).
Proof. intros. symmetry. now apply C78_kernel. Qed.
Print Assumptions C78_kdiag.

(** The kernel matrix of any points is positive semidefinite. *)
Theorem C78_kernel_semidefinite : forall d raw n p,
  semidefinite n (fun i j => rbf d raw (p i) (p j)).
Proof. exact rbf_psd. Qed.
Print Assumptions C78_kernel_semidefinite.

(** ** The conditional distribution *)
Section conditional.
Variables (cholesky : nat -> (nat -> nat -> R) -> nat -> nat -> R)
          (d : nat) (raw : nat -> R) (n : nat) (z x : nat -> nat -> R)
          (given : option (nat -> nat -> R)).
Let K i j := rbf d raw (z i) (z j).
Let L := Kzz_chol cholesky d raw n z given.
Hypothesis F : factor_of n K L.
Let W := Kxziz cholesky d raw n z x given.
Lemma W_model i m : W i m = rsum n (fun k => rbf d raw (x i) (z k) *
   rsum n (fun a => nth a (fsub L (fun i => if Nat.eqb i k then 1 else 0) n) 0 *
                    nth a (fsub L (fun i => if Nat.eqb i m then 1 else 0) n) 0)).
Proof.
  unfold W, Kxziz, Kzz_inv, Kxz. rewrite sumn_rsum. apply rsum_ext. intros k _. now rewrite sumn_rsum.
Qed.
Lemma W_weights i j : (j < n)%nat -> rsum n (fun m => W i m * K m j) = rbf d raw (x i) (z j).
Proof.
  intros Hj. rewrite <- (weights n K L F (fun k => rbf d raw (x i) (z k)) j Hj).
  apply rsum_ext. intros m _. now rewrite W_model.
Qed.
Lemma mean_solution fz a i : solves n K a fz ->
  gp_mean cholesky d raw n z fz x given i = rsum n (fun k => rbf d raw (x i) (z k) * a k).
Proof.
  intros S. unfold gp_mean. rewrite sumn_rsum.
  rewrite <- (weights_solution n K L F (fun k => rbf d raw (x i) (z k)) a fz S).
  apply rsum_ext. intros m _. fold (W i m). rewrite W_model. ring.
Qed.
Lemma cov_solution b i j : solves n K b (fun k => rbf d raw (x j) (z k)) ->
  gp_cov cholesky d raw n z x given i j =
  rbf d raw (x i) (x j) - rsum n (fun k => rbf d raw (x i) (z k) * b k).
Proof.
  intros S. unfold gp_cov. rewrite sumn_rsum. f_equal.
  rewrite <- (weights_solution n K L F (fun k => rbf d raw (x i) (z k)) b _ S).
  apply rsum_ext. intros m _. fold (W i m). rewrite W_model. reflexivity.
Qed.
Lemma var_diag i : gp_var cholesky d raw n z x given i = gp_cov cholesky d raw n z x given i i.
Proof.
  unfold gp_var, gp_cov. rewrite (C78_kdiag d raw). f_equal. rewrite !sumn_rsum.
  transitivity (rsum n (fun a => rsum n (fun k => rbf d raw (x i) (z k) *
     nth a (fsub L (fun i => if Nat.eqb i k then 1 else 0) n) 0) ^ 2)).
  - apply rsum_ext. intros k _. now rewrite sumn_rsum.
  - rewrite <- (weights_squares n L (fun k => rbf d raw (x i) (z k))).
    apply rsum_ext. intros m _. fold (W i m). rewrite W_model. reflexivity.
Qed.
Lemma cov_psd m : semidefinite m (gp_cov cholesky d raw n z x given).
Proof.
  intros c.
  pose proof (schur n m K (fun i k => rbf d raw (x i) (z k)) W (fun i j => rbf d raw (x i) (x j))
    (fun i k Hk => W_weights i k Hk)) as S.
  erewrite rsum_ext; [apply S|].
  - clear c. intros c e.
    set (p := fun k => if Nat.ltb k n then z k else x (k - n)%nat).
    set (ce := fun k => if Nat.ltb k n then e k else c (k - n)%nat).
    pose proof (rbf_psd d raw (n + m) p ce) as P.
    assert (A : forall k, (k < n)%nat -> p k = z k /\ ce k = e k).
    { intros k Hk. unfold p, ce. apply Nat.ltb_lt in Hk. now rewrite Hk. }
    assert (B : forall k, p (n + k)%nat = x k /\ ce (n + k)%nat = c k).
    { intros k. unfold p, ce. replace (n + k <? n)%nat with false by (symmetry; apply Nat.ltb_ge; lia).
      replace (n + k - n)%nat with k by lia. auto. }
    rewrite rsum_split in P.
    rewrite (rsum_ext n _ (fun k => rsum n (fun l => e k * e l * K k l) +
        rsum m (fun i => c i * e k * rbf d raw (x i) (z k)))) in P.
    2: { intros k Hk. rewrite rsum_split. destruct (A k Hk) as [-> ->]. f_equal.
         - apply rsum_ext. intros l Hl. now destruct (A l Hl) as [-> ->].
         - apply rsum_ext. intros l Hl. destruct (B l) as [-> ->].
           rewrite (proj1 (proj2 (C78_kernel d raw (z k) (x l)))). ring. }
    rewrite (rsum_ext m (fun k => rsum (n + m) _) (fun i => rsum n (fun k => c i * e k * rbf d raw (x i) (z k)) +
        rsum m (fun j => c i * c j * rbf d raw (x i) (x j)))) in P.
    2: { intros i Hi. rewrite rsum_split. destruct (B i) as [-> ->]. f_equal.
         - apply rsum_ext. intros l Hl. now destruct (A l Hl) as [-> ->].
         - apply rsum_ext. intros l Hl. now destruct (B l) as [-> ->]. }
    rewrite !rsum_plus, (rsum_swap n m) in P. lra.
  - intros i _. apply rsum_ext. intros j _. unfold gp_cov. rewrite sumn_rsum. reflexivity.
Qed.
End conditional.

(** The factor used is one of K(z, z): passed by the caller, or made by tf.cholesky. *)
Definition sound_factor cholesky d raw n z given : Prop :=
  factor_of n (fun i j => rbf d raw (z i) (z j)) (Kzz_chol cholesky d raw n z given).

(** The mean at x is K(x,z) K(z,z)^-1 f(z): it is K(x,z) a for the one vector [a] with
    K(z,z) a = f(z). *)
Theorem C78_mean : forall cholesky d raw n z fz x given i,
  sound_factor cholesky d raw n z given ->
  (exists a, solves n (fun i j => rbf d raw (z i) (z j)) a fz) /\
  forall a, solves n (fun i j => rbf d raw (z i) (z j)) a fz ->
    gp_mean cholesky d raw n z fz x given i = rsum n (fun k => rbf d raw (x i) (z k) * a k).
Proof.
  intros * F. split; [exact (solution_exists n _ _ F fz)|].
  intros a S. exact (mean_solution cholesky d raw n z x given F fz a i S).
Qed.
Print Assumptions C78_mean.

(** The covariance of x_i and x_j is K(x_i,x_j) - K(x_i,z) K(z,z)^-1 K(z,x_j), and the
    variances computed without the full matrix are its diagonal. *)
Theorem C78_covariance : forall cholesky d raw n z x given i j,
  sound_factor cholesky d raw n z given ->
  (exists b, solves n (fun i j => rbf d raw (z i) (z j)) b (fun k => rbf d raw (x j) (z k))) /\
  (forall b, solves n (fun i j => rbf d raw (z i) (z j)) b (fun k => rbf d raw (x j) (z k)) ->
    gp_cov cholesky d raw n z x given i j =
    rbf d raw (x i) (x j) - rsum n (fun k => rbf d raw (x i) (z k) * b k)) /\
  gp_var cholesky d raw n z x given i = gp_cov cholesky d raw n z x given i i.
Proof.
  intros * F. repeat split.
  - exact (solution_exists n _ _ F _).
  - intros b S. exact (cov_solution cholesky d raw n z x given F b i j S).
  - exact (var_diag cholesky d raw n z x given i).
Qed.
Print Assumptions C78_covariance.

(** The conditional covariance of any points is symmetric and positive semidefinite. *)
Theorem C78_covariance_semidefinite : forall cholesky d raw n z x given m,
  sound_factor cholesky d raw n z given ->
  semidefinite m (gp_cov cholesky d raw n z x given) /\
  forall i j, gp_cov cholesky d raw n z x given i j = gp_cov cholesky d raw n z x given j i.
Proof.
  intros * F. split; [exact (cov_psd cholesky d raw n z x given F m)|].
  intros i j.
  destruct (C78_covariance cholesky d raw n z x given i j F) as [[b Sb] [E _]].
  destruct (C78_covariance cholesky d raw n z x given j i F) as [[a Sa] [E' _]].
  rewrite (E b Sb), (E' a Sa). rewrite (proj1 (proj2 (C78_kernel d raw (x i) (x j)))). f_equal.
  rewrite (rsum_ext n _ (fun k => rsum n (fun l => rbf d raw (z k) (z l) * a l * b k))).
  - rewrite rsum_swap. apply rsum_ext. intros l Hl. rewrite <- (Sb l Hl), <- rsum_scal_r.
    apply rsum_ext. intros k _. rewrite (proj1 (proj2 (C78_kernel d raw (z k) (z l)))). ring.
  - intros k Hk. rewrite <- (Sa k Hk), rsum_scal_r. reflexivity.
Qed.
Print Assumptions C78_covariance_semidefinite.

(** The variance lies between 0 and 1, so its square root is a standard deviation. *)
Theorem C78_variance : forall cholesky d raw n z x given i,
  sound_factor cholesky d raw n z given ->
  0 <= gp_var cholesky d raw n z x given i <= 1 /\
  gp_std cholesky d raw n z x given i ^ 2 = gp_var cholesky d raw n z x given i.
Proof.
  intros * F.
  assert (P : 0 <= gp_var cholesky d raw n z x given i).
  { rewrite (var_diag cholesky d raw n z x given).
    pose proof (cov_psd cholesky d raw n z (fun _ => x i) given F 1 (fun _ => 1)) as P.
    unfold rsum, total in P. cbn [seq map fold_right] in P.
    replace (gp_cov cholesky d raw n z (fun _ => x i) given 0 0)
      with (gp_cov cholesky d raw n z x given i i) in P by reflexivity. lra. }
  repeat split.
  - exact P.
  - unfold gp_var, kdiag. rewrite sumn_rsum.
    assert (0 <= rsum n (fun k => sumn n (fun m => Kxz d raw z x i m * Kzz_chol_inv cholesky d raw n z given k m) ^ 2))
      by (apply rsum_nonneg; intros; apply pow2_ge_0). lra.
  - unfold gp_std. apply pow2_sqrt. exact P.
Qed.
Print Assumptions C78_variance.

(** At an inducing point the mean is the value there and the variance is zero. *)
Theorem C78_interpolates : forall cholesky d raw n z fz x given i j,
  sound_factor cholesky d raw n z given ->
  (j < n)%nat -> (forall c, x i c = z j c) ->
  gp_mean cholesky d raw n z fz x given i = fz j /\
  gp_std cholesky d raw n z x given i = 0.
Proof.
  intros * F Hj E.
  assert (EK : forall y, rbf d raw (x i) y = rbf d raw (z j) y).
  { intros y. unfold rbf. rewrite !sumn_rsum. do 3 f_equal. apply rsum_ext. intros c _. now rewrite E. }
  split.
  - destruct (C78_mean cholesky d raw n z fz x given i F) as [[a S] M]. rewrite (M a S), <- (S j Hj).
    apply rsum_ext. intros k _. now rewrite EK.
  - unfold gp_std. replace (gp_var cholesky d raw n z x given i) with 0; [apply sqrt_0|].
    destruct (C78_covariance cholesky d raw n z x given i i F) as [_ [C V]]. rewrite V.
    rewrite (C (fun k => if Nat.eqb k j then 1 else 0)).
    + rewrite (rsum_ext n _ (fun k => (if Nat.eqb k j then 1 else 0) * rbf d raw (x i) (z k))) by (intros; ring).
      rewrite rsum_delta by exact Hj.
      rewrite (proj2 (proj2 (proj2 (C78_kernel d raw (x i) (x i))))) by reflexivity.
      rewrite (proj2 (proj2 (proj2 (C78_kernel d raw (x i) (z j))))); [ring|]. intros; apply E.
    + intros k Hk.
      rewrite (rsum_ext n _ (fun l => (if Nat.eqb l j then 1 else 0) * rbf d raw (z k) (z l))) by (intros; ring).
      rewrite rsum_delta by exact Hj. rewrite EK. apply C78_kernel.
Qed.
Print Assumptions C78_interpolates.

(** The scale matrix of the variational posterior is a Cholesky factor for every value of the
    trained parameters. *)
Theorem C78_posterior_factor : forall n raw, cholesky_factor n (z_cov_tril raw).
Proof.
  intros n raw. split.
  - intros r c H _. unfold z_cov_tril. destruct (Nat.eqb_spec r c); [lia|].
    destruct (Nat.leb_spec c r); [lia|reflexivity].
  - intros r _. unfold z_cov_tril. rewrite Nat.eqb_refl. apply softplus_pos.
Qed.
(** Every Cholesky factor is reached by some parameters. *)
Theorem C78_posterior_reaches : forall n L, cholesky_factor n L ->
  exists raw, forall r c, (r < n)%nat -> (c < n)%nat -> z_cov_tril raw r c = L r c.
Proof.
  intros n L [T D]. exists (fun r c => if Nat.eqb r c then ln (exp (L r r) - 1) else L r c).
  intros r c Hr Hc. unfold z_cov_tril. destruct (Nat.eqb_spec r c) as [<-|N].
  - rewrite Nat.eqb_refl. unfold softplus. pose proof (D r Hr) as P.
    pose proof (exp_increasing 0 (L r r) P) as Q. rewrite exp_0 in Q. rewrite exp_ln by lra.
    replace (1 + (exp (L r r) - 1)) with (exp (L r r)) by lra. apply ln_exp.
  - destruct (Nat.leb_spec c r); [reflexivity|]. symmetry. apply T; lia.
Qed.
Print Assumptions C78_posterior_factor.
Print Assumptions C78_posterior_reaches.

(** The hypothesis is met: two inducing points at distance one. *)
Definition two_points (i c : nat) : R := INR i.
Definition two_factor (k : R) (i j : nat) : R :=
  match i, j with 0%nat, 0%nat => 1 | 1%nat, 0%nat => k | 1%nat, 1%nat => sqrt (1 - k ^ 2) | _, _ => 0 end.
Example C78_conditional_case : forall cholesky raw,
  sound_factor cholesky 1 raw 2 two_points
    (Some (two_factor (rbf 1 raw (two_points 0) (two_points 1)))).
Proof.
  intros cholesky raw. set (k := rbf 1 raw (two_points 0) (two_points 1)).
  destruct (C78_kernel 1 raw (two_points 0) (two_points 1)) as [[P Q] [S N]]. fold k in P, Q, S, N.
  assert (k < 1).
  { destruct (Rle_lt_or_eq_dec _ _ Q) as [|E]; [assumption|]. pose proof (proj1 N E) as C. clear E. rename C into E.
    specialize (E 0%nat ltac:(lia)). cbn in E. lra. }
  assert (0 < 1 - k ^ 2) by (replace (1 - k ^ 2) with ((1 - k) * (1 + k)) by ring; apply Rmult_lt_0_compat; lra).
  split; [split|].
  - intros r c Hr Hc. destruct r as [|[|r]], c as [|[|c]]; try lia; reflexivity.
  - intros r Hr. destruct r as [|[|r]]; try lia; cbn; [lra|]. now apply sqrt_lt_R0.
  - intros i j Hi Hj. assert (D : forall a, rbf 1 raw a a = 1) by (intros; now apply C78_kernel).
    destruct i as [|[|i]]; try lia; destruct j as [|[|j]]; try lia;
      unfold rsum, total; cbn [seq map fold_right Kzz_chol two_factor]; try (fold k).
    + rewrite D. ring.
    + ring.
    + rewrite <- S. ring.
    + rewrite D. replace (k * k + (sqrt (1 - k ^ 2) * sqrt (1 - k ^ 2) + 0)) with 1; [reflexivity|].
      rewrite sqrt_sqrt by lra. ring.
Qed.
