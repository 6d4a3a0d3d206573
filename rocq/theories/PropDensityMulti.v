(** C16 and C17 for the Cholesky-parameterised normals. *)
From Coq Require Import List Reals Lra Lia Arith.
From Coquelicot Require Import Coquelicot.
From Verif Require Import ModelShape SpecShape ProofShape ModelTensor SpecTensor ProofTensor ModelDist SpecDist ProofDist ProofDiscrete.
From Verif Require Import ModelChol SpecChol ProofChol PropChol SpecDensity SpecMass ProofMass ProofMassChol.
Import List ListNotations.
Local Open Scope R_scope.

(** A vector as a tensor of shape [n]; a matrix listed row by row as a tensor of shape [r; c]. *)
Definition vector (n : nat) (x : list R) : tensor R := Tensor [n] (fun j => nth (nth 0 j 0%nat) x 0).
Definition matrix (r c : nat) (x : list R) : tensor R :=
  Tensor [r; c] (fun j => nth (nth 0 j 0 * c + nth 1 j 0)%nat x 0).
(** The reported density of batch entry [i] at a value. *)
Definition density_at (lp : option (tensor R)) (i : index) : R :=
  match lp with Some t => exp (t_at t i) | None => 0 end.

Lemma broadcast_suffix pre s : broadcast_all [s; pre ++ s] (pre ++ s).
Proof. apply (broadcast_all_iff [pre ++ s; s]); [simpl; tauto|apply broadcast_prefix]. Qed.
Lemma shows_suffix s i q : valid s q -> shows s (i ++ q) q.
Proof.
  intros [L V]. split; [exact L|]. intros k K. specialize (V k K). destruct (Nat.eqb_spec (dim s k) 1) as [E|E].
  - rewrite E in V. lia.
  - rewrite rev_app_distr, app_nth1; [reflexivity|]. rewrite rev_length. lia.
Qed.
Lemma valid_1 n k : (k < n)%nat -> valid [n] [k].
Proof. intros H. apply valid_Forall2. repeat constructor. exact H. Qed.
Lemma valid_2 r c p q : (p < r)%nat -> (q < c)%nat -> valid [r; c] [p; q].
Proof. intros H H'. apply valid_Forall2. repeat constructor; assumption. Qed.

Theorem C17_mvn mean cov b n N s i (noise : list R -> tensor R) :
  t_shape mean = b ++ [n] -> t_shape cov = b ++ [n; n] -> (s < N)%nat -> valid b i ->
  cholesky_factor n (mat cov i) ->
  (forall z, t_shape (noise z) = mvn_noise_shape mean N) ->
  (forall z k, (k < n)%nat -> t_at (noise z) (s :: i ++ [k; 0%nat]) = nth k z 0) ->
  normal_draws_from n
    (fun z => match mvn_sample mean cov N (noise z) with Some t => row t (s :: i) | None => [] end)
    n (fun x => density_at (mvn_log_prob mean cov (vector n x)) i).
Proof.
  intros Sm Sc Hs Vi Fac Sz Az.
  apply (linear_draws n (fun r => t_at mean (i ++ [r])) (mat cov i)); [exact Fac| |].
  - intros z L.
    destruct (C21_mvn_sample mean cov b n (fun N' => if Nat.eqb N' N then noise z else Tensor (mvn_noise_shape mean N') (fun _ => 0)) Sm Sc) as [HS _].
    { intros N'. destruct (Nat.eqb_spec N' N); subst; auto. }
    destruct (HS N) as [t [E [T V]]]. cbn [sample] in E. rewrite Nat.eqb_refl in E, V. rewrite E.
    assert (TL : last (t_shape t) 0%nat = n) by (rewrite T, app_comm_cons, last_last; reflexivity).
    unfold row. rewrite TL. split; [now rewrite map_length, seq_length|]. intros r Hr.
    rewrite (nth_map_seq (fun k => t_at t ((s :: i) ++ [k]))) by assumption. cbn [app].
    rewrite (V s (i ++ [r]) Hs (valid_snoc _ _ _ _ Vi Hr) i r eq_refl). f_equal. apply rsum_ext. intros k Hk. f_equal.
    unfold mat. cbn [app]. now apply Az.
  - intros x Lx z Lz X.
    destruct (C21_mvn_log_prob mean cov (vector n x) b n b Sm Sc) as [t [E [T V]]].
    { rewrite Sm. apply broadcast_suffix. }
    rewrite E. cbn [density_at]. f_equal.
    apply (V i i (fun k => nth k z 0) x (map (fun k => t_at mean (i ++ [k])) (seq 0 n))); auto.
    + rewrite <- (app_nil_r i) at 1. pose proof (shows_suffix b [] i Vi) as Q. now rewrite app_nil_r.
    + split; [exact Lx|]. intros k d Hk. exists [k]. split; [apply shows_suffix; now apply valid_1|]. cbn [vector t_at nth].
      apply nth_indep. lia.
    + now apply (row_of_full _ b).
    + intros r Hr. rewrite (nth_map_seq (fun k => t_at mean (i ++ [k]))) by assumption. now apply X.
Qed.
Print Assumptions C17_mvn.

Theorem C16_mvn mean cov b n i :
  t_shape mean = b ++ [n] -> t_shape cov = b ++ [n; n] -> valid b i -> cholesky_factor n (mat cov i) ->
  (forall x, 0 <= density_at (mvn_log_prob mean cov (vector n x)) i) /\
  mass_vec n (fun x => density_at (mvn_log_prob mean cov (vector n x)) i) 1.
Proof.
  intros Sm Sc Vi Fac. split.
  - intros x. unfold density_at. destruct mvn_log_prob; [left; apply exp_pos|lra].
  - eapply draws_total; [|apply (noise_mass n), standard_normal_total].
    apply (C17_mvn mean cov b n 1 0 i (fun z => Tensor (mvn_noise_shape mean 1) (fun j => nth (last (removelast j) 0%nat) z 0))); auto.
    intros z k Hk. cbn [t_at]. change (0%nat :: i ++ [k; 0%nat]) with ((0%nat :: i) ++ [k; 0%nat]).
    now rewrite snoc2, removelast_last, last_last.
Qed.
Print Assumptions C16_mvn.

(** ** Matrix normal: the matrix is listed row by row. *)
Definition entries_of (t : tensor R) (i : index) (r c : nat) : list R :=
  map (fun k => t_at t (i ++ [k / c; k mod c]%nat)) (seq 0 (r * c)).

Theorem C17_mvmn mean u v b r c N s i (noise : list R -> tensor R) :
  t_shape mean = b ++ [r; c] -> t_shape u = b ++ [r; r] -> t_shape v = b ++ [c; c] -> (0 < c)%nat ->
  (s < N)%nat -> valid b i -> cholesky_factor r (mat u i) -> cholesky_factor c (mat v i) ->
  (forall z, t_shape (noise z) = N :: t_shape mean) ->
  (forall z p q, (p < r)%nat -> (q < c)%nat -> t_at (noise z) (s :: i ++ [p; q]) = nth (p * c + q) z 0) ->
  normal_draws_from (r * c)
    (fun z => match mvmn_sample mean u v N (noise z) with Some t => entries_of t (s :: i) r c | None => [] end)
    (r * c) (fun x => density_at (mvmn_log_prob mean u v (matrix r c x)) i).
Proof.
  intros Sm Su Sv C Hs Vi Fu Fv Sz Az.
  assert (DV : forall k, (k < r * c)%nat -> (k / c < r)%nat /\ (k mod c < c)%nat).
  { intros k K. split; [apply Nat.div_lt_upper_bound; lia|apply Nat.mod_upper_bound; lia]. }
  assert (SUM : forall z x y, rsum c (fun q => rsum r (fun p => mat u i x p * nth (p * c + q) z 0) * mat v i y q) =
     rsum (r * c) (fun k => mat u i x (k / c)%nat * mat v i y (k mod c)%nat * nth k z 0)).
  { intros z x y. rewrite rsum_grid, rsum_swap. apply rsum_ext. intros q Hq.
    rewrite Rmult_comm, <- rsum_scal. apply rsum_ext. intros p Hp. rewrite grid_div, grid_mod by assumption. ring. }
  apply (linear_draws (r * c) (fun k => t_at mean (i ++ [k / c; k mod c]%nat)) (kron c (mat u i) (mat v i))); [now apply kron_factor| |].
  - intros z L.
    destruct (C21_mvmn_sample mean u v b r c (fun N' => if Nat.eqb N' N then noise z else Tensor (N' :: t_shape mean) (fun _ => 0)) Sm Su Sv) as [HS _].
    { intros N'. destruct (Nat.eqb_spec N' N); subst; auto. }
    destruct (HS N) as [t [E [T V]]]. cbn [sample] in E. rewrite Nat.eqb_refl in E, V. rewrite E.
    unfold entries_of. split; [now rewrite map_length, seq_length|]. intros k Hk. destruct (DV k Hk) as [K1 K2].
    rewrite (nth_map_seq (fun k => t_at t ((s :: i) ++ [k / c; k mod c]%nat))) by assumption. cbn [app].
    rewrite (V s (i ++ [k / c; k mod c]%nat) Hs ltac:(now apply valid2) i (k / c)%nat (k mod c)%nat eq_refl). f_equal.
    unfold kron. rewrite <- SUM. apply rsum_ext. intros q Hq. f_equal. apply rsum_ext. intros p Hp. f_equal.
    unfold mat. cbn [app]. now apply Az.
  - intros x Lx z Lz X.
    destruct (C21_mvmn_log_prob mean u v (matrix r c x) b r c b Sm Su Sv) as [t [E [T V]]].
    { rewrite Sm. apply broadcast_suffix. }
    rewrite E. cbn [density_at]. f_equal. rewrite kron_reference by assumption.
    apply (V i i); auto.
    + pose proof (shows_suffix b [] i Vi) as Q. exact Q.
    + intros p q vg vm Hp Hq (jg & Sg & ->) (jm & Sm' & ->). rewrite SUM.
      assert (K : (p * c + q < r * c)%nat) by nia.
      assert (jg = [p; q]) as -> by (eapply shows_unique; [exact Sg|]; apply shows_suffix; now apply valid_2).
      assert (jm = i ++ [p; q]) as ->.
      { eapply shows_unique; [exact Sm'|]. rewrite Sm. pose proof (shows_suffix (b ++ [r; c]) [] (i ++ [p; q])) as Q. apply Q. now apply valid2. }
      cbn [matrix t_at nth]. rewrite (X _ K). unfold kron. rewrite grid_div, grid_mod by assumption. reflexivity.
Qed.
Print Assumptions C17_mvmn.

Theorem C16_mvmn mean u v b r c i :
  t_shape mean = b ++ [r; c] -> t_shape u = b ++ [r; r] -> t_shape v = b ++ [c; c] -> (0 < c)%nat -> valid b i ->
  cholesky_factor r (mat u i) -> cholesky_factor c (mat v i) ->
  (forall x, 0 <= density_at (mvmn_log_prob mean u v (matrix r c x)) i) /\
  mass_vec (r * c) (fun x => density_at (mvmn_log_prob mean u v (matrix r c x)) i) 1.
Proof.
  intros Sm Su Sv C Vi Fu Fv. split.
  - intros x. unfold density_at. destruct mvmn_log_prob; [left; apply exp_pos|lra].
  - eapply draws_total; [|apply (noise_mass (r * c)), standard_normal_total].
    apply (C17_mvmn mean u v b r c 1 0 i (fun z => Tensor (1%nat :: t_shape mean) (fun j => nth (last (removelast j) 0 * c + last j 0)%nat z 0))); auto.
    intros z p q Hp Hq. cbn [t_at]. change (0%nat :: i ++ [p; q]) with ((0%nat :: i) ++ [p; q]).
    now rewrite snoc2, removelast_last, !last_last.
Qed.
Print Assumptions C16_mvmn.

(** A factor that meets the hypotheses. *)
Example C16_factor_met : cholesky_factor 2 (fun r c => if Nat.ltb r c then 0 else 1 + INR (r - c)).
Proof.
  split.
  - intros r c H H'. apply Nat.ltb_lt in H. now rewrite H.
  - intros r H. rewrite Nat.ltb_irrefl, Nat.sub_diag. simpl. lra.
Qed.
