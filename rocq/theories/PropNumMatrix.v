(** C53, the row distributions: on finite arguments the density methods with
    check_numerics give the densities of C16 and C21. *)
From Coq Require Import List Reals ZArith Lra Lia.
From Verif Require Import ModelExt ModelSpecial ModelNum ModelDist SpecDist SpecNum SpecChol ProofNum ProofChol PropNum.
Import ListNotations.
Local Open Scope R_scope.

(** A matrix of numbers, row by row. *)
Definition matrix (n m : nat) (A : nat -> nat -> R) : list (list ext) :=
  map (fun i => map (fun j => Fi (A i j)) (seq 0 m)) (seq 0 n).
Definition vector (n : nat) (v : nat -> R) : list ext := map (fun i => Fi (v i)) (seq 0 n).

Lemma combine_same {A B C} (f : A -> B) (g : A -> C) l : combine (map f l) (map g l) = map (fun x => (f x, g x)) l.
Proof. induction l; cbn; congruence. Qed.
Lemma sum_fi l : reduce_sum (map Fi l) = Fi (sumR l).
Proof. induction l as [|a l IH]; cbn; [reflexivity|]. unfold reduce_sum in *. cbn. now rewrite IH. Qed.
Lemma sum_vector {A} (f : A -> R) l : reduce_sum (map (fun x => Fi (f x)) l) = Fi (sumR (map f l)).
Proof. now rewrite <- sum_fi, map_map. Qed.
Lemma nth_vector n f k : (k < n)%nat -> nth k (vector n f) NaN = Fi (f k).
Proof. intros H. unfold vector. rewrite (nth_indep _ NaN (Fi (f 0%nat))) by now rewrite map_length, seq_length.
  now rewrite (map_nth (fun i => Fi (f i))), seq_nth. Qed.
Lemma nth_matrix n m A k : (k < n)%nat -> nth k (matrix n m A) [] = vector m (A k).
Proof.
  intros H. unfold matrix. rewrite (nth_indep _ [] ((fun i => map (fun j => Fi (A i j)) (seq 0 m)) 0%nat)) by now rewrite map_length, seq_length.
  now rewrite (map_nth (fun i => map (fun j => Fi (A i j)) (seq 0 m))), seq_nth.
Qed.
Lemma diag_matrix n A : ediag (matrix n n A) = vector n (fun i => A i i).
Proof.
  unfold ediag. unfold matrix at 2. rewrite map_length, seq_length. unfold vector at 1. apply map_ext_in. intros i Hi. apply in_seq in Hi.
  rewrite nth_matrix by lia. apply (nth_vector n (A i)). lia.
Qed.
Lemma transpose_matrix n m A : etranspose m (matrix n m A) = matrix m n (fun j i => A i j).
Proof.
  unfold etranspose, matrix. apply map_ext_in. intros j Hj. apply in_seq in Hj. rewrite map_map. apply map_ext. intros i. apply (nth_vector m (A i)). lia.
Qed.
Lemma edot_matrix m (l : nat -> R) (X : nat -> nat -> R) t : forall s r (v : nat -> R), (t <= r)%nat ->
  edot_row (map (fun j => Fi (l j)) (seq s r)) (map (fun j => vector m (X j)) (seq s t)) (vector m v) =
  vector m (fun c => v c - sumR (map (fun j => l j * X j c) (seq s t))).
Proof.
  induction t as [|t IH]; intros s r v H.
  - cbn [seq map]. unfold edot_row. replace (combine (map (fun j => Fi (l j)) (seq s r)) (@nil (list ext))) with (@nil (ext * list ext)) by now destruct r.
    cbn. unfold vector. apply map_ext. intros c. apply (f_equal Fi). cbn. lra.
  - destruct r as [|r]; [lia|]. cbn [seq map]. unfold edot_row in *. cbn [combine fold_left fst snd].
    replace (map _ (combine (vector m v) (vector m (X s)))) with (vector m (fun c => v c - l s * X s c)).
    2:{ unfold vector. rewrite combine_same, map_map. reflexivity. }
    rewrite IH by lia. unfold vector. apply map_ext. intros c. apply (f_equal Fi). unfold sumR. cbn. lra.
Qed.
Lemma sumR_app a b : sumR (a ++ b) = sumR a + sumR b.
Proof. induction a as [|x a IH]; unfold sumR in *; cbn; [lra|]. rewrite IH. lra. Qed.
Lemma sumR_zero {A} (f : A -> R) l : (forall x, In x l -> f x = 0) -> sumR (map f l) = 0.
Proof. induction l as [|a l IH]; intros H; [reflexivity|]. cbn in *. unfold sumR in *. cbn. rewrite IH by auto. rewrite H by auto. lra. Qed.

(** tf.matrix_triangular_solve inverts multiplication by the factor. *)
Lemma esolve_matrix n m L X Y : cholesky_factor n L ->
  (forall i c, (i < n)%nat -> (c < m)%nat -> Y i c = rsum n (fun j => L i j * X j c)) ->
  esolve (matrix n n L) (matrix n m Y) = matrix n m X.
Proof.
  intros (Up & Di) E. unfold esolve.
  assert (G : forall k r, (k + r = n)%nat ->
    esolve_from (map (fun i => vector m (X i)) (seq 0 k)) (map (fun i => vector n (L i)) (seq k r)) (map (fun i => vector m (Y i)) (seq k r)) =
    map (fun i => vector m (X i)) (seq 0 n)).
  { intros k r. revert k. induction r as [|r IH]; intros k Hk.
    - cbn. now replace k with n by lia.
    - cbn [seq map esolve_from]. rewrite map_length, seq_length.
      replace (map _ (edot_row _ _ _)) with (vector m (X k)).
      + rewrite <- (IH (S k)) by lia. now rewrite seq_S, map_app.
      + unfold vector at 3. rewrite edot_matrix by lia. rewrite nth_vector by lia. unfold vector. rewrite map_map. apply map_ext_in. intros c Hc. apply in_seq in Hc.
        rewrite E by lia. rewrite <- sumR_map_seq. replace n with (k + (1 + r))%nat at 1 by lia. rewrite seq_app, map_app, sumR_app. cbn [Nat.add seq map].
        unfold sumR at 2. cbn [fold_right]. fold (sumR (map (fun j => L k j * X j c) (seq (S k) r))).
        rewrite (sumR_zero (fun j => L k j * X j c) (seq (S k) r)) by (intros j Hj; apply in_seq in Hj; rewrite Up by lia; lra).
        cbn. specialize (Di k ltac:(lia)). destruct (Req_EM_T (L k k) 0); [lra|]. apply (f_equal Fi). field. lra. }
  exact (G 0%nat n eq_refl).
Qed.

Section Any.
Variable lgamma : R -> R.

(** MultivariateNormalCholesky: at mean + L z the log density of C21. *)
Theorem C53_multivariate_normal_inside check n mean L z : cholesky_factor n L ->
  mvn_log_p check (vector n mean) (matrix n n L) (vector n (fun r => mean r + rsum n (fun k => L r k * z k)))
  = Returns (Fi (mvn_reference n L z)).
Proof.
  intros C. unfold mvn_log_p. cbv zeta. rewrite diag_matrix. unfold vector. rewrite combine_same, !map_map.
  rewrite (map_ext_in _ (fun i => Fi (ln (L i i)))) by (intros i Hi; apply in_seq in Hi; apply elog_pos, C; lia).
  rewrite sum_vector, sumR_map_seq. unfold matrix at 1. rewrite map_length, seq_length. cbn [fst snd esub emul ediv eadd eneg].
  destruct (Req_EM_T 2 0); [lra|].
  replace (map _ (seq 0 n)) with (matrix n 1 (fun i _ => rsum n (fun k => L i k * z k))).
  2:{ unfold matrix. apply map_ext. intros i. cbn. do 2 f_equal. lra. }
  rewrite (esolve_matrix n 1 L (fun i _ => z i)) by auto.
  unfold sum_squares, matrix. rewrite map_map. cbn [map seq emul reduce_sum fold_right eadd].
  rewrite sum_vector, (sumR_map_seq n (fun i => z i * z i + 0)).
  replace (rsum n (fun i => z i * z i + 0)) with (rsum n (fun i => z i * z i)) by (apply rsum_ext; intros; lra).
  cbn [emul eadd]. unfold checked, mvn_reference. destruct check; cbn; do 2 apply f_equal; field.
Qed.

(** MatrixVariateNormalCholesky: at mean + U Z V^T. *)
Theorem C53_matrix_normal_inside check nr nc mean U V Z : cholesky_factor nr U -> cholesky_factor nc V ->
  matrix_log_p check (matrix nr nc mean) (matrix nr nr U) (matrix nc nc V)
    (matrix nr nc (fun r c => mean r c + rsum nc (fun q => rsum nr (fun p => U r p * Z p q) * V c q)))
  = Returns (Fi (mvmn_reference nr nc U V Z)).
Proof.
  intros CU CV. unfold matrix_log_p. cbv zeta. rewrite !diag_matrix. unfold vector. rewrite !map_map.
  rewrite (map_ext_in (fun i => elog (Fi (U i i))) (fun i => Fi (ln (U i i)))) by (intros i Hi; apply in_seq in Hi; apply elog_pos, CU; lia).
  rewrite (map_ext_in (fun i => elog (Fi (V i i))) (fun i => Fi (ln (V i i)))) by (intros i Hi; apply in_seq in Hi; apply elog_pos, CV; lia).
  rewrite !sum_vector, !sumR_map_seq.
  replace (length (matrix nr nr U)) with nr by (unfold matrix; now rewrite map_length, seq_length).
  replace (length (matrix nc nc V)) with nc by (unfold matrix; now rewrite map_length, seq_length).
  replace (map _ (combine _ (matrix nr nc mean))) with (matrix nr nc (fun r c => rsum nc (fun q => rsum nr (fun p => U r p * Z p q) * V c q))).
  2:{ unfold matrix. rewrite combine_same, map_map. apply map_ext. intros i. cbn [fst snd]. rewrite combine_same, map_map. apply map_ext. intros j. cbn. f_equal. lra. }
  rewrite (esolve_matrix nr nc U (fun p c => rsum nc (fun q => Z p q * V c q))).
  2: exact CU.
  2:{ intros i c Hi Hc. transitivity (rsum nc (fun q => rsum nr (fun p => U i p * (Z p q * V c q)))).
      - apply rsum_ext. intros q Hq. rewrite Rmult_comm, <- rsum_scal. apply rsum_ext. intros; lra.
      - rewrite rsum_swap. apply rsum_ext. intros p Hp. now rewrite rsum_scal. }
  rewrite transpose_matrix.
  rewrite (esolve_matrix nc nr V (fun q p => Z p q)) by (auto; intros i c Hi Hc; apply rsum_ext; intros; lra).
  unfold sum_squares, matrix. rewrite map_map.
  rewrite (map_ext _ (fun c => Fi (rsum nr (fun r => Z r c * Z r c)))) by (intros c; rewrite map_map; cbn [emul]; now rewrite sum_vector, sumR_map_seq).
  rewrite sum_vector, sumR_map_seq, (rsum_swap nc nr (fun c r => Z r c * Z r c)). cbn [emul esub eadd eneg].
  unfold checked, mvmn_reference. destruct check; cbn; do 2 apply f_equal; field.
Qed.

(** Multinomial: counts and finite logits. *)
Theorem C53_multinomial_inside normalize n logits counts : logits <> [] -> length logits = length counts ->
  multinomial_log_p lgamma normalize (option_map Z.of_nat n) (map Fi logits) (map Fi (map INR counts)) =
  Fi (multinomial_lp lgamma normalize (option_map INR n) (map INR counts) logits).
Proof.
  intros NE Len. unfold multinomial_log_p, multinomial_lp, log_combination, normalized. cbv zeta. rewrite elogsumexp_fin by assumption.
  set (m := match option_map INR n with Some r => r | None => sumR (map INR counts) end).
  replace (match option_map Z.of_nat n with Some k => Fi (IZR k) | None => reduce_sum (map Fi (map INR counts)) end) with (Fi m)
    by (unfold m; destruct n; cbn; [now rewrite INR_IZR_INZ|now rewrite sum_fi]).
  assert (M : 0 <= m).
  { unfold m. destruct n; cbn; [apply pos_INR|]. clear. induction counts as [|k l IH]; [apply Rle_refl|]. unfold sumR in *. cbn. pose proof (pos_INR k). lra. }
  cbn [eadd]. rewrite elgamma_pos by lra. rewrite !map_map.
  rewrite (map_ext _ (fun k => Fi (lgamma (INR k + 1)))) by (intros k; cbn [eadd]; apply elgamma_pos; pose proof (pos_INR k); lra).
  rewrite sum_vector.
  replace (if normalize then map (fun x => esub (Fi x) (Fi (logsumexp logits))) logits else map Fi logits)
    with (map Fi (if normalize then map (fun l => l - logsumexp logits) logits else logits)) by (destruct normalize; [now rewrite map_map|reflexivity]).
  set (ls := if normalize then _ else _). rewrite <- (map_map INR Fi).
  rewrite (combine_fin (fun q => emul (fst q) (snd q)) (fun q => fst q * snd q)) by reflexivity.
  rewrite sum_fi. reflexivity.
Qed.

(** A call that is not rejected, on numbers, answers with a number. *)
Lemma edot_length m l : forall xs y, Forall (fun r => length r = m) xs -> length y = m -> length (edot_row l xs y) = m.
Proof.
  unfold edot_row. induction l as [|a l IH]; intros xs y X Y; [exact Y|]. destruct X as [|x xs Hx X]; [exact Y|].
  cbn. apply IH; [exact X|]. rewrite map_length, combine_length. lia.
Qed.
Lemma esolve_length m L : forall xs Y, Forall (fun r => length r = m) xs -> Forall (fun r => length r = m) Y ->
  Forall (fun r => length r = m) (esolve_from xs L Y).
Proof.
  induction L as [|l L IH]; intros xs Y X HY; [exact X|]. destruct HY as [|y Y Hy HY]; [exact X|]. cbn [esolve_from].
  apply IH; [|exact HY]. apply Forall_app. split; [exact X|]. constructor; [|constructor]. rewrite map_length. now apply edot_length.
Qed.
Theorem C53_matrix_normal_is_number mean U V given v :
  Forall (Forall number) mean -> Forall (Forall number) U -> Forall (Forall number) V -> Forall (Forall number) given ->
  Forall (fun r => length r = length V) mean -> Forall (fun r => length r = length V) given ->
  matrix_log_p true mean U V given = Returns v -> number v.
Proof.
  intros NM NU NV NG LM LG H. assert (A : exists v, matrix_log_p true mean U V given = Returns v) by eauto. apply C53_matrix_normal in A as (PU & PV).
  unfold matrix_log_p in H. cbv zeta in H. apply bind_checked in H as (F & H). apply ret_inj in H; subst v. apply eadd_finite. split; [now apply finite_iff|].
  apply emul_finite; [now eexists|].
  set (y := map _ (combine given mean)).
  assert (Y : Forall (Forall number) y /\ Forall (fun r => length r = length V) y).
  { unfold y. clear F y. revert mean NM LM. induction NG as [|g given Hg NG IH]; intros mean NM LM; [split; constructor|].
    destruct NM as [|m mean Hm NM]; [split; constructor|]. inversion LG; inversion LM; subst. destruct (IH ltac:(assumption) mean NM ltac:(assumption)) as (A & B).
    cbn. split; constructor; auto.
    - cbn. apply combine_numbers; auto. intros; apply esub_finite; auto.
    - cbn. rewrite map_length, combine_length. lia. }
  destruct Y as (Y1 & Y2). unfold esolve. apply sum_squares_number, esolve_numbers; auto; [|intros i Hi; now apply diag_nth].
  assert (X1 : Forall (Forall number) (esolve_from [] U y)) by (apply esolve_numbers; auto; intros i Hi; now apply diag_nth).
  assert (X2 : Forall (fun r => length r = length V) (esolve_from [] U y)) by (apply esolve_length; auto).
  unfold etranspose. rewrite Forall_map, Forall_forall. intros j Hj. apply in_seq in Hj. rewrite Forall_map, Forall_forall. intros r Hr.
  rewrite Forall_forall in X1, X2. specialize (X1 r Hr). specialize (X2 r Hr). rewrite Forall_forall in X1. apply X1, nth_In. lia.
Qed.
End Any.
Print Assumptions C53_multivariate_normal_inside.
Print Assumptions C53_matrix_normal_inside.
Print Assumptions C53_multinomial_inside.
Print Assumptions C53_matrix_normal_is_number.

(** Hypotheses are satisfiable: the factor of a 2-by-2 covariance with correlation. *)
Example C53_case_factor : let L := fun r c => match r, c with 0%nat, 0%nat => 1 | 1%nat, 0%nat => 5 | 1%nat, 1%nat => 2 | _, _ => 0 end in
  cholesky_factor 2 L /\ matrix 2 2 L = [[Fi 1; Fi 0]; [Fi 5; Fi 2]] /\
  matrix_log_p true (matrix 2 2 (fun _ _ => 0)) (matrix 2 2 L) (matrix 2 2 L)
    (matrix 2 2 (fun r c => 0 + rsum 2 (fun q => rsum 2 (fun p => L r p * 1) * L c q)))
  = Returns (Fi (mvmn_reference 2 2 L L (fun _ _ => 1))).
Proof.
  intros L. assert (C : cholesky_factor 2 L).
  { split.
    - intros r c H1 H2. assert (r = 0 /\ c = 1)%nat as (-> & ->) by lia. reflexivity.
    - intros r H. assert (r = 0 \/ r = 1)%nat as [-> | ->] by lia; cbn; lra. }
  split; [exact C|]. split; [reflexivity|]. now apply (C53_matrix_normal_inside true 2 2 (fun _ _ => 0) L L (fun _ _ => 1)).
Qed.
