(** Supporting lemmas for the Cholesky-parameterised normals. *)
From Coq Require Import List Arith Lia Bool Reals Lra.
From Verif Require Import ModelShape SpecShape ProofShape ModelTensor SpecTensor ProofTensor ModelDist SpecDist ProofDist ProofDiscrete.
From Verif Require Import ModelChol SpecChol.
Import ListNotations.
Local Open Scope R_scope.

Lemma sumn_rsum n f : sumn n f = rsum n f.
Proof. unfold sumn, rsum. now rewrite total_sumR. Qed.
Lemma rsum_S n f : rsum (S n) f = rsum n f + f n.
Proof. unfold rsum. rewrite seq_S, total_app. simpl. lra. Qed.
Lemma rsum_ext n f g : (forall k, (k < n)%nat -> f k = g k) -> rsum n f = rsum n g.
Proof. intros H. apply total_ext. intros k Hk. apply in_seq in Hk. apply H. lia. Qed.
Lemma rsum_zero n f : (forall k, (k < n)%nat -> f k = 0) -> rsum n f = 0.
Proof.
  intros H. induction n; [reflexivity|]. rewrite rsum_S, IHn by (intros; apply H; lia). rewrite H by lia. lra.
Qed.
Lemma rsum_scal n f c : rsum n (fun k => c * f k) = c * rsum n f.
Proof. apply total_scal. Qed.
Lemma rsum_plus n f g : rsum n (fun k => f k + g k) = rsum n f + rsum n g.
Proof. apply total_plus. Qed.
Lemma rsum_swap m n (f : nat -> nat -> R) :
  rsum m (fun i => rsum n (fun j => f i j)) = rsum n (fun j => rsum m (fun i => f i j)).
Proof.
  induction m.
  - symmetry. now apply rsum_zero.
  - rewrite rsum_S, IHm, <- rsum_plus. apply rsum_ext. intros. now rewrite rsum_S.
Qed.
(** A sum whose terms beyond [m] vanish. *)
Lemma rsum_cut m n f : (m <= n)%nat -> (forall k, (m <= k < n)%nat -> f k = 0) -> rsum n f = rsum m f.
Proof.
  induction n; intros L H.
  - now replace m with 0%nat by lia.
  - destruct (Nat.eq_dec m (S n)) as [->|N]; [reflexivity|].
    rewrite rsum_S, IHn; [|lia|intros; apply H; lia]. rewrite H by lia. lra.
Qed.
Lemma sumR_map_seq n f : sumR (map f (seq 0 n)) = rsum n f.
Proof. unfold rsum. now rewrite total_sumR. Qed.

(** ** Forward substitution *)
Lemma fsub_length L y n : length (fsub L y n) = n.
Proof. induction n; simpl; [reflexivity|]. rewrite app_length, IHn. simpl. lia. Qed.
Lemma fsub_ext L L' y y' n : (forall r c, (r < n)%nat -> (c <= r)%nat -> L r c = L' r c) ->
  (forall r, (r < n)%nat -> y r = y' r) -> fsub L y n = fsub L' y' n.
Proof.
  induction n; intros HL Hy; simpl; [reflexivity|].
  rewrite IHn by auto. do 2 f_equal. rewrite HL, Hy by lia. do 2 f_equal.
  rewrite !sumn_rsum. apply rsum_ext. intros k Hk. rewrite HL by lia. reflexivity.
Qed.
Lemma fsub_solution L y x n :
  (forall r, (r < n)%nat -> L r r <> 0) ->
  (forall r, (r < n)%nat -> y r = rsum (S r) (fun k => L r k * x k)) ->
  fsub L y n = map x (seq 0 n).
Proof.
  induction n; intros D H; [reflexivity|]. cbn [fsub]. rewrite IHn by auto.
  rewrite seq_S, map_app. f_equal. simpl. f_equal. rewrite H by lia. rewrite rsum_S, sumn_rsum.
  rewrite (rsum_ext n (fun j => L n j * nth j (map x (seq 0 n)) 0) (fun j => L n j * x j)).
  - field. apply D. lia.
  - intros k Hk. f_equal. rewrite nth_indep with (d' := x 0%nat) by (rewrite map_length, seq_length; lia).
    rewrite map_nth, seq_nth by assumption. reflexivity.
Qed.
Lemma fsub_factor n L y x : cholesky_factor n L ->
  (forall r, (r < n)%nat -> y r = rsum n (fun k => L r k * x k)) ->
  fsub L y n = map x (seq 0 n).
Proof.
  intros [T D] H. apply fsub_solution.
  - intros r Hr. pose proof (D r Hr). lra.
  - intros r Hr. rewrite H by assumption. apply rsum_cut; [lia|]. intros k Hk. rewrite T by lia. lra.
Qed.
Lemma nth_map_seq {A} (x : nat -> A) n k d : (k < n)%nat -> nth k (map x (seq 0 n)) d = x k.
Proof.
  intros Hk. rewrite nth_indep with (d' := x 0%nat) by (rewrite map_length, seq_length; lia).
  rewrite map_nth, seq_nth by assumption. reflexivity.
Qed.

(** ** Matrix operations on known shapes *)
Lemma split2_snoc b r c : split2 (b ++ [r; c]) = Some (b, r, c).
Proof. unfold split2. rewrite rev_app_distr. simpl. now rewrite rev_involutive. Qed.
Lemma snoc2 {A} (l : list A) a b : l ++ [a; b] = (l ++ [a]) ++ [b].
Proof. now rewrite <- app_assoc. Qed.
Lemma at2_snoc f b r c : at2 f (b ++ [r; c]) = f b r c.
Proof. unfold at2. now rewrite snoc2, !removelast_last, !last_last. Qed.
Lemma split2_inv s b r c : split2 s = Some (b, r, c) -> s = b ++ [r; c].
Proof.
  unfold split2. destruct (rev s) as [|c' [|r' b']] eqn:E; intros H; inversion H; subst.
  rewrite <- (rev_involutive s), E. simpl. now rewrite <- app_assoc.
Qed.

Ltac eqdec := match goal with |- context[list_eq_dec ?d ?a ?a] => destruct (list_eq_dec d a a) as [_|NE]; [|contradiction] end.

Lemma matmul_ok x y b m k n : t_shape x = b ++ [m; k] -> t_shape y = b ++ [k; n] ->
  exists t, matmul x y = Some t /\ t_shape t = b ++ [m; n] /\
    forall i r c, mat t i r c = rsum k (fun j => mat x i r j * mat y i j c).
Proof.
  intros Sx Sy. unfold matmul. rewrite Sx, Sy, !split2_snoc. eqdec. rewrite Nat.eqb_refl.
  eexists. split; [reflexivity|]. split; [reflexivity|]. intros i r c. unfold mat at 1. simpl.
  rewrite at2_snoc. apply sumn_rsum.
Qed.
Lemma solve_ok l y b m n : t_shape l = b ++ [m; m] -> t_shape y = b ++ [m; n] ->
  exists t, triangular_solve l y = Some t /\ t_shape t = b ++ [m; n] /\
    forall i r c, mat t i r c = nth r (fsub (mat l i) (fun q => mat y i q c) m) 0.
Proof.
  intros Sl Sy. unfold triangular_solve. rewrite Sl, Sy, !split2_snoc. eqdec. rewrite !Nat.eqb_refl. simpl.
  eexists. split; [reflexivity|]. split; [reflexivity|]. intros i r c. unfold mat at 1. simpl.
  now rewrite at2_snoc.
Qed.
Lemma transpose_ok t b r c : t_shape t = b ++ [r; c] ->
  exists t', matrix_transpose t = Some t' /\ t_shape t' = b ++ [c; r] /\
    forall i p q, mat t' i p q = mat t i q p.
Proof.
  intros S. unfold matrix_transpose. rewrite S, split2_snoc. eexists. split; [reflexivity|].
  split; [reflexivity|]. intros i p q. unfold mat at 1. simpl. now rewrite at2_snoc.
Qed.
Lemma diag_ok t b n : t_shape t = b ++ [n; n] ->
  exists d, diag_part t = Some d /\ t_shape d = b ++ [n] /\ forall i k, t_at d (i ++ [k]) = mat t i k k.
Proof.
  intros S. unfold diag_part. rewrite S, split2_snoc, Nat.min_id. eexists. split; [reflexivity|].
  split; [reflexivity|]. intros i k. simpl. now rewrite removelast_last, last_last.
Qed.
Lemma squeeze_last_ok t b : t_shape t = b ++ [1%nat] ->
  exists t', squeeze_last t = Some t' /\ t_shape t' = b /\ forall i, t_at t' i = t_at t (i ++ [0%nat]).
Proof.
  intros S. unfold squeeze_last. rewrite S, rev_app_distr. simpl. eexists. split; [reflexivity|].
  simpl. now rewrite rev_involutive.
Qed.

(** ** Broadcasting of matrices *)
Lemma bshape_snoc s t a b : bshape (s ++ [a]) (t ++ [b]) =
  match bdim a b, bshape s t with Some c, Some u => Some (u ++ [c]) | _, _ => None end.
Proof.
  unfold bshape. rewrite !rev_app_distr. simpl. destruct (bdim a b); [|reflexivity].
  destruct (bzip (rev s) (rev t)); reflexivity.
Qed.
Lemma bdim_refl a : bdim a a = Some a.
Proof. unfold bdim. now rewrite Nat.eqb_refl. Qed.
Lemma bdim_1_r a : bdim a 1 = Some a.
Proof. unfold bdim. destruct (Nat.eqb_spec a 1); subst; reflexivity. Qed.
Lemma valid2 w i r c m n : valid w i -> (r < m)%nat -> (c < n)%nat -> valid (w ++ [m; n]) (i ++ [r; c]).
Proof. intros. rewrite !snoc2. now apply valid_snoc; [apply valid_snoc|]. Qed.
Lemma bindex_mat b m n i r c : (length b <= length i)%nat -> (r < m)%nat -> (c < n)%nat ->
  bindex (b ++ [m; n]) (i ++ [r; c]) = bindex b i ++ [r; c].
Proof.
  intros L Hr Hc. rewrite !snoc2. rewrite bindex_snoc by (rewrite !app_length; simpl; lia).
  rewrite bindex_snoc by assumption.
  replace (if Nat.eqb m 1 then 0%nat else r) with r by (destruct (Nat.eqb_spec m 1); lia).
  now replace (if Nat.eqb n 1 then 0%nat else c) with c by (destruct (Nat.eqb_spec n 1); lia).
Qed.
(** A factor broadcast against a column of ones. *)
Lemma bcast_factor f o b w n : t_shape f = b ++ [n; n] -> t_shape o = w ++ [n; 1%nat] -> fits b w ->
  exists t, eval (bcast (Leaf f) (Leaf o)) = Some t /\ t_shape t = w ++ [n; n] /\
    forall i r c, (length b <= length i)%nat -> (r < n)%nat -> (c < n)%nat -> mat t i r c = mat f (bindex b i) r c.
Proof.
  intros Sf So F. unfold bcast. cbn [eval option_map]. unfold elementwise. cbn [t_shape]. rewrite Sf, So.
  rewrite !snoc2, !bshape_snoc, bdim_refl, bdim_1_r. unfold fits in F. rewrite F.
  eexists. split; [reflexivity|]. split; [reflexivity|]. intros i r c L Hr Hc. unfold mat. cbn [t_at].
  rewrite <- !snoc2. rewrite bindex_mat by assumption. apply Rmult_1_r.
Qed.

Lemma mvn_lp_raw mean cov given b n w :
  t_shape mean = b ++ [n] -> t_shape cov = b ++ [n; n] ->
  broadcast_all [t_shape given; t_shape mean] (w ++ [n]) ->
  exists t, mvn_log_prob mean cov given = Some t /\ t_shape t = w /\
    forall i j lg lm, valid w i -> shows b i j -> shown_row given n i lg -> shown_row mean n i lm ->
      t_at t i = mvn_reference n (mat cov j)
                   (fun k => nth k (fsub (mat cov j) (fun r => nth r lg 0 - nth r lm 0) n) 0).
Proof.
  intros Sm Sc B. pose proof (all_fits _ _ B) as F.
  assert (Fb : fits b w).
  { assert (Fm : fits (b ++ [n]) (w ++ [n])) by (apply F; rewrite Sm; simpl; auto).
    destruct (fits_snoc_inv _ _ _ Fm) as [w' [n' [E [H _]]]]. apply app_inj_tail in E. destruct E; now subst. }
  unfold mvn_log_prob. destruct (diag_ok cov b n Sc) as [d [Ed [Td Vd]]]. rewrite Ed. cbn [obind].
  destruct (flat_runs (Leaf given ⊖ Leaf mean) (w ++ [n])) as [q [Eq [Tq Vq]]]. { simpl. auto. } { exact B. }
  cbn [eval] in Eq |- *. rewrite Eq. cbn [option_map obind].
  set (y := Tensor (t_shape q ++ [1%nat]) (fun i => t_at q (removelast i))).
  assert (Ty : t_shape y = w ++ [n; 1%nat]) by (simpl; now rewrite Tq, snoc2).
  destruct (bcast_factor cov y b w n Sc Ty Fb) as [L [EL [TL VL]]]. cbn [eval] in EL. rewrite EL. cbn [obind].
  destruct (solve_ok L y w n 1 TL Ty) as [x1 [Ex1 [Tx1 Vx1]]]. rewrite Ex1. cbn [obind].
  destruct (squeeze_last_ok x1 (w ++ [n])) as [x [Ex [Tx Vx]]]. { now rewrite Tx1, snoc2. }
  rewrite Ex. cbn [obind]. rewrite Sm, last_last.
  match goal with |- exists t, ?e0 = Some t /\ _ =>
    change e0 with (eval ((Const (- INR n) ⊘ Const 2) ⊗ Const (ln (2 * PI)) ⊖ (Const 2 ⊗ Row sumR (Un ln (Leaf d))) ⊘ Const 2
       ⊕ Const (- (1/2)) ⊗ Row sumR (Un square (Leaf x)))) end.
  match goal with |- exists t, eval ?e = Some t /\ _ => destruct (eval_of_eshape e w) as [t [Et [Tt Vt]]] end.
  { apply eshape_bin with (s := b) (t := w); [| |exact Fb].
    - apply eshape_bin_scalar_l; [reflexivity|]. apply eshape_bin_scalar_r; [|reflexivity].
      apply eshape_bin_scalar_l; [reflexivity|]. eapply eshape_row. cbn. now rewrite Td.
    - apply eshape_bin_scalar_l; [reflexivity|]. eapply eshape_row. cbn. now rewrite Tx. }
  exists t. split; [exact Et|]. split; [exact Tt|].
  intros i j lg lm Vi Sj Rg Rm. rewrite Vt by assumption.
  assert (Ej : j = bindex b i).
  { eapply shows_unique; [exact Sj|]. apply bindex_shows. apply fits_length in Fb. destruct Vi. lia. }
  assert (Li : (length b <= length i)%nat) by (apply fits_length in Fb; destruct Vi; lia).
  assert (Wd : width (Un ln (Leaf d)) = n) by (apply (width_snoc _ b); cbn; now rewrite Td).
  assert (Wx : width (Un square (Leaf x)) = n) by (apply (width_snoc _ w); cbn; now rewrite Tx).
  cbn [den]. rewrite Wd, Wx, !sumR_map_seq.
  assert (Sol : fsub (mat L i) (fun q0 => mat y i q0 0) n = fsub (mat cov j) (fun r => nth r lg 0 - nth r lm 0) n).
  { apply fsub_ext.
    - intros r c Hr Hc. rewrite VL, Ej by (auto; lia). reflexivity.
    - intros r Hr. unfold mat, y. cbn [t_at]. rewrite snoc2, removelast_last.
      rewrite Vq by now apply valid_snoc. cbn [den]. f_equal.
      + symmetry. apply view_shown; [|now apply Rg]. specialize (F (t_shape given)).
        rewrite app_length. simpl. assert (G : fits (t_shape given) (w ++ [n])) by (apply F; simpl; auto).
        apply fits_length in G. rewrite app_length in G. simpl in G. destruct Vi. lia.
      + symmetry. apply view_shown; [|now apply Rm]. rewrite Sm, !app_length. simpl. lia. }
  rewrite (rsum_ext n (fun k => square (view x (i ++ [k]))) (fun k => nth k (fsub (mat cov j) (fun r => nth r lg 0 - nth r lm 0) n) 0 * nth k (fsub (mat cov j) (fun r => nth r lg 0 - nth r lm 0) n) 0)).
  - rewrite (rsum_ext n (fun k => ln (view d (i ++ [k]))) (fun k => ln (mat cov j k k))).
    + unfold mvn_reference. field.
    + intros k Hk. f_equal. unfold view. rewrite Td, bindex_snoc by assumption.
      replace (if Nat.eqb n 1 then 0%nat else k) with k by (destruct (Nat.eqb_spec n 1); lia).
      now rewrite Vd, Ej.
  - intros k Hk. rewrite view_self by (rewrite Tx; now apply valid_snoc). rewrite Vx.
    rewrite <- app_assoc. cbn [app]. specialize (Vx1 i k 0%nat). unfold mat at 1 in Vx1. rewrite Vx1, Sol. reflexivity.
Qed.
