(** C81: the semi-supervised example (examples/semi_supervised_vae/vae_ssl.py). *)
From Coq Require Import List Reals Lra Lia Arith.
From Verif Require Import SpecDist SpecSSL ModelDist ModelExamples ModelSSL ProofDiscrete ProofVI ProofTrain.
Import ListNotations.
Local Open Scope R_scope.

(** ** Enumerating the labels *)
Lemma combine_app {A B} (a1 a2 : list A) (b1 b2 : list B) : length a1 = length b1 ->
  combine (a1 ++ a2) (b1 ++ b2) = combine a1 b1 ++ combine a2 b2.
Proof. revert b1. induction a1; intros [|b b1] H; try discriminate; [reflexivity|]. cbn. rewrite IHa1; [reflexivity|]. now injection H. Qed.
Lemma combine_repeat {A B} (a : A) (l : list B) : combine (repeat a (length l)) l = map (fun b => (a, b)) l.
Proof. induction l; [reflexivity|]. cbn. now rewrite IHl. Qed.
Lemma y_diag_length n : length (y_diag n) = n.
Proof. unfold y_diag. now rewrite map_length, seq_length. Qed.
(** The bounds are in place: row i, column y holds the bound for image i with label y. *)
Theorem C81_labels : forall {X} (elbo : X -> list R -> R) n_class xs,
  lb_z elbo n_class xs = map (fun x => map (fun y => elbo x (one_hot n_class y)) (seq 0 n_class)) xs.
Proof.
  intros X elbo n_class xs. unfold lb_z, x_u, y_u. induction xs as [|x xs IH]; [reflexivity|].
  cbn [length repeat map concat rows_of].
  rewrite combine_app by (rewrite repeat_length; symmetry; apply y_diag_length).
  assert (E : combine (repeat x n_class) (y_diag n_class) = map (fun y => (x, y)) (y_diag n_class)).
  { rewrite <- (y_diag_length n_class) at 1. apply combine_repeat. }
  rewrite E, map_app, map_map. cbn [fst snd].
  assert (L : length (map (fun y => elbo x y) (y_diag n_class)) = n_class) by (rewrite map_length; apply y_diag_length).
  rewrite firstn_app, skipn_app, L, Nat.sub_diag. cbn [firstn skipn].
  rewrite firstn_all2 by lia. rewrite skipn_all2 by lia. rewrite app_nil_r. cbn [app]. rewrite IH. f_equal.
  unfold y_diag. rewrite map_map. reflexivity.
Qed.
Print Assumptions C81_labels.
Example C81_labels_case : forall e : nat -> list R -> R,
  lb_z e 2 [5; 7]%nat = [[e 5%nat [1; 0]; e 5%nat [0; 1]]; [e 7%nat [1; 0]; e 7%nat [0; 1]]].
Proof. intros e. rewrite C81_labels. reflexivity. Qed.

(** ** The classifier *)
Lemma softmax_pos l p : In p (softmax l) -> 0 < p.
Proof.
  intros H. unfold softmax in H. apply in_map_iff in H. destruct H as [x [<- Hx]].
  apply Rmult_lt_0_compat; [apply exp_pos|]. apply Rinv_0_lt_compat. rewrite <- (total_sumR exp l).
  apply total_pos; [intros E; rewrite E in Hx; contradiction|]. intros; apply exp_pos.
Qed.
Lemma softmax_total l : l <> [] -> total (fun p => p) (softmax l) = 1.
Proof.
  intros N. assert (P : 0 < sumR (map exp l)).
  { rewrite <- (total_sumR exp l). apply total_pos; [exact N|]. intros; apply exp_pos. }
  unfold softmax. rewrite total_map.
  rewrite (total_ext _ (fun x => / sumR (map exp l) * exp x)) by (intros; unfold Rdiv; ring).
  rewrite total_scal, (total_sumR exp l). field. lra.
Qed.
Lemma smoothed_sum logits : logits <> [] ->
  sumR (map (fun p => p + 1 / 100000000) (softmax logits)) = 1 + INR (length logits) / 100000000.
Proof.
  intros N. rewrite <- (total_sumR (fun p => p + 1 / 100000000) (softmax logits)).
  rewrite (total_plus (fun p => p)), softmax_total by exact N. rewrite total_const.
  unfold softmax. rewrite map_length. lra.
Qed.
(** The smoothed class probabilities are a distribution, bounded below for all logits so that
    their logarithms stay finite, and in the same order as the logits. *)
Theorem C81_classifier : forall logits, logits <> [] ->
  positive_distribution (qy_u logits) /\ length (qy_u logits) = length logits /\
  (forall q, In q (qy_u logits) -> 1 / (100000000 + INR (length logits)) < q) /\
  forall i j, (i < length logits)%nat -> (j < length logits)%nat ->
    (nth i (qy_u logits) 0 < nth j (qy_u logits) 0 <-> nth i logits 0 < nth j logits 0).
Proof.
  intros logits N. pose proof (smoothed_sum logits N) as S. pose proof (pos_INR (length logits)) as P0.
  set (Z := 1 + INR (length logits) / 100000000) in *. assert (PZ : 0 < Z) by (unfold Z; lra).
  assert (L : length (qy_u logits) = length logits) by (unfold qy_u, softmax; now rewrite !map_length).
  assert (LB : forall q, In q (qy_u logits) -> 1 / (100000000 + INR (length logits)) < q).
  { intros q H. unfold qy_u in H. rewrite S in H. rewrite map_map in H. apply in_map_iff in H. destruct H as [p [<- Hp]].
    apply softmax_pos in Hp.
    replace (1 / (100000000 + INR (length logits))) with (1 / 100000000 / Z) by (unfold Z; field; lra).
    apply Rmult_lt_compat_r; [now apply Rinv_0_lt_compat|lra]. }
  assert (PL : 0 < 1 / (100000000 + INR (length logits))) by (apply Rmult_lt_0_compat; [lra|apply Rinv_0_lt_compat; lra]).
  split; [split|].
  - intros p Hp. pose proof (LB p Hp). lra.
  - unfold qy_u. rewrite S, map_map, total_map.
    rewrite (total_ext _ (fun p => / Z * (p + 1 / 100000000))) by (intros; unfold Rdiv; ring).
    rewrite total_scal, (total_sumR (fun p => p + 1 / 100000000)), S. field. lra.
  - split; [exact L|]. split; [exact LB|]. intros i j Hi Hj.
    assert (T : 0 < sumR (map exp logits)).
    { rewrite <- (total_sumR exp logits). apply total_pos; [exact N|]. intros; apply exp_pos. }
    assert (E : forall k, (k < length logits)%nat ->
      nth k (qy_u logits) 0 = (exp (nth k logits 0) / sumR (map exp logits) + 1 / 100000000) / Z).
    { intros k Hk. unfold qy_u. rewrite S. unfold softmax. rewrite !map_map.
      set (g := fun x => (exp x / sumR (map exp logits) + 1 / 100000000) / Z).
      rewrite (nth_indep _ 0 (g 0)) by (now rewrite map_length). apply (map_nth g). }
    rewrite (E i Hi), (E j Hj). split; intros H.
    + apply exp_lt_inv. apply (Rmult_lt_reg_r (/ sumR (map exp logits))); [now apply Rinv_0_lt_compat|].
      apply (Rmult_lt_reg_r (/ Z)) in H; [|now apply Rinv_0_lt_compat]. unfold Rdiv in H. lra.
    + apply Rmult_lt_compat_r; [now apply Rinv_0_lt_compat|]. apply Rplus_lt_compat_r.
      apply Rmult_lt_compat_r; [now apply Rinv_0_lt_compat|]. now apply exp_increasing.
Qed.
Print Assumptions C81_classifier.
Example C81_classifier_case : nth 0 (qy_u [0; 3]) 0 < nth 1 (qy_u [0; 3]) 0.
Proof. apply C81_classifier; [discriminate|cbn; lia|cbn; lia|cbn; lra]. Qed.

(** ** The bound for unlabeled images *)
Lemma bound_gap q lb : positive_distribution q -> length q = length lb ->
  sumR (map (fun ql => fst ql * (snd ql - ln (fst ql))) (combine q lb))
  = ln (total exp lb) - divergence q (softmax lb).
Proof.
  intros [P T] L. assert (N : lb <> []) by (intros ->; destruct q; [cbn in T; lra|discriminate]).
  assert (PZ : 0 < total exp lb) by (apply total_pos; [exact N|]; intros; apply exp_pos).
  unfold divergence. rewrite <- (total_sumR (fun ql => fst ql * (snd ql - ln (fst ql)))).
  unfold softmax. rewrite <- (total_sumR exp lb). set (Z := total exp lb) in *. clearbody Z.
  assert (G : forall q lb, (forall p, In p q -> 0 < p) -> length q = length lb ->
    total (fun ql => fst ql * (snd ql - ln (fst ql))) (combine q lb) =
    ln Z * total (fun p => p) q - total (fun qp => fst qp * ln (fst qp / snd qp)) (combine q (map (fun x => exp x / Z) lb))).
  { clear - PZ. induction q as [|p q IH]; intros [|b lb] P L; try discriminate; [cbn; ring|].
    cbn [map combine total fst snd]. rewrite (IH lb) by (try (intros; apply P; now right); now injection L).
    assert (0 < p) by (apply P; now left). pose proof (exp_pos b).
    assert (E : ln (p / (exp b / Z)) = ln p - b + ln Z).
    { replace (p / (exp b / Z)) with (p * (Z * / exp b)) by (field; lra).
      assert (0 < / exp b) by now apply Rinv_0_lt_compat.
      rewrite ln_mult, ln_mult, ln_Rinv, ln_exp; try assumption; [ring|now apply Rmult_lt_0_compat]. }
    rewrite E. ring. }
  rewrite (G q lb P L), T. ring.
Qed.
Lemma ln_le_minus_1 x : 0 < x -> ln x <= x - 1.
Proof. intros H. pose proof (exp_ineq1_le (ln x)) as E. rewrite exp_ln in E by exact H. lra. Qed.
Lemma divergence_nonneg q p : positive_distribution q -> positive_distribution p -> length q = length p -> 0 <= divergence q p.
Proof.
  intros [Pq Tq] [Pp Tp] L.
  assert (G : forall q p, (forall a, In a q -> 0 < a) -> (forall a, In a p -> 0 < a) -> length q = length p ->
    total (fun a => a) q - total (fun a => a) p <= divergence q p).
  { clear. unfold divergence. induction q as [|a q IH]; intros [|b p] Pq Pp L; try discriminate; [cbn; lra|].
    cbn [combine total fst snd]. assert (0 < a) by (apply Pq; now left). assert (0 < b) by (apply Pp; now left).
    assert (I := IH p (fun x Hx => Pq x (or_intror Hx)) (fun x Hx => Pp x (or_intror Hx)) ltac:(now injection L)).
    assert (Q : 0 < b / a) by (apply Rmult_lt_0_compat; [assumption|now apply Rinv_0_lt_compat]).
    pose proof (ln_le_minus_1 (b / a) Q) as M.
    assert (E : ln (a / b) = - ln (b / a)) by (rewrite <- ln_Rinv by exact Q; f_equal; field; lra).
    rewrite E. assert (a * ln (b / a) <= a * (b / a - 1)) by (apply Rmult_le_compat_l; lra).
    replace (a * (b / a - 1)) with (b - a) in * by (field; lra). lra. }
  pose proof (G q p Pq Pp L). lra.
Qed.
(** The bound of an image is log of the sum over labels of exp of the bounds with that label,
    minus the divergence of the classifier from their softmax; so it is at most that logarithm,
    and at most log p(x) whenever each bound is at most log p(x, y). *)
Theorem C81_bound : forall logits lb, logits <> [] -> length lb = length logits ->
  unlabeled_bound logits lb = ln (total exp lb) - divergence (qy_u logits) (softmax lb) /\
  unlabeled_bound logits lb <= ln (total exp lb) /\
  forall log_pxy, length log_pxy = length lb ->
    (forall y, (y < length lb)%nat -> nth y lb 0 <= nth y log_pxy 0) ->
    unlabeled_bound logits lb <= ln (total exp log_pxy).
Proof.
  intros logits lb N L. destruct (C81_classifier logits N) as [D [Lq _]].
  assert (Nb : lb <> []) by (intros ->; destruct logits; [contradiction|discriminate]).
  assert (E : unlabeled_bound logits lb = ln (total exp lb) - divergence (qy_u logits) (softmax lb)).
  { unfold unlabeled_bound. apply bound_gap; [exact D|lia]. }
  assert (DS : positive_distribution (softmax lb)) by (split; [intros p Hp; now apply (softmax_pos lb)|now apply softmax_total]).
  assert (G : 0 <= divergence (qy_u logits) (softmax lb)).
  { apply divergence_nonneg; [exact D|exact DS|]. unfold softmax. rewrite map_length. lia. }
  split; [exact E|]. split; [lra|]. intros lp Lp H.
  assert (M : total exp lb <= total exp lp).
  { clear - Lp H. revert lp Lp H. induction lb as [|b lb IH]; intros [|p lp] Lp H; try discriminate; [cbn; lra|].
    cbn [total]. pose proof (H 0%nat ltac:(cbn; lia)) as H0. cbn in H0.
    assert (exp b <= exp p) by (destruct (Rle_lt_or_eq_dec _ _ H0) as [K| ->]; [left; now apply exp_increasing|lra]).
    assert (total exp lb <= total exp lp).
    { apply IH; [now injection Lp|]. intros y Hy. apply (H (S y)). cbn. lia. }
    lra. }
  assert (PZ : 0 < total exp lb) by (apply total_pos; [exact Nb|]; intros; apply exp_pos).
  assert (ln (total exp lb) <= ln (total exp lp)).
  { destruct (Rle_lt_or_eq_dec _ _ M) as [K| ->]; [left; now apply ln_increasing|lra]. }
  lra.
Qed.
Print Assumptions C81_bound.
Example C81_bound_case : unlabeled_bound [0; 1] [-5; -7] <= ln (exp (-4) + (exp (-7) + 0)).
Proof.
  apply (proj2 (proj2 (C81_bound [0; 1] [-5; -7] ltac:(discriminate) eq_refl)) [-4; -7] eq_refl).
  intros [|[|y]] Hy; cbn in *; [lra|lra|lia].
Qed.

(** The batch value is the mean over its images of their bounds summed over all labels, each
    image meeting its own classifier output; it is at most the mean of log p(x). *)
Theorem C81_batch : forall {P X} (classify : P -> list R) elbo n_class (batch : list (P * X)),
  unlabeled_lower_bound classify elbo n_class (map fst batch) (map snd batch) =
  total (fun b => unlabeled_bound (classify (fst b)) (map (fun y => elbo (snd b) (one_hot n_class y)) (seq 0 n_class))) batch
  / INR (length batch).
Proof.
  intros P X classify elbo n_class batch. unfold unlabeled_lower_bound. rewrite C81_labels, map_length. f_equal.
  induction batch as [|x xs IH]; [reflexivity|]. cbn [map combine total fst snd]. now rewrite IH.
Qed.
Print Assumptions C81_batch.
Theorem C81_batch_bound : forall {P X} (classify : P -> list R) elbo log_pxy n_class (batch : list (P * X)),
  (0 < n_class)%nat -> batch <> [] -> (forall b, In b batch -> length (classify (fst b)) = n_class) ->
  (forall x y, (y < n_class)%nat -> elbo x (one_hot n_class y) <= log_pxy x y) ->
  unlabeled_lower_bound classify elbo n_class (map fst batch) (map snd batch) <=
  total (fun b => ln (total (fun y => exp (log_pxy (snd b) y)) (seq 0 n_class))) batch / INR (length batch).
Proof.
  intros P X classify elbo log_pxy n_class batch K N L H. rewrite C81_batch.
  assert (0 < INR (length batch)) by (apply lt_0_INR; destruct batch; [contradiction|cbn; lia]).
  apply Rmult_le_compat_r; [left; now apply Rinv_0_lt_compat|]. apply total_le. intros b Hb.
  assert (E : total (fun y => exp (log_pxy (snd b) y)) (seq 0 n_class) = total exp (map (log_pxy (snd b)) (seq 0 n_class))) by (now rewrite total_map).
  rewrite E. apply (C81_bound (classify (fst b))).
  - intros Z. pose proof (L b Hb) as Lb. rewrite Z in Lb. cbn in Lb. lia.
  - rewrite map_length, seq_length. symmetry. now apply L.
  - now rewrite !map_length.
  - intros y Hy. rewrite map_length, seq_length in Hy.
    set (f := fun y => elbo (snd b) (one_hot n_class y)).
    rewrite (nth_indep _ 0 (f 0%nat)) by (now rewrite map_length, seq_length).
    rewrite (nth_indep (map (log_pxy (snd b)) _) 0 (log_pxy (snd b) 0%nat)) by (now rewrite map_length, seq_length).
    rewrite (map_nth f), (map_nth (log_pxy (snd b))), seq_nth by exact Hy. now apply H.
Qed.
Print Assumptions C81_batch_bound.

(** ** Accuracy *)
Lemma argmax_from_spec l : forall best at_ next pre, nth at_ pre 0 = best -> next = length pre -> (at_ < length pre)%nat ->
  (forall j, (j < length pre)%nat -> nth j pre 0 <= best) -> (forall j, (j < at_)%nat -> nth j pre 0 < best) ->
  first_largest (pre ++ l) (argmax_from best at_ next l).
Proof.
  induction l as [|x l IH]; intros best at_ next pre H1 H2 H3 H4 H5; cbn [argmax_from].
  - rewrite app_nil_r. split; [exact H3|]. split; intros j Hj; rewrite H1; auto.
  - replace (pre ++ x :: l) with ((pre ++ [x]) ++ l) by (now rewrite <- app_assoc).
    assert (A : forall j, (j < length pre)%nat -> nth j (pre ++ [x]) 0 = nth j pre 0) by (intros; now apply app_nth1).
    assert (B : nth (length pre) (pre ++ [x]) 0 = x) by (rewrite app_nth2, Nat.sub_diag by lia; reflexivity).
    destruct (Rlt_dec best x) as [G|G]; apply IH.
    + rewrite H2. exact B.
    + rewrite app_length. cbn. lia.
    + rewrite app_length. cbn. lia.
    + intros j Hj. rewrite app_length in Hj. cbn in Hj. destruct (Nat.eq_dec j (length pre)) as [->|Ne]; [rewrite B; lra|].
      rewrite A by lia. pose proof (H4 j ltac:(lia)). lra.
    + intros j Hj. rewrite A by lia. pose proof (H4 j ltac:(lia)). lra.
    + rewrite A by exact H3. exact H1.
    + rewrite app_length. cbn. lia.
    + rewrite app_length. cbn. lia.
    + intros j Hj. rewrite app_length in Hj. cbn in Hj. destruct (Nat.eq_dec j (length pre)) as [->|Ne]; [rewrite B; lra|].
      rewrite A by lia. apply H4. lia.
    + intros j Hj. rewrite A by lia. now apply H5.
Qed.
Lemma argmax_spec l : l <> [] -> first_largest l (argmax l).
Proof.
  intros N. destruct l as [|x l]; [contradiction|]. apply (argmax_from_spec l x 0 1 [x]); cbn; try lia; try reflexivity.
  intros [|j] Hj; cbn; [lra|lia].
Qed.
Lemma first_largest_unique l i j : first_largest l i -> first_largest l j -> i = j.
Proof.
  intros [I1 [I2 I3]] [J1 [J2 J3]]. destruct (Nat.lt_trichotomy i j) as [H|[H|H]]; [|exact H|].
  - pose proof (J3 i H). pose proof (I2 j J1). lra.
  - pose proof (I3 j H). pose proof (J2 i I1). lra.
Qed.
Lemma one_hot_largest n y : (y < n)%nat -> first_largest (one_hot n y) y.
Proof.
  intros H. unfold one_hot. assert (A : forall j, (j < n)%nat -> nth j (map (fun j => if Nat.eqb y j then 1 else 0) (seq 0 n)) 0 = if Nat.eqb y j then 1 else 0).
  { intros j Hj. rewrite (nth_indep _ 0 ((fun j => if Nat.eqb y j then 1 else 0) 0%nat)) by (now rewrite map_length, seq_length).
    rewrite (map_nth (fun j => if Nat.eqb y j then 1 else 0)). now rewrite seq_nth by exact Hj. }
  split; [now rewrite map_length, seq_length|]. split.
  - intros j Hj. rewrite map_length, seq_length in Hj. rewrite !A by assumption. rewrite Nat.eqb_refl. destruct (Nat.eqb y j); lra.
  - intros j Hj. rewrite !A by lia. rewrite Nat.eqb_refl. destruct (Nat.eqb_spec y j); [lia|lra].
Qed.
(** acc is the fraction of images whose first largest logit is at the label. *)
Theorem C81_accuracy : forall n_class (data : list (list R * nat)), data <> [] ->
  (forall d, In d data -> length (fst d) = n_class /\ (snd d < n_class)%nat) ->
  exists hits, NoDup hits /\
    (forall i, In i hits <-> (i < length data)%nat /\ first_largest (fst (nth i data ([], 0%nat))) (snd (nth i data ([], 0%nat)))) /\
    acc (map (fun d => (fst d, one_hot n_class (snd d))) data) = INR (length hits) / INR (length data).
Proof.
  intros n_class data N H.
  set (hit := fun d : list R * nat => Nat.eqb (argmax (softmax (fst d))) (argmax (one_hot n_class (snd d)))).
  assert (HS : forall d, In d data -> (hit d = true <-> first_largest (fst d) (snd d))).
  { intros d Hd. destruct (H d Hd) as [Ld Lt]. unfold hit.
    assert (Nl : fst d <> []) by (intros E; rewrite E in Ld; cbn in Ld; lia).
    assert (Ns : softmax (fst d) <> []) by (unfold softmax; destruct (fst d); [contradiction|discriminate]).
    assert (No : one_hot n_class (snd d) <> []) by (intros E; apply (f_equal (@length R)) in E; unfold one_hot in E; rewrite map_length, seq_length in E; cbn in E; lia).
    rewrite (first_largest_unique _ _ _ (argmax_spec _ No) (one_hot_largest _ _ Lt)).
    assert (T : 0 < sumR (map exp (fst d))) by (rewrite <- (total_sumR exp (fst d)); apply total_pos; [exact Nl|intros; apply exp_pos]).
    assert (E : forall k, (k < length (fst d))%nat -> nth k (softmax (fst d)) 0 = exp (nth k (fst d) 0) / sumR (map exp (fst d))).
    { intros k Hk. unfold softmax. set (g := fun x => exp x / sumR (map exp (fst d))).
      rewrite (nth_indep _ 0 (g 0)) by (now rewrite map_length). apply (map_nth g). }
    assert (LS : length (softmax (fst d)) = length (fst d)) by (unfold softmax; apply map_length).
    assert (MS : forall i j, (i < length (fst d))%nat -> (j < length (fst d))%nat ->
      (nth i (softmax (fst d)) 0 < nth j (softmax (fst d)) 0 <-> nth i (fst d) 0 < nth j (fst d) 0)).
    { intros i j Hi Hj. rewrite !E by assumption. split; intros K.
      - apply exp_lt_inv. apply (Rmult_lt_reg_r (/ sumR (map exp (fst d)))); [now apply Rinv_0_lt_compat|exact K].
      - apply Rmult_lt_compat_r; [now apply Rinv_0_lt_compat|now apply exp_increasing]. }
    assert (EQ : forall i, first_largest (softmax (fst d)) i <-> first_largest (fst d) i).
    { intros i. unfold first_largest. rewrite LS. split; intros [A1 [A2 A3]]; (split; [exact A1|split]).
      - intros j Hj. apply Rnot_lt_le. intros K. apply MS in K; [|assumption..]. pose proof (A2 j Hj). lra.
      - intros j Hj. apply MS; [lia|assumption|]. now apply A3.
      - intros j Hj. apply Rnot_lt_le. intros K. apply MS in K; [|assumption..]. pose proof (A2 j Hj). lra.
      - intros j Hj. apply MS; [lia|assumption|]. now apply A3. }
    rewrite Nat.eqb_eq. split.
    - intros <-. apply EQ. now apply argmax_spec.
    - intros K. apply EQ in K. exact (first_largest_unique _ _ _ (argmax_spec _ Ns) K). }
  exists (filter (fun i => hit (nth i data ([], 0%nat))) (seq 0 (length data))). split; [apply NoDup_filter, seq_NoDup|]. split.
  - intros i. rewrite filter_In, in_seq. split.
    + intros [Hi K]. split; [lia|]. apply HS; [apply nth_In; lia|exact K].
    + intros [Hi K]. split; [lia|]. apply HS; [apply nth_In; lia|exact K].
  - unfold acc. rewrite map_length, total_map. cbn [fst snd].
    rewrite (total_ext _ (fun d => / INR (length data) * (if hit d then 1 else 0))).
    + rewrite total_scal. unfold Rdiv. rewrite Rmult_comm. f_equal. clear.
      induction data as [|d data IH] using rev_ind; [reflexivity|].
      rewrite app_length. cbn [length]. rewrite Nat.add_1_r, seq_S, filter_app, app_length, plus_INR, total_app, IH.
      cbn [Nat.add filter]. f_equal.
      * f_equal. f_equal. apply filter_ext_in. intros i Hi. apply in_seq in Hi. rewrite app_nth1 by lia. reflexivity.
      * rewrite app_nth2, Nat.sub_diag by lia. cbn [nth total]. destruct (hit d); cbn; lra.
    + intros d Hd. unfold hit. destruct (Nat.eqb _ _); unfold Rdiv; ring.
Qed.
Print Assumptions C81_accuracy.
Example C81_accuracy_case : first_largest [0; 2; 2] 1.
Proof. split; [cbn; lia|]. split; intros [|[|[|j]]] Hj; cbn in *; try lra; lia. Qed.
Example C81_accuracy_half : exists hits, NoDup hits /\
  (forall i, In i hits <-> (i < 2)%nat /\ first_largest (fst (nth i [([0; 2], 1%nat); ([0; 2], 0%nat)] ([], 0%nat))) (snd (nth i [([0; 2], 1%nat); ([0; 2], 0%nat)] ([], 0%nat)))) /\
  acc [([0; 2], [0; 1]); ([0; 2], [1; 0])] = INR (length hits) / INR 2.
Proof.
  apply (C81_accuracy 2 [([0; 2], 1%nat); ([0; 2], 0%nat)]); [discriminate|].
  intros d [<-|[<-|[]]]; cbn; split; lia.
Qed.
