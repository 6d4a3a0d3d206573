(** C80: the topic model example (examples/topic_models/lntm_mcem.py). *)
From Coq Require Import List Reals Lra Lia Arith Permutation.
From Verif Require Import SpecDist SpecTopic ModelDist ModelExamples ModelTopic ProofDiscrete ProofTrain ProofTopic.
Import ListNotations.
Local Open Scope R_scope.

(** ** The persistent chains *)
(** Whatever the shuffles of the epochs so far, every document keeps its own chain: row [j] of the
    training set is document [i], and row [j] of Eta comes from the initial parameters of
    document [i] by num_e_steps transitions per epoch made for that document. *)
Theorem C80_chains : forall {X E S} (dx : X) (de : E) sample m_step hyper num size
    (k : S -> nat -> X -> E -> E) s X0 Eta0 iters perms s' X' Eta',
  by_rows k sample -> (0 < size)%nat ->
  length X0 = (iters * size)%nat -> length Eta0 = length X0 ->
  Forall (fun o => Permutation o (seq 0 (length X0))) perms ->
  train dx de sample m_step hyper num size (s, X0, Eta0) perms = (s', X', Eta') ->
  exists order, Permutation order (seq 0 (length X0)) /\ length X' = length order /\ length Eta' = length order /\
    forall j i, nth_error order j = Some i ->
      exists x e0 e, nth_error X0 i = Some x /\ nth_error Eta0 i = Some e0 /\
        nth_error X' j = Some x /\ nth_error Eta' j = Some e /\ chain k x (length perms * num) e0 e.
Proof.
  intros X E S dx de sample m_step hyper num size k s X0 Eta0 iters perms s' X' Eta' R Hs LX LE P.
  revert s' X' Eta'. induction perms as [|o perms IH] using rev_ind; intros s' X' Eta' H.
  - cbn in H. injection H as <- <- <-. exists (seq 0 (length X0)).
    rewrite seq_length. repeat split; [apply Permutation_refl|exact LE|].
    intros j i Hj. assert (Hl : (j < length (seq 0 (length X0)))%nat) by (apply nth_error_Some; congruence).
    rewrite seq_length in Hl. assert (i = j).
    { apply (nth_error_nth _ _ 0%nat) in Hj. rewrite seq_nth in Hj by exact Hl. lia. }
    subst i. destruct (nth_error X0 j) as [x|] eqn:Ex; [|apply nth_error_None in Ex; lia].
    destruct (nth_error Eta0 j) as [e|] eqn:Ee; [|apply nth_error_None in Ee; lia].
    exists x, e, e. repeat split. constructor.
  - apply Forall_app in P. destruct P as [P Po]. inversion Po as [|? ? Ho _]; subst.
    unfold train in H. rewrite fold_left_app in H. cbn [fold_left] in H.
    destruct (fold_left (train_epoch dx de sample m_step hyper num size) perms (s, X0, Eta0)) as [[s1 X1] Eta1] eqn:E1.
    destruct (IH P s1 X1 Eta1 E1) as [ord [Pord [L1 [L2 Q]]]].
    assert (Lo : length ord = length X0) by (rewrite (Permutation_length Pord); apply seq_length).
    unfold train_epoch in H.
    assert (Lp : length o = length X0) by (rewrite (Permutation_length Ho); apply seq_length).
    assert (LXs : length (rows_at dx X1 o) = length X0) by (unfold rows_at; now rewrite map_length).
    assert (LEs : length (rows_at de Eta1 o) = length X0) by (unfold rows_at; now rewrite map_length).
    assert (N : (length X1 / size)%nat = iters) by (rewrite L1, Lo, LX; apply Nat.div_mul; lia).
    rewrite N in H.
    destruct (batches_advanced sample m_step num size k R Hs (rows_at dx X1 o) s1 (rows_at de Eta1 o) iters) as [A B];
      [lia|lia|].
    destruct (fold_left (train_batch sample m_step num size (rows_at dx X1 o)) (seq 0 iters) (s1, rows_at de Eta1 o)) as [s2 Eta2].
    cbn [snd] in A, B. injection H as <- <- <-.
    exists (map (fun i => nth i ord 0%nat) o).
    assert (PM : Permutation (map (fun i => nth i ord 0%nat) o) ord).
    { apply (rows_at_perm 0%nat ord o). rewrite Lo. exact Ho. }
    repeat split.
    + rewrite PM. exact Pord.
    + now rewrite map_length, LXs.
    + rewrite map_length, A, LEs. lia.
    + intros j i Hj. rewrite nth_error_map in Hj. destruct (nth_error o j) as [i1|] eqn:Ej; [|discriminate].
      cbn in Hj. injection Hj as Hi.
      assert (Hi1 : (i1 < length X0)%nat).
      { apply nth_error_In in Ej. apply (Permutation_in i1 Ho) in Ej. apply in_seq in Ej. lia. }
      assert (Hoi : nth_error ord i1 = Some i).
      { rewrite <- Hi. apply nth_error_nth'. lia. }
      destruct (Q i1 i Hoi) as [x [e0 [e [Q1 [Q2 [Q3 [Q4 Q5]]]]]]].
      assert (Rx : nth_error (rows_at dx X1 o) j = Some x).
      { unfold rows_at. rewrite nth_error_map, Ej. cbn. f_equal. now apply nth_error_nth. }
      assert (Re : nth_error (rows_at de Eta1 o) j = Some e).
      { unfold rows_at. rewrite nth_error_map, Ej. cbn. f_equal. now apply nth_error_nth. }
      destruct (B j x e Rx Re) as [e' [Be Bc]].
      exists x, e0, e'. repeat split; try assumption.
      rewrite app_length. cbn [length]. replace ((length perms + 1) * num)%nat with (num + length perms * num)%nat by lia.
      specialize (Bc _ _ Q5).
      assert (Hj : (j < iters * size)%nat).
      { rewrite <- LX, <- LXs. apply nth_error_Some. congruence. }
      apply Nat.ltb_lt in Hj. rewrite Hj in Bc. exact Bc.
Qed.
Print Assumptions C80_chains.
(** A sampler that counts, on two batches of two documents. *)
Example C80_chains_case :
  by_rows (fun (s i x e : nat) => x + e)%nat (fun (s : nat) xs es => (s, map (fun p => fst p + snd p)%nat (combine xs es))) /\
  train 0%nat 0%nat (fun (s : nat) xs es => (s, map (fun p => fst p + snd p)%nat (combine xs es))) (fun s _ _ => s) (fun s _ => s)
    3 2 (0, [1; 2; 3; 4], [0; 0; 0; 0])%nat [[2; 0; 3; 1]; [3; 1; 0; 2]]%nat
  = (0, [2; 1; 3; 4], [12; 6; 18; 24])%nat.
Proof.
  split; [|reflexivity]. intros s xs es L. cbn [snd]. split; [rewrite map_length, combine_length; lia|].
  intros i x e Hx He. rewrite nth_error_map.
  assert (H : nth_error (combine xs es) i = Some (x, e)).
  { clear L s. revert es i Hx He. induction xs as [|a xs IH]; intros es i Hx He; destruct i; try discriminate;
      destruct es; try discriminate; cbn in *; [congruence|now apply IH]. }
  now rewrite H.
Qed.

(** ** The word distribution of a document *)
Lemma softmax_facts l : l <> [] -> (forall i, (i < length l)%nat -> 0 < nth i (softmax l) 0) /\
  total (fun i => nth i (softmax l) 0) (seq 0 (length l)) = 1.
Proof.
  intros N. assert (P : 0 < sumR (map exp l)).
  { rewrite <- (total_sumR exp l). apply total_pos; [exact N|]. intros; apply exp_pos. }
  assert (A : forall i, (i < length l)%nat -> nth i (softmax l) 0 = exp (nth i l 0) / sumR (map exp l)).
  { intros i Hi. unfold softmax. rewrite (nth_indep _ 0 (exp 0 / sumR (map exp l))) by (now rewrite map_length).
    apply (map_nth (fun x => exp x / sumR (map exp l))). }
  split.
  - intros i Hi. rewrite A by exact Hi. apply Rmult_lt_0_compat; [apply exp_pos|now apply Rinv_0_lt_compat].
  - rewrite (total_ext _ (fun i => / sumR (map exp l) * exp (nth i l 0))).
    2: { intros i Hi. apply in_seq in Hi. rewrite A by lia. unfold Rdiv. ring. }
    rewrite total_scal.
    replace (total (fun i => exp (nth i l 0)) (seq 0 (length l))) with (sumR (map exp l)); [field; lra|].
    rewrite <- (total_sumR exp l). clear. induction l as [|a l IH]; [reflexivity|].
    cbn [length seq total nth]. rewrite <- seq_shift, total_map. now rewrite IH.
Qed.
Lemma nth_map_softmax (beta : list (list R)) j : (j < length beta)%nat -> nth j (map softmax beta) [] = softmax (nth j beta []).
Proof. intros H. rewrite (nth_indep _ [] (softmax [])) by (now rewrite map_length). apply map_nth. Qed.
Section word.
Variables (n_vocab : nat) (eta : list R) (beta : list (list R)).
Hypotheses (Ht : eta <> []) (Hv : (0 < n_vocab)%nat) (Hb : length beta = length eta)
  (Hr : forall b, In b beta -> length b = n_vocab).
Lemma row_facts j : (j < length eta)%nat ->
  (forall v, (v < n_vocab)%nat -> 0 < nth v (nth j (map softmax beta) []) 0) /\
  total (fun v => nth v (nth j (map softmax beta) []) 0) (seq 0 n_vocab) = 1.
Proof.
  intros Hj. rewrite nth_map_softmax by lia.
  assert (L : length (nth j beta []) = n_vocab) by (apply Hr, nth_In; lia).
  destruct (softmax_facts (nth j beta [])) as [A B]; [intros E; rewrite E in L; cbn in L; lia|].
  rewrite L in A, B. split; assumption.
Qed.
Lemma doc_word_facts : length (doc_word n_vocab eta beta) = n_vocab /\
  (forall w, In w (doc_word n_vocab eta beta) -> 0 < w) /\ total (fun w => w) (doc_word n_vocab eta beta) = 1.
Proof.
  unfold doc_word. split; [now rewrite map_length, seq_length|]. destruct (softmax_facts eta Ht) as [A B]. split.
  - intros w Hw. apply in_map_iff in Hw. destruct Hw as [v [<- Hin]]. apply in_seq in Hin.
    apply total_pos; [destruct eta; [contradiction|discriminate]|]. intros j Hj. apply in_seq in Hj.
    apply Rmult_lt_0_compat; [apply A; lia|]. apply row_facts; lia.
  - rewrite total_map, total_swap. rewrite <- B. apply total_ext. intros j Hj. apply in_seq in Hj.
    rewrite total_scal. rewrite (proj2 (row_facts j ltac:(lia))). ring.
Qed.
End word.
(** Every row of doc_word is a probability distribution over the vocabulary, for all parameters,
    so leaving the logits as they are (normalize_logits=False) changes nothing. *)
Theorem C80_doc_word : forall n_vocab eta beta, eta <> [] -> (0 < n_vocab)%nat -> length beta = length eta ->
  (forall b, In b beta -> length b = n_vocab) ->
  length (doc_word n_vocab eta beta) = n_vocab /\
  (forall w, In w (doc_word n_vocab eta beta) -> 0 < w <= 1) /\
  total (fun w => w) (doc_word n_vocab eta beta) = 1 /\
  forall x, doc_log_px n_vocab beta eta x = unnormalized_multinomial_lp true x (map ln (doc_word n_vocab eta beta)).
Proof.
  intros n_vocab eta beta Ht Hv Hb Hr.
  destruct (doc_word_facts n_vocab eta beta Ht Hv Hb Hr) as [L [P T]].
  assert (LE : forall l : list R, (forall w, In w l -> 0 < w) -> forall w, In w l -> w <= total (fun w => w) l).
  { induction l as [|a l IH]; intros H w Hw; [contradiction|]. cbn [total].
    assert (0 <= total (fun w => w) l) by (apply total_nonneg; intros y Hy; left; apply H; now right).
    destruct Hw as [->|Hw]; [lra|]. pose proof (H a (or_introl eq_refl)).
    pose proof (IH (fun y Hy => H y (or_intror Hy)) w Hw). lra. }
  repeat split; try assumption.
  - now apply P.
  - rewrite <- T. now apply LE.
  - intros x. unfold doc_log_px, unnormalized_multinomial_lp, normalized. f_equal.
    assert (Z : logsumexp (map ln (doc_word n_vocab eta beta)) = 0).
    { unfold logsumexp. rewrite map_map, (map_ext_in _ (fun w => w)).
      - rewrite <- (total_sumR (fun w => w)), T. apply ln_1.
      - intros w Hw. apply exp_ln. now apply P. }
    rewrite Z. rewrite <- (map_id (map ln _)) at 1. apply map_ext. intros; lra.
Qed.
Print Assumptions C80_doc_word.
Example C80_doc_word_case : total (fun w => w) (doc_word 3 [0; 1] [[0; 1; 2]; [5; 0; 0]]) = 1.
Proof.
  apply C80_doc_word; [discriminate|lia|reflexivity|]. intros b [<-|[<-|[]]]; reflexivity.
Qed.

(** The log-likelihood of a document is the logarithm of the product of its word probabilities,
    each to the power of its count; it is never positive. *)
Definition word_product (counts : list nat) (ps : list R) : R :=
  fold_right (fun cp r => snd cp ^ fst cp * r) 1 (combine counts ps).
Theorem C80_log_px : forall n_vocab eta beta counts, eta <> [] -> (0 < n_vocab)%nat -> length beta = length eta ->
  (forall b, In b beta -> length b = n_vocab) ->
  doc_log_px n_vocab beta eta (map INR counts) = ln (word_product counts (doc_word n_vocab eta beta)) /\
  doc_log_px n_vocab beta eta (map INR counts) <= 0.
Proof.
  intros n_vocab eta beta counts Ht Hv Hb Hr.
  destruct (C80_doc_word n_vocab eta beta Ht Hv Hb Hr) as [_ [P _]].
  unfold doc_log_px, unnormalized_multinomial_lp, normalized, dot. revert P. generalize (doc_word n_vocab eta beta).
  induction counts as [|c counts IH]; intros ps P; cbn [map combine].
  - cbn. rewrite ln_1. split; [reflexivity|lra].
  - destruct ps as [|p ps]; cbn [map combine].
    + cbn. rewrite ln_1. split; [reflexivity|lra].
    + unfold word_product. cbn [combine fold_right map sumR fst snd]. fold (word_product counts ps).
      destruct (IH ps (fun w Hw => P w (or_intror Hw))) as [I1 I2]. unfold sumR in *.
      pose proof (P p (or_introl eq_refl)) as [P1 P2].
      assert (Q : 0 < word_product counts ps).
      { clear - P. unfold word_product. assert (H : forall cp, In cp (combine counts ps) -> 0 < snd cp).
        { intros [a b] H. apply in_combine_r in H. apply (P b). now right. }
        induction (combine counts ps) as [|cp l IH]; cbn [fold_right]; [lra|].
        apply Rmult_lt_0_compat; [apply pow_lt, H; now left|apply IH; intros; apply H; now right]. }
      split.
      * rewrite I1, ln_mult; [|now apply pow_lt|exact Q]. f_equal.
        clear - P1. induction c; cbn [pow]; [rewrite ln_1; cbn; lra|].
        rewrite ln_mult; [|exact P1|now apply pow_lt]. rewrite <- IHc, S_INR. ring.
      * assert (ln p <= 0).
        { destruct (Rle_lt_or_eq_dec _ _ P2) as [L|E2]; [left; rewrite <- ln_1; now apply ln_increasing|].
          right. rewrite E2. apply ln_1. }
        pose proof (pos_INR c). nra.
Qed.
Print Assumptions C80_log_px.
Example C80_log_px_case : word_product [2; 0; 1]%nat [1 / 2; 1 / 4; 1 / 4] = 1 / 16.
Proof. unfold word_product. cbn. field. Qed.

(** ** Padding with empty documents *)
(** The rows of zeros added to fill the last batch do not change the likelihood, whatever their
    topic parameters, nor the number of words. *)
Theorem C80_padding : forall n_vocab beta docs pad,
  (forall d, In d pad -> snd d = repeat 0 n_vocab) ->
  batch_log_px n_vocab beta (docs ++ pad) = batch_log_px n_vocab beta docs /\
  total (fun x => total (fun w => w) x) (map snd (docs ++ pad)) = total (fun x => total (fun w => w) x) (map snd docs).
Proof.
  intros n_vocab beta docs pad H. unfold batch_log_px. rewrite total_app, map_app, total_app.
  assert (Z : forall ls m, dot (repeat 0 m) ls = 0).
  { unfold dot, sumR. induction ls as [|l ls IH]; intros [|m]; cbn; try reflexivity. rewrite IH. lra. }
  assert (Z2 : forall m, total (fun w => w) (repeat 0 m) = 0) by (induction m as [|m IH]; cbn; [reflexivity|rewrite IH; lra]).
  assert (A : total (fun d => doc_log_px n_vocab beta (fst d) (snd d)) pad = 0).
  { induction pad as [|d pad IH]; [reflexivity|]. cbn [total]. rewrite IH by (intros; apply H; now right).
    unfold doc_log_px, unnormalized_multinomial_lp. rewrite (H d (or_introl eq_refl)), Z. lra. }
  assert (B : total (fun x => total (fun w => w) x) (map snd pad) = 0).
  { clear A. induction pad as [|d pad IH]; [reflexivity|]. cbn [map total]. rewrite IH by (intros; apply H; now right).
    rewrite (H d (or_introl eq_refl)), Z2. lra. }
  rewrite A, B. lra.
Qed.
Print Assumptions C80_padding.
Example C80_padding_case : batch_log_px 2 [[0; 0]] ([([0], [1; 1])] ++ [([7], [0; 0])]) = batch_log_px 2 [[0; 0]] [([0], [1; 1])].
Proof. apply C80_padding. intros d [<-|[]]. reflexivity. Qed.
(** But the empty documents count in the hyper-parameters: the mean of Eta over all rows is not
    the mean over the documents. *)
Theorem C80_padding_hyper_refuted : exists etas pad, Eta_mean (etas ++ pad) <> Eta_mean etas /\
  length (padded 0 2 etas) = length (etas ++ pad).
Proof. exists [2], [0]. split; [unfold Eta_mean; cbn; lra|reflexivity]. Qed.
Print Assumptions C80_padding_hyper_refuted.

(** ** Reports and schedules *)
(** The perplexity is at least 1. *)
Theorem C80_perplexity : forall lls Xs, (forall l, In l lls -> l <= 0) ->
  0 < total (fun x => total (fun w => w) x) Xs -> 1 <= perplexity lls Xs.
Proof.
  intros lls Xs H P. unfold perplexity.
  assert (T : total (fun l => l) lls <= 0).
  { induction lls as [|l lls IH]; cbn; [lra|]. pose proof (H l (or_introl eq_refl)).
    assert (total (fun l => l) lls <= 0) by (apply IH; intros; apply H; now right). lra. }
  rewrite <- exp_0. assert (0 <= - total (fun l => l) lls / total (fun x => total (fun w => w) x) Xs).
  { apply Rmult_le_pos; [lra|]. left. now apply Rinv_0_lt_compat. }
  destruct (Rle_lt_or_eq_dec _ _ H0) as [L|<-]; [left; now apply exp_increasing|lra].
Qed.
(** It is the inverse geometric mean of the probabilities of the words: exp of minus the
    log-likelihood per word. *)
Theorem C80_perplexity_words : forall lls Xs, 0 < total (fun x => total (fun w => w) x) Xs ->
  Rpower (perplexity lls Xs) (total (fun x => total (fun w => w) x) Xs) = exp (- total (fun l => l) lls).
Proof.
  intros lls Xs P. unfold Rpower, perplexity. rewrite ln_exp. f_equal. field. lra.
Qed.
Example C80_perplexity_case : perplexity [-1; -3] [[1; 1]; [2; 0]] = exp 1.
Proof. unfold perplexity. cbn. f_equal. field. Qed.
Print Assumptions C80_perplexity.
Print Assumptions C80_perplexity_words.

(** The learning rates decrease and, over any number of epochs, sum to less than
    learning_rate_0 * t0: training can move beta only by a bounded amount. *)
Theorem C80_learning_rate : forall lr0 t0, 0 < lr0 -> 0 < t0 ->
  (forall e, 0 < learning_rate lr0 t0 (S e) < learning_rate lr0 t0 e) /\
  forall epochs, total (learning_rate lr0 t0) (seq 1 epochs) < lr0 * t0.
Proof.
  intros lr0 t0 Hl Ht. assert (P : forall e, 0 < t0 + INR e) by (intros e; pose proof (pos_INR e); lra).
  split.
  - intros e. unfold learning_rate. pose proof (P e). pose proof (P (S e)). rewrite S_INR in *.
    assert (A : 0 < t0 / (t0 + (INR e + 1))) by (apply Rmult_lt_0_compat; [exact Ht|now apply Rinv_0_lt_compat]).
    assert (B : t0 / (t0 + (INR e + 1)) < t0 / (t0 + INR e)).
    { apply Rmult_lt_compat_l; [exact Ht|]. apply Rinv_lt_contravar; [now apply Rmult_lt_0_compat|lra]. }
    split; [apply Rmult_lt_0_compat; [exact Hl|now apply pow_lt]|].
    apply Rmult_lt_compat_l; [exact Hl|]. cbn [pow]. nra.
  - assert (Q : forall epochs, total (learning_rate lr0 t0) (seq 1 epochs) <= lr0 * t0 - lr0 * t0 ^ 2 / (t0 + INR epochs)).
    { induction epochs.
      - cbn [seq total INR]. rewrite Rplus_0_r. right. field. lra.
      - rewrite seq_S, total_app. cbn [total].
        assert (D : learning_rate lr0 t0 (1 + epochs) <= lr0 * t0 ^ 2 / (t0 + INR epochs) - lr0 * t0 ^ 2 / (t0 + INR (S epochs))).
        { unfold learning_rate. replace (1 + epochs)%nat with (S epochs) by lia.
          pose proof (P epochs). pose proof (P (S epochs)). rewrite S_INR in *. set (a := t0 + INR epochs) in *.
          replace (t0 + (INR epochs + 1)) with (a + 1) in * by (unfold a; ring).
          replace (lr0 * t0 ^ 2 / a - lr0 * t0 ^ 2 / (a + 1)) with (lr0 * (t0 / (a + 1)) ^ 2 * ((a + 1) / a)) by (field; lra).
          rewrite <- (Rmult_1_r (lr0 * (t0 / (a + 1)) ^ 2)) at 1. apply Rmult_le_compat_l.
          - apply Rmult_le_pos; [lra|apply pow2_ge_0].
          - apply (Rmult_le_reg_r a); [assumption|]. replace ((a + 1) / a * a) with (a + 1) by (field; lra). lra. }
        lra. }
    intros epochs. specialize (Q epochs).
    assert (0 < lr0 * t0 ^ 2 / (t0 + INR epochs)).
    { apply Rmult_lt_0_compat; [apply Rmult_lt_0_compat; [exact Hl|now apply pow_lt]|now apply Rinv_0_lt_compat]. }
    lra.
Qed.
Print Assumptions C80_learning_rate.
Example C80_learning_rate_case : learning_rate 1 10 10 = 1 / 4.
Proof. unfold learning_rate. replace (INR 10) with 10 by (cbn; lra). field. Qed.
(** The deviation set from Eta is positive even when all rows agree. *)
Theorem C80_logstd : forall etas, 1 / 1000000 <= exp (Eta_logstd etas).
Proof.
  intros etas. unfold Eta_logstd. pose proof (sqrt_pos (total (fun e => (e - Eta_mean etas) ^ 2) etas / INR (length etas))).
  rewrite exp_ln by lra. lra.
Qed.
Print Assumptions C80_logstd.
