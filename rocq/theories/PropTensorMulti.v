(** C11 for the distributions whose value is a vector along the last axis.
    [computes_rows] is in SpecTensor.v. *)
From Coq Require Import List Arith Bool Lia Reals.
From Verif Require Import ModelShape SpecShape ProofShape ModelTensor SpecTensor ProofTensor ModelDist ProofDist PropTensor.
Import ListNotations.
Local Open Scope R_scope.

Local Ltac pair_tac B :=
  eapply eshape_pair; [cbn; tauto|exact B|intros ? ?; cbn; rewrite ?in_app_iff; cbn; intuition (subst; auto; congruence)].

Lemma eshape_normalized b (e : expr R) w k : eshape e = Some (w ++ [k]) ->
  eshape (p_normalized b e) = Some (w ++ [k]).
Proof.
  intros E. destruct b; cbn [p_normalized]; [|assumption].
  eapply eshape_bin; [exact E|eapply eshape_rowkeep; exact E|apply bshape_snoc1].
Qed.
Lemma den_normalized b (e : expr R) w k i g : eshape e = Some (w ++ [k]) ->
  (forall c, (c < k)%nat -> den e (i ++ [c]) = g c) ->
  forall c, (c < k)%nat -> den (p_normalized b e) (i ++ [c]) = nth c (normalized b (map g (seq 0 k))) 0.
Proof.
  intros E H c Hc. destruct b; cbn [p_normalized normalized].
  - change (den (e ⊖ RowKeep logsumexp e) (i ++ [c])) with
      (den e (i ++ [c]) - den (RowKeep logsumexp e) (i ++ [c])).
    rewrite (den_rowkeep _ e w k i c g E H), H by assumption.
    rewrite map_map, (nth_indep _ 0 (g 0%nat - logsumexp (map g (seq 0 k)))) by (rewrite map_length, seq_length; assumption).
    rewrite (map_nth (fun x => g x - logsumexp (map g (seq 0 k)))), seq_nth by assumption. reflexivity.
  - rewrite H by assumption. rewrite (nth_indep _ 0 (g 0%nat)) by (rewrite map_length, seq_length; assumption).
    now rewrite map_nth, seq_nth.
Qed.
Lemma normalized_length b l : length (normalized b l) = length l.
Proof. destruct b; simpl; auto. apply map_length. Qed.
Lemma dot_seq (f : nat -> R) l k : length l = k ->
  sumR (map (fun c => f c * nth c l 0) (seq 0 k)) = dot (map f (seq 0 k)) l.
Proof.
  intros <-. unfold dot. f_equal. revert f. induction l as [|a l IH]; intros f; simpl; [reflexivity|].
  f_equal. rewrite <- seq_shift, !map_map, (IH (fun c => f (S c))). reflexivity.
Qed.

Theorem C11_unnormalized_multinomial_log_prob normalize given logits k :
  computes_rows (eval (p_unnormalized normalize (Leaf given) (Leaf logits)))
    (unnormalized_multinomial_lp normalize) given logits k.
Proof.
  apply rows_intro. intros w B.
  assert (E1 : eshape (bcast (Leaf given) (Leaf logits)) = Some (w ++ [k])) by pair_tac B.
  assert (E2 : eshape (bcast (Leaf logits) (Leaf given)) = Some (w ++ [k])) by pair_tac B.
  assert (E3 := eshape_normalized normalize _ _ _ E2).
  assert (E4 : eshape (bcast (Leaf given) (Leaf logits) ⊗ p_normalized normalize (bcast (Leaf logits) (Leaf given)))
               = Some (w ++ [k])) by (now apply eshape_bin_same).
  split; [unfold p_unnormalized; eapply eshape_row; exact E4|]. intros i Vi. unfold p_unnormalized.
  rewrite (den_row _ _ w k i (fun c => view given (i ++ [c]) * nth c (normalized normalize (vrow logits k i)) 0) E4).
  - unfold unnormalized_multinomial_lp. apply dot_seq. now rewrite normalized_length, vrow_length.
  - intros c Hc. cbn [den]. f_equal; [cbn; ring|].
    eapply den_normalized; eauto. intros; cbn; ring.
Qed.
Print Assumptions C11_unnormalized_multinomial_log_prob.

Theorem C11_multinomial_log_prob lgamma normalize n_experiments given logits k :
  computes_rows (eval (p_multinomial lgamma normalize n_experiments (Leaf given) (Leaf logits)))
    (multinomial_lp lgamma normalize n_experiments) given logits k.
Proof.
  apply rows_intro. intros w B.
  assert (E1 : eshape (bcast (Leaf given) (Leaf logits)) = Some (w ++ [k])) by pair_tac B.
  assert (E2 : eshape (bcast (Leaf logits) (Leaf given)) = Some (w ++ [k])) by pair_tac B.
  assert (E3 := eshape_normalized normalize _ _ _ E2).
  assert (E4 : eshape (bcast (Leaf given) (Leaf logits) ⊗ p_normalized normalize (bcast (Leaf logits) (Leaf given)))
               = Some (w ++ [k])) by (now apply eshape_bin_same).
  assert (E5 : eshape (Un lgamma (bcast (Leaf given) (Leaf logits) ⊕ Const 1)) = Some (w ++ [k])).
  { cbn [eshape] in *. rewrite E1. rewrite bshape_comm. apply fits_nil. }
  set (n := match n_experiments with Some n => Const n | None => Row sumR (bcast (Leaf given) (Leaf logits)) end).
  assert (En : eshape n = Some [] \/ eshape n = Some w).
  { unfold n. destruct n_experiments; [now left|right]. eapply eshape_row; eassumption. }
  assert (E6 : eshape (Un lgamma (n ⊕ Const 1) ⊖ Row sumR (Un lgamma (bcast (Leaf given) (Leaf logits) ⊕ Const 1))) = Some w).
  { assert (Er := eshape_row sumR _ _ _ E5).
    destruct En as [En|En].
    - apply eshape_bin_scalar_l; [|exact Er]. cbn [eshape] in *. rewrite En. reflexivity.
    - apply eshape_bin_same; [|exact Er]. cbn [eshape] in *. rewrite En. rewrite bshape_comm. apply fits_nil. }
  unfold p_multinomial. fold n. split.
  { apply eshape_bin_same; [exact E6|eapply eshape_row; exact E4]. }
  intros i Vi. set (gv := fun c : nat => view given (i ++ [c])).
  change (den (Un lgamma (n ⊕ Const 1)) i
          - den (Row sumR (Un lgamma (bcast (Leaf given) (Leaf logits) ⊕ Const 1))) i
          + den (Row sumR (bcast (Leaf given) (Leaf logits) ⊗ p_normalized normalize (bcast (Leaf logits) (Leaf given)))) i
          = multinomial_lp lgamma normalize n_experiments (vrow given k i) (vrow logits k i)).
  rewrite (den_row _ _ w k i (fun c => gv c * nth c (normalized normalize (vrow logits k i)) 0) E4).
  2:{ intros c Hc. cbn [den]. f_equal; [cbn; unfold gv; ring|].
      eapply den_normalized; eauto. intros; cbn; ring. }
  rewrite (den_row _ _ w k i (fun c => lgamma (gv c + 1)) E5).
  2:{ intros c Hc. cbn. unfold gv. now rewrite Rmult_1_r. }
  unfold multinomial_lp, log_combination. rewrite dot_seq by now rewrite normalized_length, vrow_length.
  replace (map (fun a => lgamma (a + 1)) (vrow given k i)) with (map (fun c => lgamma (gv c + 1)) (seq 0 k))
    by (unfold vrow; now rewrite map_map).
  change (map gv (seq 0 k)) with (vrow given k i). f_equal. f_equal. cbn [den]. f_equal. f_equal.
  unfold n. destruct n_experiments; [reflexivity|].
  rewrite (den_row _ _ w k i gv E1); [reflexivity|]. intros c Hc. cbn. unfold gv. ring.
Qed.
Print Assumptions C11_multinomial_log_prob.

Theorem C11_dirichlet_log_prob lgamma given alpha k :
  computes_rows (eval (p_dirichlet lgamma (Leaf given) (Leaf alpha))) (dirichlet_lp lgamma) given alpha k.
Proof.
  apply rows_intro. intros w B.
  assert (E2 : eshape (bcast (Leaf alpha) (Leaf given)) = Some (w ++ [k])) by pair_tac B.
  assert (E3 : eshape ((bcast (Leaf alpha) (Leaf given) ⊖ Const 1) ⊗ Un ln (bcast (Leaf given) (Leaf alpha)))
               = Some (w ++ [k])) by pair_tac B.
  unfold p_dirichlet. split.
  { apply eshape_bin_same; [|eapply eshape_row; exact E3].
    change (eshape (Row (lbeta lgamma) (bcast (Leaf alpha) (Leaf given))) = Some w). eapply eshape_row; exact E2. }
  intros i Vi. cbn [den].
  fold (den (Row (lbeta lgamma) (bcast (Leaf alpha) (Leaf given))) i).
  change (- den (Row (lbeta lgamma) (bcast (Leaf alpha) (Leaf given))) i +
          den (Row sumR ((bcast (Leaf alpha) (Leaf given) ⊖ Const 1) ⊗ Un ln (bcast (Leaf given) (Leaf alpha)))) i
          = dirichlet_lp lgamma (vrow given k i) (vrow alpha k i)).
  rewrite (den_row _ _ w k i (fun c => view alpha (i ++ [c])) E2) by (intros; cbn; ring).
  rewrite (den_row _ _ w k i (fun c => (view alpha (i ++ [c]) - 1) * ln (view given (i ++ [c]))) E3)
    by (intros; cbn; now rewrite !Rmult_1_r).
  unfold dirichlet_lp, vrow. rewrite combine_map2, map_map. reflexivity.
Qed.
Print Assumptions C11_dirichlet_log_prob.

Theorem C11_exp_concrete_log_prob lgamma given temperature logits k :
  t_shape temperature = [] ->
  computes_rows (eval (p_exp_concrete lgamma (INR k) (Leaf given) (Leaf temperature) (Leaf logits)))
    (fun g l => exp_concrete_lp lgamma g (t_at temperature []) l) given logits k.
Proof.
  intros St. apply rows_intro. intros w B.
  assert (Vt : forall i, view temperature i = t_at temperature [])
    by (intros i; unfold view; rewrite St; reflexivity).
  set (temp := Leaf logits ⊖ Leaf temperature ⊗ Leaf given).
  assert (E : eshape temp = Some (w ++ [k])).
  { unfold temp. eapply eshape_pair; [cbn; tauto|exact B|]. intros s Hs. cbn. rewrite St. intuition (subst; auto; congruence). }
  unfold p_exp_concrete. fold temp. split.
  { apply eshape_bin_same; [apply eshape_bin_scalar_l|apply eshape_bin_scalar_l; [reflexivity|]];
      try (eapply eshape_row; exact E). cbn. rewrite St. reflexivity. }
  intros i Vi.
  change (lgamma (INR k) + (INR k - 1) * ln (view temperature i) + den (Row sumR temp) i
          - INR k * den (Row logsumexp temp) i
          = exp_concrete_lp lgamma (vrow given k i) (t_at temperature []) (vrow logits k i)).
  rewrite !(fun f => den_row f _ w k i (fun c => view logits (i ++ [c]) - t_at temperature [] * view given (i ++ [c])) E)
    by (intros; cbn; now rewrite Vt).
  unfold exp_concrete_lp. rewrite vrow_length, Vt. unfold vrow. rewrite combine_map2, map_map. reflexivity.
Qed.
Print Assumptions C11_exp_concrete_log_prob.

Theorem C11_concrete_log_prob lgamma given temperature logits k :
  t_shape temperature = [] ->
  computes_rows (eval (p_concrete lgamma (INR k) (Leaf given) (Leaf temperature) (Leaf logits)))
    (fun g l => concrete_lp lgamma g (t_at temperature []) l) given logits k.
Proof.
  intros St. apply rows_intro. intros w B.
  assert (Vt : forall i, view temperature i = t_at temperature [])
    by (intros i; unfold view; rewrite St; reflexivity).
  set (temp := Leaf logits ⊖ Leaf temperature ⊗ Un ln (Leaf given)).
  assert (E : eshape temp = Some (w ++ [k])).
  { unfold temp. eapply eshape_pair; [cbn; tauto|exact B|]. intros s Hs. cbn. rewrite St. intuition (subst; auto; congruence). }
  assert (E' : eshape (temp ⊖ Un ln (Leaf given)) = Some (w ++ [k])).
  { unfold temp. eapply eshape_pair; [cbn; tauto|exact B|]. intros s Hs. cbn. rewrite St. intuition (subst; auto; congruence). }
  unfold p_concrete. fold temp. split.
  { apply eshape_bin_same; [apply eshape_bin_scalar_l|apply eshape_bin_scalar_l; [reflexivity|]];
      try (eapply eshape_row; first [exact E|exact E']). cbn. rewrite St. reflexivity. }
  intros i Vi.
  change (lgamma (INR k) + (INR k - 1) * ln (view temperature i) + den (Row sumR (temp ⊖ Un ln (Leaf given))) i
          - INR k * den (Row logsumexp temp) i
          = concrete_lp lgamma (vrow given k i) (t_at temperature []) (vrow logits k i)).
  rewrite (den_row _ _ w k i (fun c => view logits (i ++ [c]) - t_at temperature [] * ln (view given (i ++ [c]))) E)
    by (intros; cbn; now rewrite Vt).
  rewrite (den_row _ _ w k i (fun c => view logits (i ++ [c]) - t_at temperature [] * ln (view given (i ++ [c]))
                                       - ln (view given (i ++ [c]))) E')
    by (intros; cbn; now rewrite Vt).
  unfold concrete_lp. rewrite vrow_length, Vt. unfold vrow.
  rewrite !combine_map2, !map_map, combine_map2, map_map. reflexivity.
Qed.
Print Assumptions C11_concrete_log_prob.

(** The value-shape axis is removed first, then group_ndims batch axes. *)
Theorem C11_rows_documented_shape prog f (given a : tensor R) k batch pre g :
  computes_rows (eval prog) f given a k -> t_shape a = batch ++ [k] ->
  t_shape given = pre ++ batch ++ [k] -> (g <= length batch)%nat ->
  exists r, log_prob g prog = Some r /\ t_shape r = pre ++ firstn (length batch - g) batch.
Proof.
  intros C Sa S L. destruct (C (pre ++ batch)) as [t [E [St _]]].
  { rewrite Sa, S, <- app_assoc. split; [|split].
    - intros s [<-|[<-|[]]]; rewrite !app_length; simpl; lia.
    - right. exists (pre ++ batch ++ [k]). simpl; auto.
    - intros j. split; [|right; exists (pre ++ batch ++ [k]); simpl; auto].
      intros s [<-|[<-|[]]]; auto. unfold dim. rewrite (rev_app_distr pre).
      destruct (Nat.lt_ge_cases j (length (rev (batch ++ [k])))) as [H|H].
      + right. rewrite app_nth1; auto.
      + left. now apply nth_overflow. }
  destruct (log_prob_group prog t g E) as [r [Er [Sr _]]].
  { rewrite St, app_length. lia. }
  exists r. split; [assumption|]. rewrite Sr, St, app_length, firstn_app.
  replace (length pre + length batch - g - length pre)%nat with (length batch - g)%nat by lia.
  f_equal. apply firstn_all2. lia.
Qed.
Print Assumptions C11_rows_documented_shape.

(** ** Samplers *)
Lemma eshape_noise (e : expr R) (logits z : tensor R) n batch k : t_shape logits = batch ++ [k] ->
  t_shape z = n :: batch ++ [k] -> flat e ->
  (forall s, s <> [] -> In s (leaves e) <-> In s [t_shape z; t_shape logits]) ->
  eshape e = Some ((n :: batch) ++ [k]).
Proof.
  intros Sl Sz Fl H. apply (eshape_pair e z logits); auto. rewrite Sl, Sz.
  apply (broadcast_all_cons n (batch ++ [k])). apply broadcast_all_one.
Qed.
Lemma view_noise (t : tensor R) batch k s n (b : index) c : t_shape t = batch ++ [k] ->
  valid (n :: batch) (s :: b) -> (c < k)%nat -> view t ((s :: b) ++ [c]) = t_at t (b ++ [c]).
Proof.
  intros St V Hc. apply valid_cons in V. destruct V as [_ V].
  assert (V2 : valid (t_shape t) (b ++ [c])) by (rewrite St; apply valid_snoc; auto).
  rewrite <- (view_self t (b ++ [c]) V2). simpl app. apply (view_cons t (t_shape t)); [apply fits_refl|apply V2].
Qed.
Lemma row_map (t : tensor R) batch k i : t_shape t = batch ++ [k] ->
  row t i = map (fun c => t_at t (i ++ [c])) (seq 0 k).
Proof. intros St. unfold row. now rewrite St, last_last. Qed.

Lemma concrete_like (soft : list R -> list R) noise temperature logits batch k :
  (forall n, t_shape (noise n) = n :: batch ++ [k]) -> t_shape logits = batch ++ [k] ->
  t_shape temperature = [] ->
  sample_contract (fun n => eval (RowMap (fun r c => nth c (soft r) 0)
      ((Leaf logits ⊕ Un gumbel (Leaf (noise n))) ⊘ Leaf temperature))) (batch ++ [k])
    (fun n s i v => forall b c, i = b ++ [c] ->
       v = nth c (soft (concrete_noisy (row (noise n) (s :: b)) (t_at temperature []) (row logits b))) 0).
Proof.
  intros Sn Sl St. apply sample_contract_intro. intros n.
  set (e := (Leaf logits ⊕ Un gumbel (Leaf (noise n))) ⊘ Leaf temperature).
  assert (E : eshape e = Some ((n :: batch) ++ [k])).
  { apply (eshape_noise e logits (noise n)); auto; unfold e; [cbn; tauto|].
    intros s0 Hs0. cbn. rewrite St. intuition (subst; auto; congruence). }
  destruct (eval_of_eshape _ _ (eshape_rowmap (fun r c => nth c (soft r) 0) e _ _ E)) as [t [Ev [S V]]].
  exists t. split; [assumption|]. split; [rewrite S; reflexivity|]. intros s i Hs Vi b c ->.
  destruct (valid_snoc_inv _ _ _ Vi) as [b' [c' [Eq [Vb Hc]]]]. apply app_inj_tail in Eq. destruct Eq as [<- <-].
  assert (Vsb : valid (n :: batch) (s :: b)) by (apply valid_cons; auto).
  change (s :: b ++ [c]) with ((s :: b) ++ [c]). rewrite V by (apply valid_snoc; auto).
  rewrite (den_rowmap _ e (n :: batch) k (s :: b) c
    (fun c => (t_at logits (b ++ [c]) + gumbel (t_at (noise n) ((s :: b) ++ [c]))) / t_at temperature []) E Hc).
  - f_equal. f_equal. unfold concrete_noisy.
    rewrite (row_map (noise n) (n :: batch) k) by (rewrite Sn; reflexivity).
    rewrite (row_map logits batch k) by assumption. rewrite combine_map2, map_map. reflexivity.
  - intros c0 Hc0. unfold e. cbn [den].
    rewrite (view_noise logits batch k s n) by auto.
    rewrite (view_self (noise n)) by (rewrite Sn; apply (valid_snoc (n :: batch)); auto).
    unfold view. rewrite St. reflexivity.
Qed.

Theorem C11_concrete_sample noise temperature logits batch k :
  (forall n, t_shape (noise n) = n :: batch ++ [k]) -> t_shape logits = batch ++ [k] ->
  t_shape temperature = [] ->
  sample_contract (fun n => eval (s_concrete (Leaf (noise n)) (Leaf temperature) (Leaf logits))) (batch ++ [k])
    (fun n s i v => forall b c, i = b ++ [c] ->
       v = nth c (concrete_sample (row (noise n) (s :: b)) (t_at temperature []) (row logits b)) 0).
Proof. apply (concrete_like softmax). Qed.
Print Assumptions C11_concrete_sample.
Theorem C11_exp_concrete_sample noise temperature logits batch k :
  (forall n, t_shape (noise n) = n :: batch ++ [k]) -> t_shape logits = batch ++ [k] ->
  t_shape temperature = [] ->
  sample_contract (fun n => eval (s_exp_concrete (Leaf (noise n)) (Leaf temperature) (Leaf logits))) (batch ++ [k])
    (fun n s i v => forall b c, i = b ++ [c] ->
       v = nth c (exp_concrete_sample (row (noise n) (s :: b)) (t_at temperature []) (row logits b)) 0).
Proof. apply (concrete_like log_softmax). Qed.
Print Assumptions C11_exp_concrete_sample.

Theorem C11_dirichlet_sample draw noise alpha batch k :
  (forall n, t_shape (noise n) = n :: batch ++ [k]) -> t_shape alpha = batch ++ [k] ->
  sample_contract (fun n => eval (s_dirichlet draw (Leaf (noise n)) (Leaf alpha))) (batch ++ [k])
    (fun n s i v => forall b c, i = b ++ [c] ->
       v = nth c (dirichlet_sample (map (fun p => draw (fst p) (snd p))
                    (combine (row (noise n) (s :: b)) (row alpha b)))) 0).
Proof.
  intros Sn Sl. apply sample_contract_intro. intros n.
  set (e := Bin draw (Leaf (noise n)) (Leaf alpha)).
  assert (E : eshape e = Some ((n :: batch) ++ [k])).
  { apply (eshape_noise e alpha (noise n)); auto; unfold e; [cbn; tauto|].
    intros s0 Hs0. cbn. intuition (subst; auto; congruence). }
  assert (E2 : eshape (s_dirichlet draw (Leaf (noise n)) (Leaf alpha)) = Some ((n :: batch) ++ [k])).
  { unfold s_dirichlet. fold e. eapply eshape_bin; [exact E|eapply eshape_rowkeep; exact E|apply bshape_snoc1]. }
  destruct (eval_of_eshape _ _ E2) as [t [Ev [S V]]].
  exists t. split; [assumption|]. split; [rewrite S; reflexivity|]. intros s i Hs Vi b c ->.
  destruct (valid_snoc_inv _ _ _ Vi) as [b' [c' [Eq [Vb Hc]]]]. apply app_inj_tail in Eq. destruct Eq as [<- <-].
  assert (Vsb : valid (n :: batch) (s :: b)) by (apply valid_cons; auto).
  change (s :: b ++ [c]) with ((s :: b) ++ [c]). rewrite V by (apply valid_snoc; auto).
  set (g := fun c => draw (t_at (noise n) ((s :: b) ++ [c])) (t_at alpha (b ++ [c]))).
  assert (D : forall c, (c < k)%nat -> den e ((s :: b) ++ [c]) = g c).
  { intros c0 Hc0. unfold e, g. cbn [den].
    rewrite (view_noise alpha batch k s n) by auto.
    rewrite (view_self (noise n)) by (rewrite Sn; apply (valid_snoc (n :: batch)); auto). reflexivity. }
  unfold s_dirichlet. fold e.
  change (den e ((s :: b) ++ [c]) / den (RowKeep sumR e) ((s :: b) ++ [c]) =
    nth c (dirichlet_sample (map (fun p => draw (fst p) (snd p)) (combine (row (noise n) (s :: b)) (row alpha b)))) 0).
  rewrite (den_rowkeep sumR e _ _ _ _ g E D), D by assumption.
  rewrite (row_map (noise n) (n :: batch) k) by (rewrite Sn; reflexivity).
  rewrite (row_map alpha batch k) by assumption. rewrite combine_map2, map_map. cbn [fst snd]. fold g.
  unfold dirichlet_sample. rewrite map_map.
  rewrite (nth_indep _ 0 (g 0%nat / sumR (map g (seq 0 k)))) by (rewrite map_length, seq_length; assumption).
  rewrite (map_nth (fun c => g c / sumR (map g (seq 0 k)))), seq_nth by assumption. reflexivity.
Qed.
Print Assumptions C11_dirichlet_sample.

(** ** OnehotCategorical.log_prob, through the flattening to [-1, n_categories]. *)
Lemma eval_onehot_row (g l : tensor R) w k : t_shape g = w ++ [k] -> t_shape l = w ++ [k] ->
  exists t, eval (p_onehot_row (Leaf g) (Leaf l)) = Some t /\ t_shape t = w /\
    forall i, valid w i -> t_at t i = onehot_lp (row g i) (row l i).
Proof.
  intros Sg Sl.
  assert (E1 : eshape (Leaf l) = Some (w ++ [k])) by (cbn; now rewrite Sl).
  set (ls := fun (r : list R) (c : nat) => nth c (log_softmax r) 0).
  assert (E2 : eshape (Leaf g ⊗ RowMap ls (Leaf l)) = Some (w ++ [k])).
  { apply eshape_bin_same; [cbn; now rewrite Sg|]. eapply eshape_rowmap; exact E1. }
  assert (E3 := eshape_row sumR _ _ _ E2).
  destruct (eval_of_eshape (p_onehot_row (Leaf g) (Leaf l)) w) as [t [Ev [S V]]]; [exact E3|].
  exists t. split; [assumption|]. split; [assumption|]. intros i Vi. rewrite V by assumption.
  change (- - den (Row sumR (Leaf g ⊗ RowMap ls (Leaf l))) i = onehot_lp (row g i) (row l i)).
  assert (Vl : forall c, (c < k)%nat -> den (Leaf l) (i ++ [c]) = t_at l (i ++ [c])).
  { intros c Hc. cbn. apply view_self. rewrite Sl. now apply valid_snoc. }
  rewrite (den_row _ _ w k i (fun c => t_at g (i ++ [c]) * nth c (log_softmax (row l i)) 0) E2).
  - unfold onehot_lp. fold (log_softmax (row l i)). f_equal. f_equal. rewrite dot_seq.
    + rewrite (row_map g w k) by assumption. reflexivity.
    + unfold log_softmax. rewrite map_length, (row_map l w k) by assumption. now rewrite map_length, seq_length.
  - intros c Hc.
    change (view g (i ++ [c]) * den (RowMap ls (Leaf l)) (i ++ [c]) = t_at g (i ++ [c]) * nth c (log_softmax (row l i)) 0).
    rewrite view_self by (rewrite Sg; now apply valid_snoc).
    rewrite (den_rowmap ls (Leaf l) w k i c (fun c => t_at l (i ++ [c])) E1 Hc Vl).
    unfold ls. rewrite (row_map l w k) by assumption. reflexivity.
Qed.

Theorem C11_onehot_log_prob rank2_known given logits batch k :
  t_shape logits = batch ++ [k] -> (0 < k)%nat ->
  computes_rows (onehot_log_prob rank2_known given logits) onehot_lp given logits k.
Proof.
  intros Sl Hk w B. unfold onehot_log_prob.
  assert (E1 : eshape (bcast (Leaf given) (Leaf logits)) = Some (w ++ [k])) by pair_tac B.
  assert (E2 : eshape (bcast (Leaf logits) (Leaf given)) = Some (w ++ [k])) by pair_tac B.
  destruct (eval_of_eshape _ _ E1) as [g [Eg [Sg Vg]]]. destruct (eval_of_eshape _ _ E2) as [l [El [Sl' Vl]]].
  rewrite Eg, El. cbn [obind]. rewrite Sl, last_last.
  assert (Row2 : forall i lx la, valid w i -> shown_row given k i lx -> shown_row logits k i la ->
                 row g i = lx /\ row l i = la).
  { intros i lx la Vi Rx Ra. pose proof (all_fits _ _ B) as F.
    assert (Lx : (length (t_shape given) <= S (length i))%nat).
    { assert (Fx : fits (t_shape given) (w ++ [k])) by (apply F; simpl; auto). apply fits_length in Fx.
      rewrite app_length in Fx. simpl in Fx. destruct Vi as [L _]. lia. }
    assert (La : (length (t_shape logits) <= S (length i))%nat).
    { assert (Fx : fits (t_shape logits) (w ++ [k])) by (apply F; simpl; auto). apply fits_length in Fx.
      rewrite app_length in Fx. simpl in Fx. destruct Vi as [L _]. lia. }
    rewrite (shown_row_view given k i lx Lx Rx), (shown_row_view logits k i la La Ra).
    rewrite (row_map g w k), (row_map l w k) by assumption. split; apply map_ext_in; intros c Hc; apply in_seq in Hc.
    - rewrite Vg by (apply valid_snoc; auto; lia). cbn. ring.
    - rewrite Vl by (apply valid_snoc; auto; lia). cbn. ring. }
  destruct rank2_known.
  - destruct (eval_onehot_row g l w k Sg Sl') as [t [Et [St Vt]]]. exists t. split; [assumption|]. split; [assumption|].
    intros i lx la Vi Rx Ra. rewrite Vt by assumption. destruct (Row2 i lx la Vi Rx Ra) as [-> ->]. reflexivity.
  - destruct (logits_flat_ok false g w k Sg Hk) as [gf [Egf [Sgf Rgf]]]; [discriminate|].
    destruct (logits_flat_ok false l w k Sl' Hk) as [lf [Elf [Slf Rlf]]]; [discriminate|].
    unfold logits_flat in Egf, Elf. rewrite Sg, last_last in Egf. rewrite Sl', last_last in Elf.
    rewrite Egf, Elf. cbn [obind].
    destruct (eval_onehot_row gf lf [size w] k Sgf Slf) as [t [Et [St Vt]]]. rewrite Et. cbn [obind].
    rewrite Sl', removelast_last, reshape_ok by (rewrite St; simpl; lia).
    eexists. split; [reflexivity|]. split; [reflexivity|]. intros i lx la Vi Rx Ra.
    cbn [t_at]. rewrite St.
    change (unravel [size w] (ravel w i)) with [(ravel w i / 1)%nat]. rewrite Nat.div_1_r.
    rewrite Vt by (apply valid_Forall2; constructor; [now apply ravel_lt|constructor]).
    rewrite Rgf, Rlf by assumption. destruct (Row2 i lx la Vi Rx Ra) as [-> ->]. reflexivity.
Qed.
Print Assumptions C11_onehot_log_prob.

(** ** Categorical.log_prob: integer labels against rows of logits. *)
Theorem C11_categorical_log_prob nan known_same given logits batch k w :
  t_shape logits = batch ++ [k] -> (known_same = true -> t_shape given = batch) ->
  broadcast_all [t_shape given; batch] w ->
  exists t, categorical_log_prob nan known_same given logits = Some t /\ t_shape t = w /\
    forall i x l, valid w i -> shown given i x -> (x < k)%nat -> shown_row logits k i l ->
      t_at t i = nth x l 0 - logsumexp l.
Proof.
  intros Sl K B. pose proof (all_fits _ _ B) as F.
  assert (Fg : fits (t_shape given) w) by (apply F; simpl; auto).
  assert (Fb : fits batch w) by (apply F; simpl; auto).
  assert (Xent : forall (g : tensor nat) (l : tensor R), t_shape g = w -> t_shape l = w ++ [k] ->
    (forall i, valid w i -> t_at g i = view given i) ->
    (forall i c, valid w i -> (c < k)%nat -> t_at l (i ++ [c]) = view logits (i ++ [c])) ->
    exists t, sparse_xent nan g l = Some t /\ t_shape t = w /\
      forall i x l, valid w i -> shown given i x -> (x < k)%nat -> shown_row logits k i l ->
        t_at t i = nth x l 0 - logsumexp l).
  { intros g l Sg Sl' Hg Hl. unfold sparse_xent. rewrite Sl'.
    destruct (w ++ [k]) eqn:W; [destruct w; discriminate|]. rewrite <- W, removelast_last, Sg.
    destruct (list_eq_dec Nat.eq_dec w w) as [_|N]; [|congruence].
    eexists. split; [reflexivity|]. split; [reflexivity|]. intros i x ll Vi Sx Hx Rl. cbn [t_at].
    assert (Li : length i = length w) by apply Vi.
    apply view_shown in Sx; [|rewrite Li; now apply fits_length]. rewrite Hg, <- Sx by assumption.
    assert (row l i = ll).
    { rewrite (row_map l w k) by congruence. rewrite (shown_row_view logits k i ll); auto.
      - apply map_ext_in. intros c Hc. apply in_seq in Hc. apply Hl; auto. lia.
      - rewrite Sl, app_length, Li. simpl. apply fits_length in Fb. lia. }
    subst ll. unfold categorical_lp. destruct Rl as [Ll _].
    rewrite (nth_error_nth' _ 0) by lia. ring. }
  unfold categorical_log_prob. destruct known_same.
  - assert (t_shape given = batch) by auto.
    assert (batch = w) by (eapply broadcast_all_unique; [|exact B]; rewrite H;
      apply (broadcast_all_app [batch] [batch] batch batch); auto using broadcast_all_one; apply bshape_refl).
    apply Xent; try congruence.
    + intros i Vi. symmetry. apply view_self. congruence.
    + intros i c Vi Hc. symmetry. apply view_self. rewrite Sl. apply valid_snoc; congruence.
  - rewrite Sl, removelast_last. unfold elementwise at 1. cbn [t_shape].
    assert (Bs : bshape (t_shape given) batch = Some w).
    { destruct (fits_lub _ _ _ Fg Fb) as [u [Eu _]]. rewrite Eu. f_equal.
      eapply broadcast_all_unique; [|exact B].
      apply (broadcast_all_app [t_shape given] [batch] (t_shape given) batch); auto using broadcast_all_one. }
    rewrite Bs. cbn [obind]. unfold elementwise. cbn [t_shape].
    assert (Bl : bshape (t_shape logits) (w ++ [1%nat]) = Some (w ++ [k])).
    { rewrite Sl. apply bshape_some. split; [|split].
      - intros [|j]; rewrite !dim_snoc; auto. destruct (fits_dim _ _ j Fb); auto.
      - rewrite !app_length. simpl. apply fits_length in Fb. lia.
      - intros [|j]; rewrite !dim_snoc.
        + destruct (Nat.eqb_spec k 1); auto. 
        + destruct (fits_dim _ _ j Fb) as [-> | ->]; simpl; auto.
          destruct (Nat.eqb_spec (dim w j) 1); auto. }
    rewrite Bl. cbn [obind]. apply Xent; auto.
    + intros i Vi. cbn [t_at]. unfold view. lia.
    + intros i c Vi Hc. cbn [t_at]. unfold view. ring.
Qed.
Print Assumptions C11_categorical_log_prob.

(** ** Witnesses *)
Local Ltac pick_shape :=
  match goal with
  | |- exists s, In s (?a :: _) /\ _ => exists a; split; [simpl; auto|reflexivity]
  | |- exists s, In s (_ :: ?a :: _) /\ _ => exists a; split; [simpl; auto|reflexivity]
  end.
Local Ltac bcast_all_tac :=
  split; [intros s Hs; simpl in Hs; intuition (subst; simpl; lia)|];
  split; [right; pick_shape|];
  intros k; split;
  [intros s Hs; simpl in Hs;
   repeat (destruct Hs as [<-|Hs]; [do 5 (destruct k as [|k]; [unfold dim; simpl; auto|]); unfold dim; simpl; auto|]);
   contradiction|
   do 5 (destruct k as [|k]; [first [left; reflexivity|right; pick_shape]|]);
   left; unfold dim; simpl; destruct k; reflexivity].

(** Normal(mean of shape [2,1], std of shape [3]) has batch shape [2,3]. *)
Example ex_batch : broadcast_all [[2; 1]; [3]]%nat [2; 3]%nat.
Proof. bcast_all_tac. Qed.
Definition ex_mean := Tensor [2; 1]%nat (fun i => INR (hd 0%nat i)).
Definition ex_std := Tensor [3]%nat (fun i => INR (S (hd 0%nat i))).
Definition ex_given := Tensor [4; 2; 3]%nat (fun i => INR (list_sum i)).
Example ex_normal_shape : exists r,
  log_prob 1 (p_normal (Leaf ex_given) (Leaf ex_mean) (Leaf ex_std)) = Some r /\ t_shape r = [4; 2]%nat.
Proof.
  destruct (C11_log_prob_documented_shape _ _ _ _ _ [2; 3]%nat [4]%nat 1%nat
    (C11_normal_log_prob ex_given ex_mean ex_std) ex_batch eq_refl) as [r [E S]]; [simpl; lia|].
  exists r. split; [exact E|]. exact S.
Qed.
Example ex_normal_sample : exists t,
  sample (fun n => eval (s_normal (Leaf (Tensor [n; 2; 3]%nat (fun i => INR (list_sum i)))) (Leaf ex_mean) (Leaf ex_std)))
    (Some 7%nat) = Some t /\ t_shape t = [7; 2; 3]%nat /\ t_at t [6; 1; 2]%nat = 9 * 3 + 1.
Proof.
  destruct (C11_normal_sample (fun n => Tensor [n; 2; 3]%nat (fun i => INR (list_sum i))) ex_mean ex_std [2; 3]%nat
    (fun n => eq_refl) ex_batch) as [H _].
  destruct (H 7%nat) as [t [E [S V]]]. exists t. split; [exact E|]. split; [exact S|].
  rewrite (V 6%nat [1; 2]%nat) with (m := 1) (sd := 3); try lia.
  - unfold normal_sample. simpl. ring.
  - apply valid_Forall2. repeat constructor.
  - apply view_shown; simpl; auto.
  - apply view_shown; simpl; auto. unfold view; simpl. ring.
Qed.
Example ex_rows : exists r,
  log_prob 0 (p_dirichlet (fun x => x) (Leaf ex_given) (Leaf (Tensor [2; 3]%nat (fun _ => 1)))) = Some r /\
  t_shape r = [4; 2]%nat.
Proof.
  destruct (C11_rows_documented_shape _ _ _ _ _ [2]%nat [4]%nat 0%nat
    (C11_dirichlet_log_prob (fun x => x) ex_given (Tensor [2; 3]%nat (fun _ => 1)) 3) eq_refl eq_refl) as [r [E S]].
  - simpl; lia.
  - exists r. split; [exact E|exact S].
Qed.
Example ex_categorical : exists t,
  categorical_log_prob 0 false (Tensor [5; 1]%nat (fun i => 2%nat)) (Tensor [4; 3]%nat (fun i => INR (last i 0%nat))) = Some t
  /\ t_shape t = [5; 4]%nat /\ t_at t [1; 1]%nat = 2 - logsumexp [0; 1; 2].
Proof.
  destruct (C11_categorical_log_prob 0 false (Tensor [5; 1]%nat (fun i => 2%nat))
    (Tensor [4; 3]%nat (fun i => INR (last i 0%nat))) [4]%nat 3 [5; 4]%nat) as [t [E [S V]]]; auto; try discriminate.
  - bcast_all_tac.
  - exists t. split; [exact E|]. split; [exact S|]. rewrite (V [1; 1]%nat 2%nat [0; 1; 2]); try lia; auto.
    + apply valid_Forall2. repeat constructor.
    + apply view_shown; simpl; auto.
    + split; [reflexivity|]. intros c d Hc.
      apply view_shown; [simpl; lia|]. unfold view. do 3 (destruct c as [|c]; [simpl; try ring; reflexivity|]). lia.
Qed.
