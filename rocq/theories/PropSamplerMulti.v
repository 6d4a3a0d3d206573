(** C17 for the samplers built on tf.random.categorical. Each cell of its result is
    an independent draw [k] with probability [softmax_law row k] (trusted base); the
    samples the code computes from the cells then have the law that log_prob
    reports. [noise w] is the whole array of random cells when the cells read by the
    draw under test answer [w]; the cells of distinct draws, batch entries and
    experiments are distinct, hence independent. *)
From Coq Require Import List Reals Arith Lia Lra Bool.
From Verif Require Import ModelShape SpecShape ProofShape ModelTensor SpecTensor ProofTensor ModelDist ProofDist
  SpecDist ProofDiscrete PropDiscrete PropTensor SpecLaw ProofLaw.
Import ListNotations.
Local Open Scope R_scope.

Lemma total_exp_pos l : l <> [] -> 0 < total exp l.
Proof.
  destruct l as [|a l]; [congruence|]. intros _. simpl. pose proof (exp_pos a).
  assert (0 <= total exp l); [|lra]. clear. induction l; simpl; [lra|]. pose proof (exp_pos a). lra.
Qed.
Lemma exp_logsumexp l : l <> [] -> exp (logsumexp l) = total exp l.
Proof. intros N. rewrite exp_lse by assumption. rewrite total_sumR. reflexivity. Qed.
Lemma softmax_law_nth b l k : l <> [] -> b = true \/ total exp l = 1 -> (k < length l)%nat ->
  softmax_law l k = nth k (map exp (normalized b l)) 0.
Proof.
  intros N B K. unfold softmax_law. destruct b; cbn [normalized].
  - rewrite map_map. rewrite (nth_indep (map (fun x => exp (x - logsumexp l)) l) 0 (exp (0 - logsumexp l))) by (now rewrite map_length).
    rewrite (map_nth (fun x => exp (x - logsumexp l))), exp_minus, exp_logsumexp by assumption. reflexivity.
  - destruct B as [B|B]; [discriminate|]. rewrite B. rewrite (nth_indep (map exp l) 0 (exp 0)) by (now rewrite map_length).
    rewrite map_nth. field.
Qed.
Lemma row_length {A} (t : tensor A) i batch k : t_shape t = batch ++ [k] -> length (row t i) = k.
Proof. intros S. unfold row. rewrite map_length, seq_length, S, last_last. reflexivity. Qed.
Lemma row_nonempty {A} (t : tensor A) i batch k : t_shape t = batch ++ [k] -> (0 < k)%nat -> row t i <> [].
Proof. intros S K E. apply (f_equal (@length A)) in E. rewrite (row_length _ _ _ _ S) in E. simpl in E. lia. Qed.

(** ** Multinomial *)
Theorem C17_multinomial {U} lgamma (pick : list R -> U -> nat) normalize n_experiments known logits batch k n_exp :
  lgamma_factorial lgamma ->
  t_shape logits = batch ++ [k] -> (0 < k)%nat -> (known = true -> length batch = 1%nat) ->
  n_experiments = None \/ n_experiments = Some (INR n_exp) ->
  exists cell col, distinct_cells batch cell /\
  (forall n s e s' e', (e < n_exp)%nat -> (e' < n_exp)%nat -> col n s e = col n s' e' -> s = s' /\ e = e') /\
  forall n s b cs (noise : list nat -> nat -> nat -> U), (s < n)%nat -> valid batch b -> counts k n_exp cs ->
    normalize = true \/ total exp (row logits b) = 1 ->
    (forall w, In w (words k n_exp) -> answers pick (row logits b) (fun e => noise w (cell b) (col n s e)) n_exp w) ->
    chance k n_exp (softmax_law (row logits b))
      (fun w => match multinomial_sample pick (noise w) known logits n_exp n with
                | Some t => nats_eqb (row t (s :: b)) cs
                | None => false
                end)
    = exp (multinomial_lp lgamma normalize n_experiments (map INR cs) (row logits b)).
Proof.
  intros LG S Hk K NE. exists (ravel batch), (fun n s e => s * n_exp + e)%nat.
  split; [intros i j; apply ravel_inj|]. split.
  { intros n s e s' e' H1 H2 H3. assert (s = s') by nia. subst. lia. }
  intros n s b cs noise Hs V [Lc Sc] B AN. subst n_exp.
  pose proof (row_length logits b batch k S) as Lr. pose proof (row_nonempty logits b batch k S Hk) as Nr.
  rewrite multinomial_n by assumption.
  rewrite exp_plus, log_combination_arrangements by assumption.
  assert (Ln : length (normalized normalize (row logits b)) = k) by (destruct normalize; cbn [normalized]; rewrite ?map_length; assumption).
  rewrite exp_dot by congruence.
  set (ps := map exp (normalized normalize (row logits b))).
  assert (Lp : length ps = k) by (unfold ps; now rewrite map_length).
  rewrite <- (chance_counts ps (list_sum cs) cs) by congruence. rewrite Lp.
  rewrite (chance_law _ _ _ (fun j => nth j ps 0)) by (intros j J; apply softmax_law_nth; [assumption|assumption|congruence]).
  apply chance_ext. intros w W.
  destruct (multinomial_ok pick (noise w) known logits batch k (list_sum cs) n S Hk K) as [t [E [St R]]].
  rewrite E. f_equal. apply list_nth_eq.
  - rewrite tally_length. now rewrite (row_length t (s :: b) (n :: batch) k St).
  - intros c Hc. rewrite (row_length t (s :: b) (n :: batch) k St) in Hc. rewrite tally_nth by assumption.
    unfold row. rewrite St, app_comm_cons, last_last.
    rewrite (nth_indep _ 0%nat (t_at t ((s :: b) ++ [0%nat]))) by (now rewrite map_length, seq_length).
    rewrite (map_nth (fun c => t_at t ((s :: b) ++ [c]))), seq_nth by assumption. cbn [plus app].
    rewrite R by assumption.
    rewrite <- (count_filter (fun e => pick (row logits b) (noise w (ravel batch b) (s * list_sum cs + e)%nat)) c (list_sum cs) w).
    + generalize (seq 0 (list_sum cs)). intros l. induction l as [|a l IH]; [reflexivity|].
      cbn [map filter]. change (list_sum (?x :: ?y)) with (x + list_sum y)%nat. rewrite IH.
      destruct (Nat.eqb _ c); reflexivity.
    + now apply (words_length k).
    + intros e He. now apply AN.
Qed.
Print Assumptions C17_multinomial.

(** ** Binomial: the code draws from the pair of logits [-softplus l; l - softplus l]. *)
Theorem C17_binomial {U} lgamma (pick : list R -> U -> nat) known logits n_exp :
  lgamma_factorial lgamma -> (known = true -> length (t_shape logits) = 1%nat) ->
  exists cell col, distinct_cells (t_shape logits) cell /\
  (forall n s e s' e', (s < n)%nat -> (s' < n)%nat -> col n s e = col n s' e' -> s = s' /\ e = e') /\
  forall n s b x (noise : list nat -> nat -> nat -> U), (s < n)%nat -> valid (t_shape logits) b -> (x <= n_exp)%nat ->
    let l := t_at logits b in
    (forall w, In w (words 2 n_exp) -> answers pick (binomial_pair l) (fun e => noise w (cell b) (col n s e)) n_exp w) ->
    chance 2 n_exp (softmax_law (binomial_pair l))
      (fun w => match binomial_sample pick (noise w) binomial_pair known logits n_exp n with
                | Some t => Nat.eqb (t_at t (s :: b)) x
                | None => false
                end)
    = exp (binomial_lp lgamma (INR x) l (INR n_exp)).
Proof.
  intros LG K. exists (ravel (t_shape logits)), (fun n s e => e * n + s)%nat.
  split; [intros i j; apply ravel_inj|]. split.
  { intros n s e s' e' H1 H2 H3. assert (e = e') by nia. subst. lia. }
  intros n s b x noise Hs V X l AN. rewrite binomial_mass by assumption.
  set (ps := [1 / (1 + exp l); exp l / (1 + exp l)]).
  pose proof (exp_pos l) as EP.
  assert (T : total exp (binomial_pair l) = 1).
  { simpl. rewrite exp_plus, exp_Ropp, exp_softplus. field. lra. }
  rewrite (chance_law _ _ _ (fun j => nth j ps 0)).
  2: { intros j J. unfold softmax_law. rewrite T. destruct j as [|[|j]]; [| |lia]; simpl.
       - rewrite exp_Ropp, exp_softplus. field. lra.
       - rewrite exp_plus, exp_Ropp, exp_softplus. field. lra. }
  rewrite (chance_ext _ _ _ _ (fun w => nats_eqb (tally 2 w) [n_exp - x; x]%nat)).
  - pose proof (chance_counts ps n_exp [n_exp - x; x]%nat eq_refl ltac:(simpl; lia)) as C. cbn [length ps] in C. rewrite C.
    unfold ps. cbn [powprod].
    pose proof (arrangements_fact [n_exp - x; x]%nat) as AF. cbn [map fold_right] in AF.
    assert (list_sum [n_exp - x; x] = n_exp)%nat as SE by (simpl; lia). rewrite SE in AF.
    apply (f_equal INR) in AF. rewrite !mult_INR in AF.
    pose proof (fact_pos x). pose proof (fact_pos (n_exp - x)).
    assert (A : INR (arrangements [n_exp - x; x]%nat) = Binomial.C n_exp x).
    { unfold Binomial.C. rewrite <- AF. simpl INR. field. lra. }
    rewrite A. unfold Rdiv. rewrite !Rpow_mult_distr, pow1, pow_inv, pow_inv.
    replace ((1 + exp l) ^ n_exp) with ((1 + exp l) ^ (n_exp - x) * (1 + exp l) ^ x) by (rewrite <- pow_add; f_equal; lia).
    field. split; apply pow_nonzero; lra.
  - intros w W.
    destruct (binomial_ok pick (noise w) binomial_pair known logits n_exp n (fun _ => eq_refl) K) as [t [E [St R]]].
    rewrite E, R by assumption.
    assert (SW : list_sum (map (fun e => pick (binomial_pair (t_at logits b)) (noise w (ravel (t_shape logits) b) (e * n + s)%nat)) (seq 0 n_exp)) = list_sum w).
    { f_equal. assert (Lw := words_length 2 n_exp w W). apply list_nth_eq; [now rewrite map_length, seq_length|].
      intros e He. rewrite map_length, seq_length in He.
      rewrite (nth_indep _ 0%nat (pick (binomial_pair (t_at logits b)) (noise w (ravel (t_shape logits) b) (0 * n + s)%nat))) by (now rewrite map_length, seq_length).
      rewrite (map_nth (fun e => pick (binomial_pair (t_at logits b)) (noise w (ravel (t_shape logits) b) (e * n + s)%nat))), seq_nth by assumption.
      now apply AN. }
    rewrite SW. assert (B : forall j, In j w -> (j < 2)%nat) by (intros; eapply words_below; eassumption).
    rewrite sum_ones by assumption. pose proof (zeros_ones w B) as Z. rewrite (words_length 2 n_exp w W) in Z.
    unfold nats_eqb, tally. cbn [seq map].
    destruct (Nat.eqb_spec (count_occ Nat.eq_dec w 1%nat) x) as [Q|Q]; destruct (list_eq_dec _ _ _) as [P|P]; try reflexivity.
    + destruct P. subst x. f_equal. lia.
    + injection P as _ P. congruence.
Qed.
Print Assumptions C17_binomial.

(** ** Categorical and OnehotCategorical: one cell per draw. *)
Lemma chance_one k p i : (i < k)%nat -> chance k 1 p (fun w => Nat.eqb (nth 0 w 0%nat) i) = p i.
Proof.
  intros H. rewrite chance_S. rewrite (total_ext _ (fun j => if Nat.eqb j i then p i else 0)).
  - assert (G : forall s, total (fun j => if Nat.eqb j i then p i else 0) (seq s k) =
                 if andb (Nat.leb s i) (Nat.ltb i (s + k)) then p i else 0).
    { clear. induction k as [|k IH]; intros s; cbn [seq total].
      - destruct (Nat.leb_spec s i), (Nat.ltb_spec i (s + 0)); simpl; try reflexivity. lia.
      - rewrite IH. destruct (Nat.eqb_spec s i), (Nat.leb_spec (S s) i), (Nat.leb_spec s i),
          (Nat.ltb_spec i (S s + k)), (Nat.ltb_spec i (s + S k)); simpl; try lia; try lra. }
    rewrite G. simpl. destruct (Nat.ltb_spec i k); [reflexivity|lia].
  - intros j _. unfold chance. simpl. destruct (Nat.eqb_spec j i) as [->|]; ring.
Qed.
Theorem C17_categorical {U} (pick : list R -> U -> nat) known logits batch k :
  t_shape logits = batch ++ [k] -> (0 < k)%nat -> (known = true -> length batch = 1%nat) ->
  exists cell, distinct_cells batch cell /\
  forall n s b c (noise : list nat -> nat -> nat -> U), (s < n)%nat -> valid batch b -> (c < k)%nat ->
    (forall w, In w (words k 1) -> answers pick (row logits b) (fun _ => noise w (cell b) s) 1 w) ->
    exists lp, categorical_lp c (row logits b) = Some lp /\
    chance k 1 (softmax_law (row logits b))
      (fun w => match categorical_sample pick (noise w) known logits n with
                | Some t => Nat.eqb (t_at t (s :: b)) c
                | None => false
                end)
    = exp lp.
Proof.
  intros S Hk K. exists (ravel batch). split; [intros i j; apply ravel_inj|].
  intros n s b c noise Hs V Hc AN.
  pose proof (row_length logits b batch k S) as Lr. pose proof (row_nonempty logits b batch k S Hk) as Nr.
  exists (nth c (row logits b) 0 - logsumexp (row logits b)). split.
  { unfold categorical_lp. rewrite (nth_error_nth' _ 0) by lia. reflexivity. }
  rewrite (chance_ext _ _ _ _ (fun w => Nat.eqb (nth 0 w 0%nat) c)).
  - rewrite chance_one by assumption. unfold softmax_law. rewrite exp_minus, exp_logsumexp by assumption. reflexivity.
  - intros w W. destruct (categorical_ok pick (noise w) known logits batch k n S Hk K) as [t [E [St R]]].
    rewrite E, R by assumption. rewrite (AN w W 0%nat) by lia. reflexivity.
Qed.
Print Assumptions C17_categorical.

Theorem C17_onehot {U} (pick : list R -> U -> nat) known logits batch k :
  t_shape logits = batch ++ [k] -> (0 < k)%nat -> (known = true -> length batch = 1%nat) ->
  exists cell, distinct_cells batch cell /\
  forall n s b c (noise : list nat -> nat -> nat -> U), (s < n)%nat -> valid batch b -> (c < k)%nat ->
    (forall w, In w (words k 1) -> answers pick (row logits b) (fun _ => noise w (cell b) s) 1 w) ->
    chance k 1 (softmax_law (row logits b))
      (fun w => match onehot_sample pick (noise w) 1%nat 0%nat known logits n with
                | Some t => nats_eqb (map (fun j => if Nat.eqb j c then 1 else 0)%nat (seq 0 k)) (row t (s :: b))
                | None => false
                end)
    = exp (onehot_lp (onehot k c) (row logits b)).
Proof.
  intros S Hk K. exists (ravel batch). split; [intros i j; apply ravel_inj|].
  intros n s b c noise Hs V Hc AN.
  pose proof (row_length logits b batch k S) as Lr. pose proof (row_nonempty logits b batch k S Hk) as Nr.
  replace (onehot k c) with (onehot (length (row logits b)) c) by (now rewrite Lr). rewrite onehot_lp_at by lia.
  rewrite (chance_ext _ _ _ _ (fun w => Nat.eqb (nth 0 w 0%nat) c)).
  - rewrite chance_one by assumption. unfold softmax_law. rewrite exp_minus, exp_logsumexp by assumption. reflexivity.
  - intros w W. destruct (onehot_ok pick (noise w) 1%nat 0%nat known logits batch k n S Hk K) as [t [E [St R]]].
    rewrite E. 
    assert (RW : row t (s :: b) = map (fun j => if Nat.eqb j (nth 0 w 0%nat) then 1 else 0)%nat (seq 0 k)).
    { unfold row. rewrite St, app_comm_cons, last_last. apply map_ext_in. intros j J. apply in_seq in J. cbn [app].
      rewrite R by (auto; lia). rewrite (AN w W 0%nat) by lia. now rewrite Nat.eqb_sym. }
    rewrite RW. unfold nats_eqb. destruct (Nat.eqb_spec (nth 0 w 0%nat) c) as [Q|Q]; destruct (list_eq_dec _ _ _) as [P|P]; try reflexivity.
    + destruct P. now rewrite Q.
    + apply (f_equal (fun l => nth c l 0%nat)) in P.
      assert (G : forall d, nth c (map (fun j => if Nat.eqb j d then 1 else 0)%nat (seq 0 k)) 0%nat = if Nat.eqb c d then 1%nat else 0%nat).
      { intros d. rewrite (nth_indep _ 0%nat (if Nat.eqb 0 d then 1 else 0)%nat) by (now rewrite map_length, seq_length).
        rewrite (map_nth (fun j => if Nat.eqb j d then 1 else 0)%nat), seq_nth by assumption. reflexivity. }
      rewrite !G, Nat.eqb_refl in P. destruct (Nat.eqb_spec c (nth 0 w 0%nat)); [congruence|discriminate].
Qed.
Print Assumptions C17_onehot.

(** The hypotheses on the random source can be met: a source whose cells hold the
    answer of their column. *)
Example C17_answers_met : forall w, In w (words 3 2) ->
  answers (fun (_ : list R) u => u) [0; 1; 2] (fun e => (fun w (_ j : nat) => nth j w 0%nat) w 0%nat e) 2 w.
Proof. intros w _ e _. reflexivity. Qed.
Example C17_chance_ex : chance 2 2 (fun _ => 1 / 2) (fun w => nats_eqb (tally 2 w) [1; 1]%nat) = 1 / 2.
Proof. unfold chance. simpl. field. Qed.
