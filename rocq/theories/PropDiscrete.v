(** C15: the discrete distributions are normalised. C22: log_combination. *)
From Coq Require Import List Reals Arith Lia Lra.
From Coquelicot Require Import Coquelicot.
From Verif Require Import ModelDist SpecDist ProofDiscrete.
Import ListNotations.
Local Open Scope R_scope.

(** [lgamma_factorial] is met by a function (any that extends log-factorial). *)
Example lgamma_factorial_met : lgamma_factorial (fun x => ln (INR (fact (Z.to_nat (up x - 2)%Z)))).
Proof.
  intros n. do 3 f_equal. rewrite <- S_INR.
  replace (up (INR (S n))) with (Z.of_nat (S n) + 1)%Z.
  - lia.
  - apply tech_up; rewrite plus_IZR, <- INR_IZR_INZ; lra.
Qed.

(** ** Bernoulli *)
Lemma xent_softplus z x : sigmoid_cross_entropy z x = softplus x - x * z.
Proof.
  unfold sigmoid_cross_entropy, softplus. destruct (Rle_dec 0 x) as [H|H].
  - rewrite Rmax_left, Rabs_right by lra.
    replace (1 + exp x) with (exp x * (1 + exp (- x))).
    + rewrite ln_mult, ln_exp; [ring|apply exp_pos|]. pose proof (exp_pos (- x)); lra.
    + rewrite Rmult_plus_distr_l, Rmult_1_r, <- exp_plus, Rplus_opp_r, exp_0. ring.
  - rewrite Rmax_right, Rabs_left by lra. rewrite Ropp_involutive. ring.
Qed.
Lemma exp_softplus x : exp (softplus x) = 1 + exp x.
Proof. unfold softplus. apply exp_ln. pose proof (exp_pos x). lra. Qed.
Lemma bernoulli_lp_1 logits : exp (bernoulli_lp 1 logits) = sigmoid logits.
Proof.
  unfold bernoulli_lp, sigmoid. rewrite xent_softplus.
  replace (- (softplus logits - logits * 1)) with (logits - softplus logits) by ring.
  rewrite exp_minus, exp_softplus, exp_Ropp. pose proof (exp_pos logits). field. lra.
Qed.
Lemma bernoulli_lp_0 logits : exp (bernoulli_lp 0 logits) = 1 - sigmoid logits.
Proof.
  unfold bernoulli_lp, sigmoid. rewrite xent_softplus.
  replace (- (softplus logits - logits * 0)) with (0 - softplus logits) by ring.
  rewrite exp_minus, exp_softplus, exp_0, exp_Ropp. pose proof (exp_pos logits). field. lra.
Qed.

Theorem C15_bernoulli logits :
  is_pmf (fun x => exp (bernoulli_lp x logits)) (fun x => x = 0 \/ x = 1).
Proof.
  split; [intros; left; apply exp_pos|]. exists [0; 1]. split.
  - split; [|simpl; intuition lra]. constructor; [simpl; intros [H|[]]; lra|]. repeat constructor; auto.
  - simpl. rewrite bernoulli_lp_0, bernoulli_lp_1. ring.
Qed.
Print Assumptions C15_bernoulli.

(** ** Categorical *)
Theorem C15_categorical logits : logits <> [] ->
  is_pmf (fun k => match categorical_lp k logits with Some r => exp r | None => 0 end)
         (fun k => (k < length logits)%nat).
Proof.
  intros N. split.
  - intros k Hk. destruct (categorical_lp k logits); [left; apply exp_pos|lra].
  - exists (seq 0 (length logits)). split.
    + split; [apply seq_NoDup|]. intros k. rewrite in_seq. lia.
    + rewrite <- (normalized_sum logits N) at 1.
      rewrite (total_ext _ (fun k => exp (nth k logits 0 - logsumexp logits))).
      * rewrite <- (total_map (fun x => exp (x - logsumexp logits)) (fun k => nth k logits 0)). f_equal.
        clear. induction logits as [|a l IH] using rev_ind; [reflexivity|].
        rewrite app_length, Nat.add_1_r, seq_S, map_app. simpl. rewrite app_nth2, Nat.sub_diag by lia. simpl.
        f_equal. rewrite <- IH at 2. apply map_ext_in. intros k Hk. apply in_seq in Hk. rewrite app_nth1; auto. lia.
      * intros k Hk. apply in_seq in Hk. unfold categorical_lp. rewrite (nth_error_nth' _ 0) by lia. reflexivity.
Qed.
Print Assumptions C15_categorical.

(** ** OnehotCategorical *)
Lemma dot_cons x xs y ys : dot (x :: xs) (y :: ys) = x * y + dot xs ys.
Proof. reflexivity. Qed.
Lemma dot_onehot l : forall k, (k < length l)%nat -> dot (onehot (length l) k) l = nth k l 0.
Proof.
  assert (G : forall (l : list R) s k, dot (map (fun j => if Nat.eqb j k then 1 else 0) (seq s (length l))) l
              = if andb (Nat.leb s k) (Nat.ltb k (s + length l)) then nth (k - s) l 0 else 0).
  { clear. induction l as [|a l IH]; intros s k.
    - simpl. destruct (Nat.leb s k && Nat.ltb k (s + 0))%bool; [|reflexivity]. now destruct (k - s)%nat.
    - cbn [length seq map]. rewrite dot_cons, IH.
      destruct (Nat.eqb_spec s k), (Nat.leb_spec s k), (Nat.leb_spec (S s) k),
        (Nat.ltb_spec k (S s + length l)), (Nat.ltb_spec k (s + S (length l))); cbn [andb]; try lia; try ring.
      + replace (k - s)%nat with 0%nat by lia. cbn [nth]. ring.
      + replace (k - s)%nat with (S (k - S s)) by lia. cbn [nth]. ring. }
  intros k Hk. unfold onehot. rewrite G, Nat.sub_0_r. simpl. destruct (Nat.ltb_spec k (length l)); [reflexivity|lia].
Qed.
Lemma onehot_lp_at logits k : (k < length logits)%nat ->
  onehot_lp (onehot (length logits) k) logits = nth k logits 0 - logsumexp logits.
Proof.
  intros Hk. unfold onehot_lp. rewrite Ropp_involutive.
  rewrite <- (map_length (fun l => l - logsumexp logits) logits) at 1.
  rewrite dot_onehot by now rewrite map_length.
  rewrite (nth_indep _ 0 (0 - logsumexp logits)) by now rewrite map_length.
  apply (map_nth (fun l => l - logsumexp logits)).
Qed.
Lemma onehot_inj n j k : (j < n)%nat -> onehot n j = onehot n k -> j = k.
Proof.
  intros Hj E. apply (f_equal (fun l => nth j l 0)) in E. unfold onehot in E.
  assert (G : forall k, nth j (map (fun j => if Nat.eqb j k then 1 else 0) (seq 0 n)) 0 = if Nat.eqb j k then 1 else 0).
  { intros k'. rewrite (nth_indep _ 0 (if Nat.eqb 0 k' then 1 else 0)) by now rewrite map_length, seq_length.
    rewrite (map_nth (fun j => if Nat.eqb j k' then 1 else 0)), seq_nth by assumption. reflexivity. }
  rewrite !G, Nat.eqb_refl in E. destruct (Nat.eqb_spec j k); [assumption|lra].
Qed.
Theorem C15_onehot logits : logits <> [] ->
  is_pmf (fun v => exp (onehot_lp v logits))
         (fun v => exists k, (k < length logits)%nat /\ v = onehot (length logits) k).
Proof.
  intros N. split; [intros; left; apply exp_pos|].
  exists (map (onehot (length logits)) (seq 0 (length logits))). split.
  - split.
    + assert (G : forall l, NoDup l -> (forall k, In k l -> (k < length logits)%nat) ->
                  NoDup (map (onehot (length logits)) l)).
      { induction 1 as [|k l Hk Nl IH]; intros H; simpl; constructor.
        - intros Hi. apply in_map_iff in Hi. destruct Hi as [j [E Hj]]. apply onehot_inj in E; [congruence|]. apply H; simpl; auto.
        - apply IH. intros; apply H; simpl; auto. }
      apply G; [apply seq_NoDup|]. intros k Hk. apply in_seq in Hk. lia.
    + intros v. rewrite in_map_iff. split.
      * intros [k [<- Hk]]. apply in_seq in Hk. exists k. split; [lia|reflexivity].
      * intros [k [Hk ->]]. exists k. split; auto. apply in_seq. lia.
  - rewrite total_map. destruct (C15_categorical logits N) as [_ [l [[Nl El] T]]]. rewrite <- T.
    rewrite (total_perm _ l (seq 0 (length logits))).
    + apply total_ext. intros k Hk. apply in_seq in Hk. rewrite onehot_lp_at by lia.
      unfold categorical_lp. rewrite (nth_error_nth' _ 0) by lia. reflexivity.
    + apply Permutation.NoDup_Permutation; auto using seq_NoDup. intros k. rewrite El, in_seq. lia.
Qed.
Print Assumptions C15_onehot.

(** ** Binomial *)
Lemma exp_INR n x : exp (INR n * x) = exp x ^ n.
Proof. induction n; [simpl; rewrite Rmult_0_l; apply exp_0|]. rewrite S_INR, Rmult_plus_distr_r, Rmult_1_l, exp_plus, IHn. simpl. ring. Qed.
Lemma binomial_mass lgamma logits n x : lgamma_factorial lgamma -> (x <= n)%nat ->
  exp (binomial_lp lgamma (INR x) logits (INR n)) = Binomial.C n x * exp logits ^ x / (1 + exp logits) ^ n.
Proof.
  intros L H. unfold binomial_lp. rewrite <- minus_INR by assumption. rewrite !L.
  rewrite Ropp_mult_distr_r_reverse.
  replace (ln (INR (fact n)) - ln (INR (fact (n - x))) - ln (INR (fact x)) + INR x * logits + - (INR n * softplus logits))
    with ((ln (INR (fact n)) - ln (INR (fact x)) - ln (INR (fact (n - x)))) + (INR x * logits - INR n * softplus logits)) by ring.
  rewrite exp_plus, !exp_minus, !exp_ln, !exp_INR, exp_softplus by apply fact_pos.
  unfold Binomial.C. pose proof (fact_pos x). pose proof (fact_pos (n - x)). pose proof (exp_pos logits).
  field. repeat split; try lra. apply pow_nonzero. lra.
Qed.
Theorem C15_binomial lgamma logits n : lgamma_factorial lgamma ->
  is_pmf (fun x => exp (binomial_lp lgamma (INR x) logits (INR n))) (fun x => (x <= n)%nat).
Proof.
  intros L. split; [intros; left; apply exp_pos|]. exists (seq 0 (S n)). split.
  - split; [apply seq_NoDup|]. intros x. rewrite in_seq. lia.
  - pose proof (exp_pos logits) as P.
    rewrite (total_ext _ (fun x => / (1 + exp logits) ^ n * (Binomial.C n x * exp logits ^ x * 1 ^ (n - x)))).
    + rewrite total_scal, total_seq_f, <- binomial, (Rplus_comm (exp logits)). apply Rinv_l.
      apply pow_nonzero. lra.
    + intros x Hx. apply in_seq in Hx. rewrite binomial_mass by (auto; lia). rewrite pow1. unfold Rdiv. ring.
Qed.
Print Assumptions C15_binomial.

(** ** Poisson *)
Lemma poisson_mass lgamma rate x : lgamma_factorial lgamma -> 0 < rate ->
  exp (poisson_lp lgamma (INR x) rate) = rate ^ x / INR (fact x) * exp (- rate).
Proof.
  intros L H. unfold poisson_lp. rewrite L, !exp_minus, exp_INR, !exp_ln, exp_Ropp by auto using fact_pos.
  pose proof (fact_pos x). pose proof (exp_pos rate). field. lra.
Qed.
Theorem C15_poisson lgamma rate : lgamma_factorial lgamma -> 0 < rate ->
  (forall x, 0 <= exp (poisson_lp lgamma (INR x) rate)) /\
  is_series (fun x => exp (poisson_lp lgamma (INR x) rate)) 1.
Proof.
  intros L H. split; [intros; left; apply exp_pos|].
  apply (is_series_ext (fun x => scal (exp (- rate)) (scal (pow_n rate x) (/ INR (fact x))))).
  - intros x. rewrite poisson_mass by assumption. unfold scal; simpl; unfold mult; simpl. rewrite pow_n_pow.
    unfold Rdiv. ring.
  - replace 1 with (scal (exp (- rate)) (exp rate)).
    + apply (is_series_scal_l (exp (- rate)) (fun x => scal (pow_n rate x) (/ INR (fact x)))). apply is_exp_Reals.
    + unfold scal; simpl; unfold mult; simpl. rewrite <- exp_plus, Rplus_opp_l. apply exp_0.
Qed.
Print Assumptions C15_poisson.

(** ** Multinomial *)
Lemma sumR_INR ks : sumR (map INR ks) = INR (list_sum ks).
Proof. induction ks; [reflexivity|]. change (list_sum (a :: ks)) with (a + list_sum ks)%nat. rewrite plus_INR, <- IHks. reflexivity. Qed.
Lemma exp_dot ls : forall ks, length ks = length ls -> exp (dot (map INR ks) ls) = powprod (map exp ls) ks.
Proof.
  induction ls as [|l ls IH]; intros [|k ks] E; try discriminate; simpl; [apply exp_0|].
  rewrite dot_cons, exp_plus, exp_INR, IH by (simpl in E; lia). reflexivity.
Qed.
Lemma normalized_probs b logits : logits <> [] -> b = true \/ total exp logits = 1 ->
  sumR (map exp (normalized b logits)) = 1.
Proof.
  intros N H. destruct b.
  - cbn [normalized]. rewrite map_map, <- total_sumR. now apply normalized_sum.
  - cbn [normalized]. rewrite <- total_sumR. destruct H; [discriminate|assumption].
Qed.
Lemma multinomial_n lgamma b n_experiments ks logits :
  n_experiments = None \/ n_experiments = Some (INR (list_sum ks)) ->
  multinomial_lp lgamma b n_experiments (map INR ks) logits =
  log_combination lgamma (INR (list_sum ks)) (map INR ks) + dot (map INR ks) (normalized b logits).
Proof. intros [-> | ->]; unfold multinomial_lp; [rewrite sumR_INR|]; reflexivity. Qed.
(** [n_experiments] given, or left to be the total count. *)
Theorem C15_multinomial lgamma normalize n_experiments logits n : lgamma_factorial lgamma -> logits <> [] ->
  n_experiments = None \/ n_experiments = Some (INR n) ->
  normalize = true \/ total exp logits = 1 ->
  is_pmf (fun ks => exp (multinomial_lp lgamma normalize n_experiments (map INR ks) logits))
         (counts (length logits) n).
Proof.
  intros L N Hn B. split; [intros; left; apply exp_pos|]. exists (compositions (length logits) n). split.
  - split; [apply compositions_NoDup|apply compositions_in].
  - rewrite (total_ext _ (fun ks => INR (arrangements ks) * powprod (map exp (normalized normalize logits)) ks)).
    + replace (length logits) with (length (map exp (normalized normalize logits)))
        by (destruct normalize; simpl; rewrite ?map_length; reflexivity).
      rewrite multinomial_theorem, normalized_probs by assumption. apply pow1.
    + intros ks Hks. apply compositions_in in Hks. destruct Hks as [Lk Sk].
      rewrite multinomial_n by (rewrite Sk; assumption).
      rewrite exp_plus, log_combination_arrangements, exp_dot; auto.
      destruct normalize; simpl; rewrite ?map_length; assumption.
Qed.
Print Assumptions C15_multinomial.
Example C15_multinomial_ex : total exp [ln (1/2); ln (1/2)] = 1 /\ counts 2 3 [1; 2]%nat.
Proof. split; [simpl; rewrite exp_ln by lra; lra|split; reflexivity]. Qed.

(** Outside the support: with [n_experiments] given, counts of a different total
    still get positive probability, so the reported masses of all vectors of
    counts add up to more than one. *)
Theorem C15_multinomial_support_refuted lgamma logits n : lgamma_factorial lgamma -> logits <> [] -> (0 < n)%nat ->
  exists l, NoDup l /\ (forall ks, In ks l -> length ks = length logits) /\
    1 < total (fun ks => exp (multinomial_lp lgamma true (Some (INR n)) (map INR ks) logits)) l.
Proof.
  intros L N Hn. destruct (C15_multinomial lgamma true (Some (INR n)) logits n L N) as [_ [l [[Nl El] T]]]; auto.
  exists (repeat 0%nat (length logits) :: l). split; [|split].
  - constructor; auto. rewrite El. intros [_ S]. assert (list_sum (repeat 0%nat (length logits)) = 0%nat); [|lia].
    clear. induction (length logits); simpl; auto.
  - intros ks [<-|H]; [apply repeat_length|]. apply El in H; apply H.
  - cbn [total]. rewrite T. pose proof (exp_pos (multinomial_lp lgamma true (Some (INR n)) (map INR (repeat 0%nat (length logits))) logits)). lra.
Qed.
Print Assumptions C15_multinomial_support_refuted.

(** ** C22 *)
Theorem C22_log_combination lgamma n ks : lgamma_factorial lgamma -> list_sum ks = n ->
  exp (log_combination lgamma (INR n) (map INR ks)) = INR (arrangements ks) /\
  (arrangements ks * fold_right Nat.mul 1 (map fact ks) = fact n)%nat /\
  (1 <= arrangements ks)%nat.
Proof.
  intros L <-. split; [now apply log_combination_arrangements|]. split; [apply arrangements_fact|apply arrangements_pos].
Qed.
Print Assumptions C22_log_combination.
Example C22_ex : arrangements [2; 1; 1]%nat = 12%nat.
Proof. reflexivity. Qed.
