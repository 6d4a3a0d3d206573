(** C11: shapes and elements of sample, log_prob and prob for every distribution.
    [shown t i v]: position [i] of the output shows element [v] of [t];
    [broadcast_all ss w]: [w] is the joint broadcast of [ss] (SpecTensor.v). *)
From Coq Require Import List Arith Bool Lia Reals.
From Verif Require Import ModelShape SpecShape ProofShape ModelTensor SpecTensor ProofTensor ModelDist ProofDist.
Import ListNotations.
Local Open Scope R_scope.

(** ** log_prob of the univariate distributions: elementwise in the broadcast of
    [given] and the parameters. *)
Theorem C11_normal_log_prob given mean logstd :
  computes3 (eval (p_normal (Leaf given) (Leaf mean) (Leaf logstd))) normal_lp given mean logstd.
Proof. apply computes3_flat; [cbn; tauto|leaves_tac|reflexivity]. Qed.
Print Assumptions C11_normal_log_prob.

Theorem C11_bernoulli_log_prob given logits :
  computes2 (eval (p_bernoulli (Leaf given) (Leaf logits))) bernoulli_lp given logits.
Proof. 
  apply computes2_flat; [cbn; tauto|leaves_tac|].
  intros i. cbn. unfold bernoulli_lp. now rewrite !Rmult_1_r.
Qed.
Print Assumptions C11_bernoulli_log_prob.

Theorem C11_uniform_prob given minval maxval :
  computes3 (eval (p_uniform_prob (Leaf given) (Leaf minval) (Leaf maxval))) uniform_prob given minval maxval.
Proof.
  apply computes3_flat; [cbn; tauto|leaves_tac|]. intros i. cbn. unfold uniform_prob.
  destruct (Rle_dec _ _), (Rlt_dec _ _); ring.
Qed.
Print Assumptions C11_uniform_prob.

Theorem C11_gamma_log_prob lgamma given alpha beta :
  computes3 (eval (p_gamma lgamma (Leaf given) (Leaf alpha) (Leaf beta))) (gamma_lp lgamma) given alpha beta.
Proof. apply computes3_flat; [cbn; tauto|leaves_tac|reflexivity]. Qed.
Print Assumptions C11_gamma_log_prob.

Theorem C11_beta_log_prob lgamma given alpha beta :
  computes3 (eval (p_beta lgamma (Leaf given) (Leaf alpha) (Leaf beta))) (beta_lp lgamma) given alpha beta.
Proof. apply computes3_flat; [cbn; tauto|leaves_tac|reflexivity]. Qed.
Print Assumptions C11_beta_log_prob.

Theorem C11_poisson_log_prob lgamma given rate :
  computes2 (eval (p_poisson lgamma (Leaf given) (Leaf rate))) (poisson_lp lgamma) given rate.
Proof. apply computes2_flat; [cbn; tauto|leaves_tac|reflexivity]. Qed.
Print Assumptions C11_poisson_log_prob.

Theorem C11_binomial_log_prob lgamma n given logits :
  computes2 (eval (p_binomial lgamma n (Leaf given) (Leaf logits)))
            (fun x l => binomial_lp lgamma x l n) given logits.
Proof. apply computes2_flat; [cbn; tauto|leaves_tac|reflexivity]. Qed.
Print Assumptions C11_binomial_log_prob.

Theorem C11_inverse_gamma_log_prob lgamma given alpha beta :
  computes3 (eval (p_inverse_gamma lgamma (Leaf given) (Leaf alpha) (Leaf beta)))
            (inverse_gamma_lp lgamma) given alpha beta.
Proof. apply computes3_flat; [cbn; tauto|leaves_tac|reflexivity]. Qed.
Print Assumptions C11_inverse_gamma_log_prob.

Theorem C11_laplace_log_prob given loc scale :
  computes3 (eval (p_laplace (Leaf given) (Leaf loc) (Leaf scale))) laplace_lp given loc scale.
Proof. apply computes3_flat; [cbn; tauto|leaves_tac|reflexivity]. Qed.
Print Assumptions C11_laplace_log_prob.

Theorem C11_bin_concrete_log_prob given temperature logits :
  computes3 (eval (p_bin_concrete (Leaf given) (Leaf temperature) (Leaf logits)))
            bin_concrete_lp given temperature logits.
Proof. apply computes3_flat; [cbn; tauto|leaves_tac|reflexivity]. Qed.
Print Assumptions C11_bin_concrete_log_prob.

(** FoldNormal, whose log density is minus infinity on the negatives. *)
Theorem C11_foldnormal_log_prob given mean logstd :
  (all_compatible [t_shape given; t_shape mean; t_shape logstd] ->
   exists t, eval (p_foldnormal (Leaf (emb given)) (Leaf (emb mean)) (Leaf (emb logstd))) = Some t) /\
  forall t, eval (p_foldnormal (Leaf (emb given)) (Leaf (emb mean)) (Leaf (emb logstd))) = Some t ->
    broadcast_all [t_shape given; t_shape mean; t_shape logstd] (t_shape t) /\
    forall i x m l, valid (t_shape t) i -> shown given i x -> shown mean i m -> shown logstd i l ->
      t_at t i = foldnormal_lp x m l.
Proof.
  set (f := fun x m l : logp => match x, m, l with
    | Fin x, Fin m, Fin l => foldnormal_lp x m l | _, _, _ => NegInf end).
  assert (H : computes3 (eval (p_foldnormal (Leaf (emb given)) (Leaf (emb mean)) (Leaf (emb logstd))))
                        f (emb given) (emb mean) (emb logstd)).
  { apply computes3_flat; [cbn; tauto|leaves_tac|]. intros i. cbn. unfold foldnormal_lp.
    destruct (Rle_dec 0 _); simpl; [|reflexivity]. f_equal. ring. }
  destruct H as [H1 H2]. split; [exact H1|]. intros t E. destruct (H2 t E) as [B V]. split; [exact B|].
  intros i x m l Vi Sx Sm Sl. rewrite (V i (Fin x) (Fin m) (Fin l)); auto.
  - destruct Sx as [j [Sj ->]]. exists j. auto.
  - destruct Sm as [j [Sj ->]]. exists j. auto.
  - destruct Sl as [j [Sj ->]]. exists j. auto.
Qed.
Print Assumptions C11_foldnormal_log_prob.

(** ** Grouped shape: [log_prob] has shape (... + batch)[:-group_ndims], where the
    leading part comes from broadcasting [given] with the batch shape. *)
Theorem C11_log_prob_shape3 prog f given a b batch w g :
  computes3 (eval prog) f given a b ->
  broadcast_all [t_shape a; t_shape b] batch ->       (* the distribution's batch shape *)
  broadcast_all [t_shape given; batch] w -> (g <= length w)%nat ->
  exists r, log_prob g prog = Some r /\ t_shape r = firstn (length w - g) w.
Proof.
  intros [C1 C2] B1 B2 L. pose proof (broadcast_all_flatten _ _ _ _ B1 B2) as B.
  destruct C1 as [t E].
  { intros s t Hs Ht k. destruct B as [_ [_ D]]. destruct (D k) as [D1 _].
    destruct (D1 s Hs), (D1 t Ht); auto. left; congruence. }
  destruct (C2 t E) as [B' _]. assert (t_shape t = w) by (eapply broadcast_all_unique; eauto). subst w.
  destruct (log_prob_group prog t g E L) as [r [E' [S _]]]. eauto.
Qed.
Print Assumptions C11_log_prob_shape3.

Theorem C11_log_prob_shape2 prog f given a w g :
  computes2 (eval prog) f given a ->
  broadcast_all [t_shape given; t_shape a] w -> (g <= length w)%nat ->
  exists r, log_prob g prog = Some r /\ t_shape r = firstn (length w - g) w.
Proof.
  intros [C1 C2] B L. destruct C1 as [t E].
  { intros s t Hs Ht k. destruct B as [_ [_ D]]. destruct (D k) as [D1 _].
    destruct (D1 s Hs), (D1 t Ht); auto. left; congruence. }
  destruct (C2 t E) as [B' _]. assert (t_shape t = w) by (eapply broadcast_all_unique; eauto). subst w.
  destruct (log_prob_group prog t g E L) as [r [E' [S _]]]. eauto.
Qed.
Print Assumptions C11_log_prob_shape2.

(** In particular for a value of shape (...+)batch_shape the result has shape
    (...+)batch_shape[:-group_ndims]. *)
Theorem C11_log_prob_documented_shape prog f given a b batch pre g :
  computes3 (eval prog) f given a b -> broadcast_all [t_shape a; t_shape b] batch ->
  t_shape given = pre ++ batch -> (g <= length batch)%nat ->
  exists r, log_prob g prog = Some r /\ t_shape r = pre ++ firstn (length batch - g) batch.
Proof.
  intros C B S L. destruct (C11_log_prob_shape3 prog f given a b batch (pre ++ batch) g) as [r [E Sr]]; auto.
  - rewrite S. clear. split; [|split].
    + intros s [<-|[<-|[]]]; rewrite ?app_length; lia.
    + right. exists (pre ++ batch). simpl; auto.
    + intros k. split; [|right; exists (pre ++ batch); simpl; auto].
      intros s [<-|[<-|[]]]; auto. unfold dim. rewrite rev_app_distr.
      destruct (Nat.lt_ge_cases k (length (rev batch))) as [H|H].
      * right. rewrite app_nth1; auto.
      * left. now apply nth_overflow.
  - rewrite app_length. lia.
  - exists r. split; [assumption|]. rewrite Sr, app_length, firstn_app.
    replace (length pre + length batch - g - length pre)%nat with (length batch - g)%nat by lia.
    f_equal. apply firstn_all2. lia.
Qed.
Print Assumptions C11_log_prob_documented_shape.

(** ** Samplers: [noise n] is the tensor of standard draws requested for [n]
    samples. *)
Theorem C11_normal_sample noise mean std batch :
  (forall n, t_shape (noise n) = n :: batch) -> broadcast_all [t_shape mean; t_shape std] batch ->
  sample_contract (fun n => eval (s_normal (Leaf (noise n)) (Leaf mean) (Leaf std))) batch
    (fun n s i v => forall m sd, shown mean i m -> shown std i sd ->
       v = normal_sample (t_at (noise n) (s :: i)) m sd).
Proof.
  intros Sn B. apply (sampler3_flat (fun z => s_normal (Leaf z) (Leaf mean) (Leaf std))); auto;
    try (intros; cbn in *; intuition congruence).
Qed.
Print Assumptions C11_normal_sample.

Theorem C11_uniform_sample noise minval maxval batch :
  (forall n, t_shape (noise n) = n :: batch) -> broadcast_all [t_shape minval; t_shape maxval] batch ->
  sample_contract (fun n => eval (s_uniform (Leaf (noise n)) (Leaf minval) (Leaf maxval))) batch
    (fun n s i v => forall lo hi, shown minval i lo -> shown maxval i hi ->
       v = uniform_sample (t_at (noise n) (s :: i)) lo hi).
Proof.
  intros Sn B. apply (sampler3_flat (fun z => s_uniform (Leaf z) (Leaf minval) (Leaf maxval))); auto;
    try (intros; cbn in *; intuition congruence).
Qed.
Print Assumptions C11_uniform_sample.

Theorem C11_laplace_sample noise loc scale batch :
  (forall n, t_shape (noise n) = n :: batch) -> broadcast_all [t_shape loc; t_shape scale] batch ->
  sample_contract (fun n => eval (s_laplace (Leaf (noise n)) (Leaf loc) (Leaf scale))) batch
    (fun n s i v => forall l c, shown loc i l -> shown scale i c ->
       v = laplace_sample (t_at (noise n) (s :: i)) l c).
Proof.
  intros Sn B. apply (sampler3_flat (fun z => s_laplace (Leaf z) (Leaf loc) (Leaf scale))); auto;
    try (intros; cbn in *; intuition congruence).
Qed.
Print Assumptions C11_laplace_sample.

Theorem C11_bernoulli_sample noise logits :
  (forall n, t_shape (noise n) = n :: t_shape logits) ->
  sample_contract (fun n => eval (s_bernoulli (Leaf (noise n)) (Leaf logits))) (t_shape logits)
    (fun n s i v => v = bernoulli_sample (t_at (noise n) (s :: i)) (t_at logits i)).
Proof.
  intros Sn. apply (sampler2_flat (fun z => s_bernoulli (Leaf z) (Leaf logits))); auto;
    try (intros; cbn in *; intuition congruence).
Qed.
Print Assumptions C11_bernoulli_sample.

Theorem C11_bin_concrete_sample noise temperature logits :
  (forall n, t_shape (noise n) = n :: t_shape logits) -> t_shape temperature = [] ->
  sample_contract (fun n => eval (s_bin_concrete (Leaf (noise n)) (Leaf temperature) (Leaf logits)))
    (t_shape logits)
    (fun n s i v => v = bin_concrete_sample (t_at (noise n) (s :: i)) (t_at temperature []) (t_at logits i)).
Proof.
  intros Sn St. apply (sampler2_flat (fun z => s_bin_concrete (Leaf z) (Leaf temperature) (Leaf logits))
    noise logits (fun u l => bin_concrete_sample u (t_at temperature []) l)); auto;
    try (intros; cbn; rewrite ?St; cbn; tauto).
  - intros z s Hs. cbn. rewrite St. intuition congruence.
  - intros z i. cbn. unfold view at 4. rewrite St. reflexivity.
Qed.
Print Assumptions C11_bin_concrete_sample.

Theorem C11_gamma_sample draw noise alpha beta batch :
  (forall n, t_shape (noise n) = n :: batch) -> broadcast_all [t_shape alpha; t_shape beta] batch ->
  sample_contract (fun n => eval (s_gamma draw (Leaf (noise n)) (Leaf alpha) (Leaf beta))) batch
    (fun n s i v => forall a b, shown alpha i a -> shown beta i b ->
       v = draw (t_at (noise n) (s :: i)) a / b).
Proof.
  intros Sn B. apply (sampler3_flat (fun z => s_gamma draw (Leaf z) (Leaf alpha) (Leaf beta))
    noise alpha beta batch (fun u a b => draw u a / b)); auto;
    try (intros; cbn in *; intuition congruence).
  intros z i. cbn. now rewrite Rmult_1_r.
Qed.
Print Assumptions C11_gamma_sample.

Theorem C11_inverse_gamma_sample draw noise alpha beta batch :
  (forall n, t_shape (noise n) = n :: batch) -> broadcast_all [t_shape alpha; t_shape beta] batch ->
  sample_contract (fun n => eval (s_inverse_gamma draw (Leaf (noise n)) (Leaf alpha) (Leaf beta))) batch
    (fun n s i v => forall a b, shown alpha i a -> shown beta i b ->
       v = inverse_gamma_sample (draw (t_at (noise n) (s :: i)) a / b)).
Proof.
  intros Sn B. apply (sampler3_flat (fun z => s_inverse_gamma draw (Leaf z) (Leaf alpha) (Leaf beta))
    noise alpha beta batch (fun u a b => inverse_gamma_sample (draw u a / b))); auto;
    try (intros; cbn in *; intuition congruence).
  intros z i. cbn. now rewrite Rmult_1_r.
Qed.
Print Assumptions C11_inverse_gamma_sample.

Theorem C11_poisson_sample draw noise rate :
  (forall n, t_shape (noise n) = n :: t_shape rate) ->
  sample_contract (fun n => eval (s_poisson draw (Leaf (noise n)) (Leaf rate))) (t_shape rate)
    (fun n s i v => v = draw (t_at (noise n) (s :: i)) (t_at rate i)).
Proof.
  intros Sn. apply (sampler2_flat (fun z => s_poisson draw (Leaf z) (Leaf rate))); auto;
    try (intros; cbn in *; intuition congruence).
Qed.
Print Assumptions C11_poisson_sample.

(** Beta draws from two independent noise tensors. *)
Theorem C11_beta_sample draw noise1 noise2 alpha beta batch :
  (forall n, t_shape (noise1 n) = n :: batch) -> (forall n, t_shape (noise2 n) = n :: batch) ->
  broadcast_all [t_shape alpha; t_shape beta] batch ->
  sample_contract (fun n => eval (s_beta draw (Leaf (noise1 n)) (Leaf (noise2 n)) (Leaf alpha) (Leaf beta))) batch
    (fun n s i v => forall a b, shown alpha i a -> shown beta i b ->
       v = beta_sample (draw (t_at (noise1 n) (s :: i)) a) (draw (t_at (noise2 n) (s :: i)) b)).
Proof.
  intros S1 S2 B. apply sample_contract_intro. intros n. pose proof (all_fits _ _ B) as F.
  set (e := s_beta draw (Leaf (noise1 n)) (Leaf (noise2 n)) (Leaf alpha) (Leaf beta)).
  assert (Fa : fits (t_shape alpha) batch) by (apply F; simpl; auto).
  assert (Fb : fits (t_shape beta) batch) by (apply F; simpl; auto).
  destruct (sampler_flat e (noise1 n) n batch) as [t [E [S V]]]; auto.
  - cbn; tauto.
  - intros s Hs. cbn. rewrite S1, S2. intuition (subst; auto).
  - cbn. rewrite S1. auto.
  - exists t. split; [assumption|]. split; [assumption|]. intros s i Hs Vi a b Sa Sb.
    assert (Vc : valid (n :: batch) (s :: i)) by (apply valid_cons; auto).
    rewrite V by assumption. assert (Li : length i = length batch) by apply Vi.
    apply view_shown in Sa; [|rewrite Li; now apply fits_length].
    apply view_shown in Sb; [|rewrite Li; now apply fits_length]. subst.
    cbn. rewrite !Rmult_1_r, (view_cons alpha batch), (view_cons beta batch) by auto.
    rewrite (view_self (noise1 n)), (view_self (noise2 n)) by (rewrite ?S1, ?S2; assumption). reflexivity.
Qed.
Print Assumptions C11_beta_sample.

(** ** Discrete samplers: every entry is drawn from its own row of parameters with
    its own noise cell; [cell] maps batch positions to distinct noise rows. *)
Definition distinct_cells (batch : shape) (cell : index -> nat) : Prop :=
  forall i j, valid batch i -> valid batch j -> cell i = cell j -> i = j.

Theorem C11_categorical_sample {U} (pick : list R -> U -> nat) (noise : nat -> nat -> nat -> U)
  known logits batch k : t_shape logits = batch ++ [k] -> (0 < k)%nat ->
  (known = true -> length batch = 1%nat) ->
  exists cell, distinct_cells batch cell /\
  sample_contract (fun n => categorical_sample pick (noise n) known logits n) batch
    (fun n s i v => v = pick (row logits i) (noise n (cell i) s)).
Proof.
  intros S Hk K. exists (ravel batch). split; [intros i j; apply ravel_inj|].
  apply sample_contract_intro. intros n.
  destruct (categorical_ok pick (noise n) known logits batch k n S Hk K) as [t [E [St V]]]. eauto.
Qed.
Print Assumptions C11_categorical_sample.

Theorem C11_onehot_sample {U} (pick : list R -> U -> nat) (noise : nat -> nat -> nat -> U)
  known logits batch k : t_shape logits = batch ++ [k] -> (0 < k)%nat ->
  (known = true -> length batch = 1%nat) ->
  exists cell, distinct_cells batch cell /\
  sample_contract (fun n => onehot_sample pick (noise n) 1 0 known logits n) (batch ++ [k])
    (fun n s i v => forall b c, i = b ++ [c] ->
       v = if Nat.eqb (pick (row logits b) (noise n (cell b) s)) c then 1 else 0).
Proof.
  intros S Hk K. exists (ravel batch). split; [intros i j; apply ravel_inj|].
  apply sample_contract_intro. intros n.
  destruct (onehot_ok pick (noise n) 1 0 known logits batch k n S Hk K) as [t [E [St V]]].
  exists t. split; [assumption|]. split; [assumption|]. intros s i Hs Vi b c ->.
  destruct (valid_snoc_inv _ _ _ Vi) as [i' [c' [Eq [Vb Hc]]]]. apply app_inj_tail in Eq.
  destruct Eq as [<- <-]. now apply V.
Qed.
Print Assumptions C11_onehot_sample.

(** A Multinomial entry counts, among n_experiments draws from its own row, those
    that fell in its category; draw [s], experiment [e] uses noise column
    [s*n_exp+e], distinct for distinct (s, e). *)
Theorem C11_multinomial_sample {U} (pick : list R -> U -> nat) (noise : nat -> nat -> nat -> U)
  known logits batch k n_exp : t_shape logits = batch ++ [k] -> (0 < k)%nat ->
  (known = true -> length batch = 1%nat) ->
  exists cell col, distinct_cells batch cell /\
  (forall n s e s' e', (e < n_exp)%nat -> (e' < n_exp)%nat -> col n s e = col n s' e' -> s = s' /\ e = e') /\
  sample_contract (fun n => multinomial_sample pick (noise n) known logits n_exp n) (batch ++ [k])
    (fun n s i v => forall b c, i = b ++ [c] ->
       v = length (filter (fun e => Nat.eqb (pick (row logits b) (noise n (cell b) (col n s e))) c)
                          (seq 0 n_exp))).
Proof.
  intros S Hk K. exists (ravel batch), (fun n s e => s * n_exp + e)%nat.
  split; [intros i j; apply ravel_inj|]. split.
  { intros n s e s' e' H1 H2 H3.
    assert (s = s') by nia. subst. lia. }
  apply sample_contract_intro. intros n.
  destruct (multinomial_ok pick (noise n) known logits batch k n_exp n S Hk K) as [t [E [St V]]].
  exists t. split; [assumption|]. split; [assumption|]. intros s i Hs Vi b c ->.
  destruct (valid_snoc_inv _ _ _ Vi) as [i' [c' [Eq [Vb Hc]]]]. apply app_inj_tail in Eq.
  destruct Eq as [<- <-]. rewrite V by assumption. clear. induction (seq 0 n_exp) as [|e l IH]; simpl; auto.
  destruct (Nat.eqb _ _); simpl; now rewrite IH.
Qed.
Print Assumptions C11_multinomial_sample.

(** A Binomial entry sums n_experiments 0/1 draws from its own logit. *)
Theorem C11_binomial_sample {U} (pick : list R -> U -> nat) (noise : nat -> nat -> nat -> U)
  (two : R -> list R) known logits n_exp : (forall a, length (two a) = 2%nat) ->
  (known = true -> length (t_shape logits) = 1%nat) ->
  exists cell col, distinct_cells (t_shape logits) cell /\
  (forall n s e s' e', (s < n)%nat -> (s' < n)%nat -> col n s e = col n s' e' -> s = s' /\ e = e') /\
  sample_contract (fun n => binomial_sample pick (noise n) two known logits n_exp n) (t_shape logits)
    (fun n s i v => v = list_sum (map (fun e => pick (two (t_at logits i)) (noise n (cell i) (col n s e)))
                                      (seq 0 n_exp))).
Proof.
  intros T K. exists (ravel (t_shape logits)), (fun n s e => e * n + s)%nat.
  split; [intros i j; apply ravel_inj|]. split.
  { intros n s e s' e' H1 H2 H3. assert (e = e') by nia. subst. lia. }
  apply sample_contract_intro. intros n.
  destruct (binomial_ok pick (noise n) two known logits n_exp n T K) as [t [E [St V]]]. eauto.
Qed.
Print Assumptions C11_binomial_sample.
