(** Invariants of the life of a variational objective. *)
From Coq Require Import List Arith Bool Lia.
From Verif Require Import ModelBN ModelDict ModelObjective ModelLife SpecBN SpecLife ProofBN.
Import ListNotations.

Section Life.
Context (W : world) (X : ops W).

(** The log joint that later estimates will use, if already fixed. *)
Definition fixed (s : state W) : option (w_val W) :=
  match ob_target W (s_obj W s) with
  | TModel _ _ => match ob_bn W (s_obj W s) with Some b => b_cache W b | None => None end
  | TFun _ _ => ob_log_joint W (s_obj W s)
  | TNothing _ => None
  end.
Definition same (s s' : state W) : Prop :=
  ob_kind W (s_obj W s') = ob_kind W (s_obj W s) /\ ob_target W (s_obj W s') = ob_target W (s_obj W s) /\
  ob_inputs W (s_obj W s') = ob_inputs W (s_obj W s) /\ ob_log_probs W (s_obj W s') = ob_log_probs W (s_obj W s) /\
  ob_observed W (s_obj W s') = ob_observed W (s_obj W s).
Definition stays (s s' : state W) : Prop := forall v, fixed s = Some v -> fixed s' = Some v.
Record inv (s : state W) : Prop := {
  v_ent : forall e, ob_entropy W (s_obj W s) = Some e -> e = entropy_of W X (s_obj W s);
  v_tensor : forall t, ob_tensor W (s_obj W s) = Some t ->
     exists lj, fixed s = Some lj /\ value W X (ob_kind W (s_obj W s)) lj (entropy_of W X (s_obj W s)) = Some t }.

Lemma same_refl s : same s s.
Proof. repeat split. Qed.
Lemma same_trans a b c : same a b -> same b c -> same a c.
Proof. unfold same. intuition congruence. Qed.
Lemma same_ent s s' : same s s' -> entropy_of W X (s_obj W s') = entropy_of W X (s_obj W s).
Proof. intros (_ & _ & _ & E & _). unfold entropy_of. now rewrite E. Qed.
Lemma stays_refl s : stays s s.
Proof. intros v H. exact H. Qed.
Lemma stays_trans a b c : stays a b -> stays b c -> stays a c.
Proof. unfold stays. auto. Qed.

(** A step that leaves the entropy and tensor caches alone. *)
Lemma inv_stays s s' : same s s' -> stays s s' ->
  ob_entropy W (s_obj W s') = ob_entropy W (s_obj W s) -> ob_tensor W (s_obj W s') = ob_tensor W (s_obj W s) ->
  inv s -> inv s'.
Proof.
  intros S F E T [A B]. split.
  - intros e. rewrite E, (same_ent _ _ S). apply A.
  - intros t. rewrite T, (same_ent _ _ S). destruct S as (-> & _). intros H. destruct (B t H) as (lj & L & V).
    exists lj. split; [now apply F|exact V].
Qed.

Lemma cache_step b c v : (forall n d ns, c <> Stochastic W n d ns) -> b_cache W b = Some v -> b_cache W (fst (step W b c)) = Some v.
Proof.
  intros Q H. set (P := fun b' : bn W => b_cache W b' = Some v).
  assert (Prt : forall b' i, P b' -> P (fst (read_tensor W b' i))).
  { intros b' i E. destruct (read_tensor_reads W b' i) as (_ & _ & C & _). unfold P. now rewrite C. }
  assert (Pcl : forall b' i, P b' -> P (fst (cond_log_p W b' i))).
  { intros b' i E. destruct (cond_log_p_reads W b' i) as (_ & _ & C & _). unfold P. now rewrite C. }
  change (P (fst (step W b c))). assert (P0 : P b) by exact H.
  destruct c; try exact P0.
  - now destruct (Q n d ns).
  - cbn. unfold legacy. destruct (init_observation _ _ _ _ _); exact P0.
  - rewrite step_ReadTensor. now apply Prt.
  - rewrite step_CondLogP. now apply Pcl.
  - now apply (get_pres W P).
  - now apply (cond_log_prob_pres W P Pcl).
  - now apply (outputs_pres W P Prt).
  - cbn. unfold log_joint. rewrite H. exact P0.
Qed.

Lemma get_bn_ok m s s1 r : ob_target W (s_obj W s) = TModel W m -> get_bn W X m s = (s1, r) ->
  same s s1 /\ stays s s1 /\ ob_entropy W (s_obj W s1) = ob_entropy W (s_obj W s) /\ ob_tensor W (s_obj W s1) = ob_tensor W (s_obj W s) /\
  ob_log_joint W (s_obj W s1) = ob_log_joint W (s_obj W s) /\
  match r with inl _ => ob_bn W (s_obj W s1) = None | inr b => ob_bn W (s_obj W s1) = Some b end.
Proof.
  intros T. unfold get_bn. destruct (ob_bn W (s_obj W s)) as [b|] eqn:B.
  - intros [= <- <-]. repeat split; auto using stays_refl.
  - destruct (observe W m (merged W X s) (s_draws W s)) as [b [e|]]; intros [= <- <-]; cbn; repeat split; auto;
      intros v; unfold fixed; cbn; rewrite T, B; discriminate.
Qed.
Lemma log_joint_cached b v : b_cache W b = Some v -> log_joint W b = (b, OVal W v).
Proof. intros H. unfold log_joint. now rewrite H. Qed.
Lemma log_joint_sets b b' o : log_joint W b = (b', o) -> match o with OVal _ v => b_cache W b' = Some v | _ => True end.
Proof.
  unfold log_joint. destruct (b_cache W b) as [v|] eqn:C; [intros [= <- <-]; exact C|].
  destruct (log_joint_compute W b) as [b1 [e|v]]; intros [= <- <-]; cbn; auto.
Qed.

Lemma log_joint_term_ok s s1 r : log_joint_term W X s = (s1, r) ->
  same s s1 /\ stays s s1 /\ ob_entropy W (s_obj W s1) = ob_entropy W (s_obj W s) /\ ob_tensor W (s_obj W s1) = ob_tensor W (s_obj W s) /\
  match r with inl _ => True | inr v => fixed s1 = Some v end.
Proof.
  unfold log_joint_term. destruct (ob_target W (s_obj W s)) as [m|f|] eqn:T.
  - destruct (get_bn W X m s) as [s0 r0] eqn:G. destruct (get_bn_ok m s s0 r0 T G) as (S & F & E & Te & _ & B).
    destruct r0 as [e|b]; [intros [= <- <-]; repeat split; auto; apply S|].
    destruct (log_joint W (at_draws W b (s_draws W s0))) as [b' o] eqn:L.
    assert (T0 : ob_target W (s_obj W s0) = TModel W m) by (destruct S as (_ & S2 & _); congruence).
    assert (K : forall v, fixed s0 = Some v -> b_cache W b' = Some v).
    { intros v. unfold fixed. rewrite T0, B. intros C. rewrite (log_joint_cached _ v) in L; [injection L as <- _; exact C|exact C]. }
    pose proof (log_joint_sets _ _ _ L) as Q.
    set (s2 := State W (with_bn W (s_obj W s0) b') (s_vnet W s0) (s_caller W s0) (b_draws W b') (s_built W s0) (s_done W s0) (s_calls W s0) (s_means W s0)).
    assert (M : same s s2) by (eapply same_trans; [exact S|repeat split]).
    assert (Y : stays s s2).
    { intros v H. apply F in H. apply K in H. unfold fixed. cbn. rewrite T0. exact H. }
    destruct o; intros [= <- <-]; (split; [exact M|]); (split; [exact Y|]); cbn; repeat split; auto.
    unfold fixed. cbn. rewrite T0. exact Q.
  - destruct (ob_log_joint W (s_obj W s)) as [v|] eqn:J.
    + intros [= <- <-]. repeat split; auto using stays_refl. unfold fixed. now rewrite T.
    + destruct (f (merged W X s) (s_calls W s)) as [e|v]; intros [= <- <-]; cbn; repeat split; auto;
        try (intros w; unfold fixed; cbn; rewrite T, ?J; auto; discriminate).
      unfold fixed. cbn. now rewrite T.
  - intros [= <- <-]. repeat split; auto using stays_refl.
Qed.
Lemma entropy_is o : entropy W (x_neg W X) (Objective W (ob_inputs W o) (ob_log_probs W o)) = entropy_of W X o.
Proof. unfold entropy, entropy_of, py_sum. cbn. destruct (ob_log_probs W o); reflexivity. Qed.
Lemma entropy_term_ok s s1 e : inv s -> entropy_term W X s = (s1, e) ->
  e = entropy_of W X (s_obj W s) /\ same s s1 /\ fixed s1 = fixed s /\ ob_tensor W (s_obj W s1) = ob_tensor W (s_obj W s) /\ inv s1.
Proof.
  intros I. pose proof (v_tensor _ I) as B. unfold entropy_term. destruct (ob_entropy W (s_obj W s)) as [x|] eqn:E.
  - intros [= <- <-]. split; [now apply (v_ent _ I)|]. split; [apply same_refl|]. auto.
  - rewrite entropy_is. intros [= <- <-]. split; [reflexivity|]. split; [repeat split|]. split; [reflexivity|]. split; [reflexivity|].
    split.
    + intros e [= <-]. reflexivity.
    + intros t H. exact (B t H).
Qed.
Lemma both_ok s s1 r : inv s -> both W X s = (s1, r) ->
  same s s1 /\ stays s s1 /\ inv s1 /\ ob_tensor W (s_obj W s1) = ob_tensor W (s_obj W s) /\
  match r with inl _ => True | inr (lj, e) => fixed s1 = Some lj /\ e = entropy_of W X (s_obj W s) end.
Proof.
  intros I. unfold both. destruct (log_joint_term W X s) as [s0 r0] eqn:L.
  destruct (log_joint_term_ok _ _ _ L) as (S & F & E & T & R). pose proof (inv_stays _ _ S F E T I) as I0.
  destruct r0 as [e|lj]; [intros [= <- <-]; repeat split; auto; try apply S; apply I0|].
  destruct (entropy_term W X s0) as [s2 ent] eqn:N. destruct (entropy_term_ok _ _ _ I0 N) as (Ee & S2 & F2 & T2 & I2).
  intros [= <- <-]. split; [eapply same_trans; eauto|]. split; [intros v H; rewrite F2; now apply F|]. split; [exact I2|].
  split; [congruence|]. split; [congruence|]. rewrite Ee. now apply same_ent.
Qed.
Lemma objective_ok s s1 r : inv s -> objective_ W X s = (s1, r) ->
  same s s1 /\ stays s s1 /\ inv s1 /\ ob_tensor W (s_obj W s1) = ob_tensor W (s_obj W s) /\
  match r with
  | inl _ => True
  | inr v => exists lj, fixed s1 = Some lj /\ value W X (ob_kind W (s_obj W s)) lj (entropy_of W X (s_obj W s)) = Some v
  end.
Proof.
  intros I. unfold objective_. destruct (ob_kind W (s_obj W s)) eqn:K.
  - destruct (both W X s) as [s0 r0] eqn:B. destruct (both_ok _ _ _ I B) as (S & F & I0 & T & R).
    destruct r0 as [e|[lj [e|]]]; intros [= <- <-]; repeat (split; [assumption|]); auto;
      exists lj; destruct R as [R1 R2]; rewrite <- R2; cbn; auto.
  - destruct (both W X s) as [s0 r0] eqn:B. destruct (both_ok _ _ _ I B) as (S & F & I0 & T & R).
    destruct r0 as [e|[lj [e|]]]; intros [= <- <-]; repeat (split; [assumption|]); auto.
    exists lj; destruct R as [R1 R2]; rewrite <- R2; cbn; auto.
  - intros [= <- <-]. repeat split; auto using stays_refl; apply I.
Qed.
Lemma tensor_ok s s1 r : inv s -> tensor_ W X s = (s1, r) ->
  same s s1 /\ stays s s1 /\ inv s1 /\
  match r with
  | inl _ => True
  | inr v => exists lj, fixed s1 = Some lj /\ value W X (ob_kind W (s_obj W s)) lj (entropy_of W X (s_obj W s)) = Some v
  end.
Proof.
  intros I. unfold tensor_. destruct (ob_tensor W (s_obj W s)) as [t|] eqn:T.
  - intros [= <- <-]. split; [apply same_refl|]. split; [apply stays_refl|]. split; [exact I|]. exact (v_tensor _ I t T).
  - destruct (objective_ W X s) as [s0 r0] eqn:O. destruct (objective_ok _ _ _ I O) as (S & F & I0 & T0 & R).
    destruct r0 as [e|v]; intros [= <- <-]; [repeat (split; [assumption|]); exact Logic.I|].
    split; [eapply same_trans; [exact S|repeat split]|]. split; [exact F|].
    destruct R as (lj & L & V). split; [|exists lj; auto].
    split.
    + intros e H. exact (v_ent _ I0 e H).
    + intros t [= <-]. exists lj. split; [exact L|].
      change (value W X (ob_kind W (s_obj W s0)) lj (entropy_of W X (s_obj W s0)) = Some v).
      rewrite (same_ent _ _ S). destruct S as (-> & _). exact V.
Qed.

Lemma act_ok a s s1 r : inv s -> ~ adds_node W X a -> act W X a s = (s1, r) ->
  same s s1 /\ stays s s1 /\ inv s1 /\
  (is_estimate W r -> exists lj, fixed s1 = Some lj /\
     estimate W X (ob_kind W (s_obj W s)) a lj (entropy_of W X (s_obj W s)) = Some r).
Proof.
  intros I Q. destruct a as [| |dtype as_ref| |vr bl scope reuse| | |c|c|n o]; cbn [act].
  - destruct (ob_target W (s_obj W s)) as [m|f|] eqn:T.
    + destruct (get_bn W X m s) as [s0 r0] eqn:G. destruct (get_bn_ok m s s0 r0 T G) as (S & F & E & Te & _).
      destruct r0; intros [= <- <-]; (split; [exact S|split; [exact F|split; [now apply (inv_stays s)|intros []]]]).
    + intros [= <- <-]. split; [apply same_refl|split; [apply stays_refl|split; [exact I|intros []]]].
    + intros [= <- <-]. split; [apply same_refl|split; [apply stays_refl|split; [exact I|intros []]]].
  - destruct (tensor_ W X s) as [s0 r0] eqn:T. destruct (tensor_ok _ _ _ I T) as (S & F & I0 & R). intros [= <- <-].
    split; [exact S|split; [exact F|split; [exact I0|]]]. destruct r0 as [e|v]; [intros []|]. intros _.
    destruct R as (lj & L & V). exists lj. split; [exact L|]. cbn. now rewrite V.
  - destruct (tensor_ W X s) as [s0 r0] eqn:T. destruct (tensor_ok _ _ _ I T) as (S & F & I0 & R).
    destruct r0 as [e|v]; [intros [= <- <-]; split; [exact S|split; [exact F|split; [exact I0|intros []]]]|].
    destruct (match dtype with Some d => _ | None => _ end); [intros [= <- <-]; split; [exact S|split; [exact F|split; [exact I0|intros []]]]|].
    destruct as_ref; intros [= <- <-]; (split; [exact S|split; [exact F|split; [exact I0|]]]); [intros []|]. intros _.
    destruct R as (lj & L & V). exists lj. split; [exact L|]. cbn. now rewrite V.
  - destruct (ob_kind W (s_obj W s)) eqn:K.
    3: { intros [= <- <-]. split; [apply same_refl|split; [apply stays_refl|split; [exact I|intros []]]]. }
    all: destruct (tensor_ W X s) as [s0 r0] eqn:T; destruct (tensor_ok _ _ _ I T) as (S & F & I0 & R); rewrite K in R;
      destruct r0 as [e|v]; intros [= <- <-]; (split; [exact S|split; [exact F|split; [exact I0|]]]); [intros []|]; intros _;
      destruct R as (lj & L & V); exists lj; (split; [exact L|]); cbn [estimate option_map]; now rewrite V.
  - destruct (ob_kind W (s_obj W s)) eqn:K.
    2,3: intros [= <- <-]; split; [apply same_refl|split; [apply stays_refl|split; [exact I|intros []]]].
    destruct (both W X s) as [s0 r0] eqn:B. destruct (both_ok _ _ _ I B) as (S & F & I0 & T & R).
    destruct r0 as [e|[lj [e|]]];
      [intros [= <- <-]; split; [exact S|split; [exact F|split; [exact I0|intros []]]]| |intros [= <- <-]; split; [exact S|split; [exact F|split; [exact I0|intros []]]]].
    destruct R as [R1 R2].
    destruct vr.
    + destruct (get_mean scope reuse (s_means W s0)) as [means|].
      2: { intros [= <- <-]. split; [exact S|split; [exact F|split; [exact I0|intros []]]]. }
      assert (M : forall r1, is_estimate W r1 -> estimate W X Elbo (Reinforce W X true bl scope reuse) lj (entropy_of W X (s_obj W s)) = Some r1 ->
         let s2 := State W (s_obj W s0) (s_vnet W s0) (s_caller W s0) (s_draws W s0) (s_built W s0) (s_done W s0) (s_calls W s0) means in
         same s s2 /\ stays s s2 /\ inv s2 /\ (is_estimate W r1 -> exists lj, fixed s2 = Some lj /\ estimate W X Elbo (Reinforce W X true bl scope reuse) lj (entropy_of W X (s_obj W s)) = Some r1)).
      { intros r1 _ H. split; [exact S|]. split; [exact F|]. split; [split; [apply (v_ent _ I0)|apply (v_tensor _ I0)]|]. intros _. exists lj. split; [exact R1|exact H]. }
      destruct bl; intros [= <- <-]; apply M; cbn; rewrite <- ?R2; auto.
    + intros [= <- <-]. split; [exact S|split; [exact F|split; [exact I0|]]]. intros _. exists lj. split; [exact R1|]. cbn. rewrite <- R2. reflexivity.
  - destruct (ob_kind W (s_obj W s)) eqn:K.
    1,3: intros [= <- <-]; split; [apply same_refl|split; [apply stays_refl|split; [exact I|intros []]]].
    destruct (both W X s) as [s0 r0] eqn:B. destruct (both_ok _ _ _ I B) as (S & F & I0 & T & R).
    destruct r0 as [e|[lj [e|]]];
      [intros [= <- <-]; split; [exact S|split; [exact F|split; [exact I0|intros []]]]| |intros [= <- <-]; split; [exact S|split; [exact F|split; [exact I0|intros []]]]].
    destruct R as [R1 R2]. destruct (x_vimco W X lj e) as [v|] eqn:Vi; intros [= <- <-]; (split; [exact S|split; [exact F|split; [exact I0|]]]); [|intros []].
    intros _. exists lj. split; [exact R1|]. cbn. rewrite <- R2, Vi. reflexivity.
  - destruct (ob_kind W (s_obj W s)) eqn:K.
    1,2: intros [= <- <-]; split; [apply same_refl|split; [apply stays_refl|split; [exact I|intros []]]].
    destruct (both W X s) as [s0 r0] eqn:B. destruct (both_ok _ _ _ I B) as (S & F & I0 & T & R).
    destruct r0 as [e|[lj [e|]]]; intros [= <- <-]; (split; [exact S|split; [exact F|split; [exact I0|]]]); try intros [].
    destruct R as [R1 R2]. exists lj. split; [exact R1|]. cbn. rewrite <- R2. reflexivity.
  - destruct (ob_target W (s_obj W s)) as [m|f|] eqn:T.
    2,3: intros [= <- <-]; split; [apply same_refl|split; [apply stays_refl|split; [exact I|intros []]]].
    destruct (get_bn W X m s) as [s0 r0] eqn:G. destruct (get_bn_ok m s s0 r0 T G) as (S & F & E & Te & _ & B).
    destruct r0 as [e|b]; [intros [= <- <-]; split; [exact S|split; [exact F|split; [now apply (inv_stays s)|intros []]]]|].
    destruct (step_at W b (s_draws W s0) c) as [b' o] eqn:St. intros [= <- <-].
    assert (T0 : ob_target W (s_obj W s0) = TModel W m) by (destruct S as (_ & S2 & _); congruence).
    set (s2 := State W (with_bn W (s_obj W s0) b') (s_vnet W s0) (s_caller W s0) (b_draws W b') (s_built W s0) (s_done W s0) (s_calls W s0) (s_means W s0)).
    assert (M : same s s2) by (eapply same_trans; [exact S|repeat split]).
    assert (Y : stays s s2).
    { intros v H. apply F in H. unfold fixed in *. rewrite T0, B in H. cbn. rewrite T0.
      assert (C : b_cache W (fst (step W (at_draws W b (s_draws W s0)) c)) = Some v).
      { apply cache_step; [|exact H]. intros n d ns ->. now apply Q. }
      unfold step_at in St. now rewrite St in C. }
    split; [exact M|]. split; [exact Y|]. split; [now apply (inv_stays s)|intros []].
  - destruct (s_vnet W s) as [b|]; [|intros [= <- <-]; split; [apply same_refl|split; [apply stays_refl|split; [exact I|intros []]]]].
    destruct (step_at W b (s_draws W s) c) as [b' o]. intros [= <- <-].
    split; [repeat split|]. split; [intros v H; exact H|]. split; [split; [apply (v_ent _ I)|apply (v_tensor _ I)]|intros []].
  - intros [= <- <-]. split; [repeat split|]. split; [intros v H; exact H|]. split; [split; [apply (v_ent _ I)|apply (v_tensor _ I)]|intros []].
Qed.
End Life.
