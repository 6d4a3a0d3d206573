(** C38: constructing variational objectives. *)
From Coq Require Import List Arith Bool Lia.
From Verif Require Import ModelBN ModelObjective SpecBN ProofBN.
Import ListNotations.

Section C38.
Context (W : world).

(** Exactly one of [latent] and [variational] must be given, and [variational]
    must be a network. *)
Theorem C38_arguments latent variational :
  ((latent = None <-> variational = None) -> snd (construct W latent variational) = inl ValueError) /\
  snd (construct W None (Some (VOther W))) = inl TypeError /\
  (forall l, l <> [] -> exists o, snd (construct W (Some l) None) = inr o /\
     o_log_probs W o = map (fun p => (fst p, snd (snd p))) l /\
     o_inputs W o = map (fun p => (fst p, VTensor W (fst (snd p)))) l) /\
  snd (construct W (Some []) None) = inl ValueError.
Proof.
  split; [|split; [easy|split; [|easy]]].
  - intros [H1 H2]. destruct latent as [l|], variational as [[b|]|]; try easy;
      (discriminate (H1 eq_refl) || discriminate (H2 eq_refl)).
  - intros [|p l] N; [easy|]. eexists. split; [reflexivity|easy].
Qed.

Lemma unobserved_ok b d : (forall i nd, nth_error (b_objs W b) i = Some nd -> sn_ready W nd = true) ->
  (forall n i, In (n, RStoch W i) d -> i < length (b_objs W b)) ->
  exists l, unobserved W b d = inr l /\
    (forall n i, In (n, i) l <-> In (n, RStoch W i) d /\ is_observed W b i = inr false) /\
    incl (map fst l) (map fst d) /\ (NoDup (map fst d) -> NoDup (map fst l)).
Proof.
  intros R. induction d as [|[n r] d IH]; intros L; cbn.
  - exists []. split; [easy|]. split; [cbn; tauto|]. split; [easy|constructor].
  - destruct IH as [l [E [M [I N]]]]; [intros; eapply L; right; eauto|].
    destruct r as [i|t].
    + assert (Hi : i < length (b_objs W b)) by (eapply L; now left).
      destruct (nth_error (b_objs W b) i) as [nd|] eqn:En; [|apply nth_error_None in En; lia].
      assert (O : is_observed W b i = inr (match sn_obs W nd with Some _ => true | None => false end)).
      { unfold is_observed. now rewrite En, (R _ _ En). }
      rewrite O, E. destruct (sn_obs W nd); eexists; (split; [reflexivity|]); (split; [|split]).
      * intros n' i'. rewrite M. split; [tauto|]. intros [[[= <- <-] | H] Ob]; [|tauto]. congruence.
      * intros x Hx. right. auto.
      * intros Nd. inversion Nd; auto.
      * intros n' i'. cbn [In]. rewrite M. split.
        -- intros [[= <- <-] | H]; [|tauto]. split; [now left|easy].
        -- intros [[[= <- <-] | H] Ob]; [now left|]. right. tauto.
      * intros x [<- | Hx]; [now left|]. right. auto.
      * intros Nd. inversion Nd; subst. cbn. constructor; auto.
    + exists l. split; [easy|]. split; [|split].
      * intros n' i'. rewrite M. split; [tauto|]. intros [[H | H] Ob]; [easy|tauto].
      * intros x Hx. right. auto.
      * intros Nd. inversion Nd; auto.
Qed.

(** For a variational network built by any history of ordinary calls, the
    objective takes as inputs exactly the unobserved stochastic nodes, each once,
    under its own name, and as log probability of each the log density of its
    distribution at its (single) sample; the entropy term is minus their sum. *)
Theorem C38_coverage loc c obs k h : safe W (new_bn W loc c obs k) h ->
  let b := run W (new_bn W loc c obs k) h in
  exists b' o, construct W None (Some (VNet W b)) = (Some b', inr o) /\
    NoDup (map fst (o_log_probs W o)) /\
    map fst (o_log_probs W o) = map fst (o_inputs W o) /\
    (forall n x, In (n, x) (o_inputs W o) <->
       exists i, x = VNode W i /\ bound W b n i /\ is_observed W b i = inr false) /\
    (forall n v, In (n, v) (o_log_probs W o) -> exists i d t,
       bound W b n i /\ is_observed W b i = inr false /\
       (exists nd, nth_error (b_objs W b) i = Some nd /\ sn_dist W nd = d) /\
       step W b' (ReadTensor W i) = (b', OTensor W t) /\ v = w_log_prob W d t) /\
    forall neg, entropy W neg o =
      (if o_inputs W o then None else Some (neg (py_sum W (map snd (o_log_probs W o))))).
Proof.
  intros S b. pose proof (good_run W k h _ (inv_new W k loc c obs) (good_new W loc c obs k) S) as G.
  pose proof (inv_run W k h _ (inv_new W k loc c obs)) as I.
  change (fold_left _ h _) with b in G, I || idtac. fold b in G, I.
  destruct (unobserved_ok b (b_nodes W b)) as [l [E [M [_ N]]]].
  { apply (g_ready W b G). }
  { intros n i H. apply (proj2 (i_ids W k b I)). apply in_ids. eauto. }
  specialize (N (i_keys W k b I)).
  destruct (map_clp W k (map snd l) b I G) as [b' [vs [Em [R [I' [_ F]]]]]].
  { intros i Hi. apply in_map_iff in Hi. destruct Hi as [[n j] [<- Hj]]. apply M in Hj.
    apply (proj2 (i_ids W k b I)). apply in_ids. exists n. apply Hj. }
  exists b', (Objective W (map (fun p => (fst p, VNode W (snd p))) l) (combine (map fst l) vs)).
  unfold construct. rewrite E, Em. split; [reflexivity|]. cbn [o_log_probs o_inputs].
  assert (Lv : length (map fst l) = length vs).
  { rewrite map_length, <- (map_length snd l). clear - F. induction F; cbn; congruence. }
  assert (Ef : map fst (combine (map fst l) vs) = map fst l).
  { clear - Lv. revert vs Lv. generalize (map fst l) as a. induction a; intros [|v vs] H; cbn in *; try easy. f_equal. auto. }
  rewrite Ef. split; [exact N|]. split; [rewrite map_map; now apply map_ext|]. split; [|split].
  - intros n x. rewrite in_map_iff. split.
    + intros [[n' i] [[= <- <-] H]]. apply M in H. exists i. split; [easy|]. split; [|apply H].
      apply bound_iff. apply in_dict_get; [apply (i_keys W k b I)|apply H].
    + intros [i [-> [B O]]]. exists (n, i). split; [easy|]. apply M. split; [|easy].
      apply bound_iff in B. now apply dict_get_in.
  - intros n v H.
    assert (X : exists i, In (n, i) l /\ has_clp W b' i v).
    { clear - H F. revert vs F H. induction l as [|[n' i] l IH]; intros vs F H; cbn in *; [easy|].
      inversion F; subst. cbn in H. destruct H as [[= -> ->] | H].
      - exists i. split; [now left|easy].
      - destruct (IH _ H4 H) as [j [Hj Hc]]. exists j. split; [now right|easy]. }
    destruct X as [i [Hi Hc]]. apply M in Hi.
    destruct (has_clp_value W k b' i v I' Hc) as [nd' [t [E' [Rd ->]]]].
    assert (Li : i < length (b_objs W b)) by (apply (proj2 (i_ids W k b I)); apply in_ids; exists n; apply Hi).
    destruct (nth_error (b_objs W b) i) as [nd|] eqn:En; [|apply nth_error_None in En; lia].
    destruct R as [[_ Ev] _]. destruct (Ev _ _ En) as [y [Hy Ey]]. rewrite E' in Hy. injection Hy as <-.
    exists i, (sn_dist W nd'), t. split; [|split; [apply Hi|split; [|split; [exact Rd|easy]]]].
    + apply bound_iff. apply in_dict_get; [apply (i_keys W k b I)|apply Hi].
    + exists nd. split; [exact En|]. symmetry. apply (ev_dist W _ _ Ey).
  - intros neg. unfold entropy. cbn [o_log_probs].
    destruct l as [|p l'], vs as [|v vs']; cbn in Lv; try lia; easy.
Qed.

(** The check that every stochastic node of the model is observed or has a
    posterior never fires, whatever the network. *)
Theorem C38_validation_refuted b : validate_variational_inputs W b = None.
Proof.
  unfold validate_variational_inputs, iterate.
  induction (b_nodes W b) as [|[n r] d IH]; cbn; [easy|exact IH].
Qed.
End C38.

(** Some network has an unobserved stochastic node, which should be rejected. *)
Definition W0 : world := World nat nat nat nat (fun d _ k => d + k) (fun d t => d * t)
  (fun _ o => Some o) 0 Nat.add.
Definition h0 : list (call W0) := [Stochastic W0 7 3 None; Stochastic W0 8 4 None; Deterministic W0 9 5].
Example C38_validation_case :
  let b := run W0 (new_bn W0 None (CNone W0) [(8, Some 6)] 10) h0 in
  safe W0 (new_bn W0 None (CNone W0) [(8, Some 6)] 10) h0 /\
  bound W0 b 7 0 /\ is_observed W0 b 0 = inr false /\
  validate_variational_inputs W0 b = None.
Proof.
  cbn. repeat split; easy.
Qed.
Example C38_coverage_case :
  let b := run W0 (new_bn W0 None (CNone W0) [(8, Some 6)] 10) h0 in
  snd (construct W0 None (Some (VNet W0 b))) = inr (Objective W0 [(7, VNode W0 0)] [(7, 39)]).
Proof. reflexivity. Qed.

Print Assumptions C38_arguments.
Print Assumptions C38_coverage.
Print Assumptions C38_validation_refuted.
