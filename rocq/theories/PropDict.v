(** C09: merging dictionaries. *)
From Coq Require Import List Arith Lia.
From Verif Require Import ModelBN ModelDict ProofBN.
Import ListNotations.

Section Lemmas.
Context {V : Type}.
Implicit Types (d r : dict V) (ds : list (dict V)).
Lemma update_get d : forall r k, NoDup (map fst d) ->
  dict_get (update r d) k = match dict_get d k with Some v => Some v | None => dict_get r k end.
Proof.
  unfold update. induction d as [|[k' v'] d IH]; intros r k N; simpl; [reflexivity|].
  inversion N as [|? ? N1 N2]; subst. rewrite IH by assumption.
  destruct (Nat.eqb_spec k k') as [->|Hn].
  - destruct (dict_get d k') eqn:E.
    + exfalso. apply N1. apply dict_get_in in E. apply in_map_iff. eexists; split; [|exact E]. reflexivity.
    + apply dict_get_set_eq.
  - destruct (dict_get d k); [reflexivity|]. now apply dict_get_set_neq.
Qed.
Lemma update_nodup d : forall r, NoDup (map fst r) -> NoDup (map fst (update r d)).
Proof.
  unfold update. induction d as [|[k v] d IH]; intros r N; simpl; auto.
  apply IH. now apply keys_set.
Qed.
Lemma merge_get ds : Forall (fun d => NoDup (map fst d)) ds -> forall r k,
  dict_get (fold_left update ds r) k =
  match dict_get (fold_left update ds []) k with Some v => Some v | None => dict_get r k end.
Proof.
  induction ds as [|d ds IH]; intros F r k; simpl; [reflexivity|].
  inversion F as [|? ? F1 F2]; subst.
  rewrite IH by assumption. rewrite (IH F2 (update [] d)). rewrite !update_get by assumption. simpl.
  destruct (dict_get (fold_left update ds []) k); auto.
  destruct (dict_get d k); reflexivity.
Qed.
Lemma merge_snoc ds d k : NoDup (map fst d) ->
  dict_get (merge_dicts (ds ++ [d])) k =
  match dict_get d k with Some v => Some v | None => dict_get (merge_dicts ds) k end.
Proof.
  intros N. unfold merge_dicts. rewrite fold_left_app. simpl. now rewrite update_get.
Qed.
Lemma merge2 a d k : NoDup (map fst a) -> NoDup (map fst d) ->
  dict_get (merge_dicts [a; d]) k =
  match dict_get d k with Some v => Some v | None => dict_get a k end.
Proof.
  intros Na Nd. change [a; d] with ([a] ++ [d]). rewrite merge_snoc by exact Nd.
  destruct (dict_get d k); auto. unfold merge_dicts. simpl.
  rewrite update_get by exact Na. simpl. now destruct (dict_get a k).
Qed.
Lemma combine_nodup (ks : list nat) : forall (vs : list V), NoDup ks -> NoDup (map fst (combine ks vs)).
Proof.
  induction ks as [|k' ks' IH]; intros [|v vs] N; simpl; constructor; inversion N; subst; auto.
  intros H. apply H1. apply in_map_iff in H. destruct H as [[a b] [<- H]].
  eapply in_combine_l; eauto.
Qed.
Lemma dict_zip_get (ks : list nat) : forall (vs : list V) k, NoDup ks ->
  dict_get (dict_zip ks vs) k = dict_get (combine ks vs) k.
Proof.
  intros vs k N. unfold dict_zip. rewrite update_get.
  - simpl. destruct (dict_get (combine ks vs) k); reflexivity.
  - now apply combine_nodup.
Qed.
End Lemmas.

(** A dictionary is an association list in which no key is repeated. *)
Definition is_dict {V} (d : dict V) : Prop := NoDup (map fst d).

(** merge_dicts yields a dictionary in which each key has the value of the last
    argument that has the key, and no other keys. *)
Theorem C09_merge_last_wins : forall V (ds : list (dict V)), Forall is_dict ds ->
  is_dict (merge_dicts ds) /\
  (forall k v, dict_get (merge_dicts ds) k = Some v <->
     exists before d after, ds = before ++ d :: after /\ dict_get d k = Some v /\
       Forall (fun d' => dict_get d' k = None) after) /\
  (forall k, dict_get (merge_dicts ds) k = None <-> Forall (fun d => dict_get d k = None) ds).
Proof.
  intros V ds F. split; [|].
  { unfold is_dict, merge_dicts. assert (H : NoDup (map fst (@nil (nat * V)))) by constructor.
    revert H. generalize (@nil (nat * V)) as r. clear F.
    induction ds as [|d ds IH]; intros r H; simpl; auto. apply IH. now apply update_nodup. }
  induction ds as [|d ds IH] using rev_ind.
  - split.
    + intros k v. simpl. split; [discriminate|]. intros [b [d [a [H _]]]]. destruct b; discriminate.
    + intros k. simpl. split; auto.
  - apply Forall_app in F. destruct F as [F1 F2]. inversion F2 as [|? ? Fd _]; subst.
    destruct (IH F1) as [IH1 IH2]. split.
    + intros k v. rewrite merge_snoc by exact Fd. destruct (dict_get d k) as [w|] eqn:E.
      * split.
        -- intros H. inversion H; subst. exists ds, d, []. auto.
        -- intros [b [d' [a [H [H1 H2]]]]]. destruct a as [|a0 a] using rev_ind.
           ++ apply app_inj_tail in H. destruct H; subst. congruence.
           ++ clear IHa. rewrite app_comm_cons, app_assoc in H. apply app_inj_tail in H.
              destruct H; subst. apply Forall_app in H2. destruct H2 as [_ H2].
              inversion H2; congruence.
      * rewrite IH1. split.
        -- intros [b [d' [a [-> [H1 H2]]]]]. exists b, d', (a ++ [d]).
           split; [now rewrite <- app_assoc|]. split; [assumption|].
           apply Forall_app; split; auto.
        -- intros [b [d' [a [H [H1 H2]]]]]. destruct a as [|a0 a] using rev_ind.
           ++ apply app_inj_tail in H. destruct H; subst. congruence.
           ++ clear IHa. rewrite app_comm_cons, app_assoc in H. apply app_inj_tail in H.
              destruct H; subst. apply Forall_app in H2. destruct H2 as [H2 _].
              exists b, d', a. auto.
    + intros k. rewrite merge_snoc by exact Fd. rewrite Forall_app. split.
      * destruct (dict_get d k) eqn:E; [discriminate|]. intros H. apply IH2 in H. auto.
      * intros [H1 H2]. inversion H2 as [|? ? H3 _]; subst. rewrite H3. now apply IH2.
Qed.
Print Assumptions C09_merge_last_wins.

Example C09_merge_case :
  merge_dicts [[(1, 10); (2, 20)]; [(3, 30); (1, 11)]; [(2, 22)]] = [(1, 11); (2, 22); (3, 30)]
  /\ Forall is_dict [[(1, 10); (2, 20)]; [(3, 30); (1, 11)]; [(2, 22)]].
Proof.
  split; [reflexivity|]. unfold is_dict. simpl.
  repeat constructor; simpl; intuition discriminate.
Qed.

(** Variational objectives: an observed value overrides the variational sample
    of the same name. *)
Theorem C09_variational_observed_wins : forall V (v_inputs observed : dict V) k,
  is_dict v_inputs -> is_dict observed ->
  dict_get (variational_obs v_inputs observed) k =
  match dict_get observed k with Some v => Some v | None => dict_get v_inputs k end.
Proof.
  intros V vi ob k H1 H2. now apply merge2.
Qed.
Print Assumptions C09_variational_observed_wins.

(** HMC and SGMCMC: likewise for latent variables. *)
Theorem C09_sampler_observed_wins : forall V (ks : list nat) (vs : list V) observed k,
  NoDup ks -> is_dict observed ->
  dict_get (sampler_obs ks vs observed) k =
  match dict_get observed k with Some v => Some v | None => dict_get (combine ks vs) k end.
Proof.
  intros V ks vs ob k H1 H2. etransitivity; [apply merge2; [apply update_nodup; constructor|exact H2]|].
  now rewrite dict_zip_get.
Qed.
Print Assumptions C09_sampler_observed_wins.

(** AIS evaluates its initial weight with the opposite precedence: its two
    dictionaries agree on a key unless the key is in both with different
    values. *)
Theorem C09_ais_disagrees_exactly_on_overlap : forall V (ks : list nat) (vs : list V) observed k,
  NoDup ks -> is_dict observed ->
  dict_get (ais_initial_obs observed (combine ks vs)) k <> dict_get (sampler_obs ks vs observed) k <->
  exists a b, dict_get observed k = Some a /\ dict_get (combine ks vs) k = Some b /\ a <> b.
Proof.
  intros V ks vs ob k H1 H2. rewrite C09_sampler_observed_wins by assumption.
  assert (M : dict_get (ais_initial_obs ob (combine ks vs)) k =
    match dict_get (combine ks vs) k with Some v => Some v | None => dict_get ob k end)
    by (apply merge2; [exact H2|now apply combine_nodup]). rewrite M. clear M.
  destruct (dict_get (combine ks vs) k) as [b|] eqn:E1, (dict_get ob k) as [a|] eqn:E2; split;
    try (intros [a' [b' [X [Y Z]]]]); try congruence.
  intros H. exists a, b. split; [reflexivity|]. split; [reflexivity|]. congruence.
Qed.
Print Assumptions C09_ais_disagrees_exactly_on_overlap.

Example C09_ais_case :
  dict_get (ais_initial_obs [(1, 5)] (combine [1; 2] [6; 7])) 1 = Some 6 /\
  dict_get (sampler_obs [1; 2] [6; 7] [(1, 5)]) 1 = Some 5.
Proof. split; reflexivity. Qed.

(** The temperature AIS feeds always overrides one in the user's feed_dict, and
    nothing else is changed. *)
Theorem C09_ais_feed : forall V (feed : dict V) key t k, is_dict feed ->
  dict_get (ais_feed feed key t) k = if Nat.eqb k key then Some t else dict_get feed k.
Proof.
  intros V feed key t k H. etransitivity; [apply merge2; [exact H|repeat constructor; simpl; auto]|].
  simpl. now destruct (Nat.eqb k key).
Qed.
Print Assumptions C09_ais_feed.
