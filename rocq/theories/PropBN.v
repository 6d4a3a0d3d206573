(** C04-C08: what a BayesianNet answers over arbitrary histories of calls. *)
From Coq Require Import List Arith Bool Lia.
From Verif Require Import ModelBN SpecBN ProofBN.
Import ListNotations.

(** A concrete world for the examples. Observations of 1000 or more are
    rejected by the dtype/shape check. *)
Definition W0 : world := World nat nat nat nat
  (fun d _ k => 100 * d + k) (fun d t => 10 * d + t)
  (fun _ o => if Nat.ltb o 1000 then Some o else None) 0 Nat.add.
Definition net0 : bn W0 :=
  new_bn W0 (Some (fun n => if Nat.eqb n 1 then Some 7 else None)) (CNone W0) [(2, Some 8)] 5.

(** ** C04 *)

(** Once a node's value has been read it never changes, and reading again
    changes nothing. *)
Theorem C04_value_stable : forall (W : world) (b : bn W) h h' i t,
  let b1 := fst (step W (run W b h) (ReadTensor W i)) in
  snd (step W (run W b h) (ReadTensor W i)) = OTensor W t ->
  step W (run W b1 h') (ReadTensor W i) = (run W b1 h', OTensor W t).
Proof. exact value_stable. Qed.
Print Assumptions C04_value_stable.

Example C04_value_stable_case :
  snd (step W0 (run W0 net0 [Stochastic W0 3 4 None; Stochastic W0 0 4 None])
         (ReadTensor W0 1)) = OTensor W0 405.
Proof. reflexivity. Qed.

(** Sampling operations and sampled nodes correspond one to one: over the whole
    history every sampling op was created for exactly one node, that node is not
    observed, and the node's value is what that very op yields. *)
Theorem C04_one_draw_per_node : forall (W : world) loc c obs k0 h,
  let b := run W (new_bn W loc c obs k0) h in
  exists own : nat -> nat,
    (forall k, k0 <= k < b_draws W b -> exists nd,
        nth_error (b_objs W b) (own k) = Some nd /\ sn_obs W nd = None /\
        step W b (ReadTensor W (own k)) =
          (b, OTensor W (w_sample W (sn_dist W nd) (sn_n_samples W nd) k))) /\
    (forall i nd, nth_error (b_objs W b) i = Some nd -> sn_samples W nd <> None ->
        exists k, k0 <= k < b_draws W b /\ own k = i) /\
    (forall k k', k0 <= k < b_draws W b -> k0 <= k' < b_draws W b ->
        own k = own k' -> k = k').
Proof.
  intros W loc c obs k0 h b.
  assert (I : inv W k0 b) by (apply inv_run, inv_new).
  destruct (i_draw _ _ _ I) as [own [F1 [F2 F3]]]. exists own. split; [|split; [|assumption]].
  - intros k Hk. destruct (F1 k Hk) as [nd [E S]]. exists nd.
    destruct (i_smp _ _ _ I _ _ _ E S) as [Ho Hr].
    split; [assumption|]. split; [assumption|].
    eapply read_held; [exact E|]. unfold value_of. now rewrite Hr, Ho.
  - intros i nd E S. destruct (sn_samples W nd) as [t|] eqn:Es; [|now destruct S]. eauto.
Qed.
Print Assumptions C04_one_draw_per_node.

(** Reading a node draws at most once; reading an observed node draws nothing. *)
Example C04_one_draw_case :
  b_draws W0 (run W0 net0 [Stochastic W0 1 4 None; Stochastic W0 3 4 None;
     ReadTensor W0 0; ReadTensor W0 1; ReadTensor W0 1; CondLogP W0 1; LogJoint W0]) = 6.
Proof. reflexivity. Qed.

(** The conditional log-probability of a node made by stochastic() is always
    the log-density of the distribution it was made with, at the value the node
    reads as, before or after. *)
Theorem C04_log_prob_of_value : forall (W : world) loc c obs k0 h0 n d ns b1 i h,
  step W (run W (new_bn W loc c obs k0) h0) (Stochastic W n d ns) = (b1, ORef W (RStoch W i)) ->
  exists t, let b2 := fst (step W (run W b1 h) (CondLogP W i)) in
  snd (step W (run W b1 h) (CondLogP W i)) = OVal W (w_log_prob W d t) /\
  forall h', snd (step W (run W b2 h') (ReadTensor W i)) = OTensor W t /\
             snd (step W (run W b2 h') (CondLogP W i)) = OVal W (w_log_prob W d t).
Proof.
  intros W loc c obs k0 h0 n d ns b1 i h. eapply log_prob_of_value.
  apply inv_run, (inv_new W k0 loc c obs).
Qed.
Print Assumptions C04_log_prob_of_value.

Example C04_log_prob_case :
  snd (step W0 (run W0 net0 [Stochastic W0 3 4 None; ReadTensor W0 0]) (CondLogP W0 0))
  = OVal W0 445.
Proof. reflexivity. Qed.

(** ** C05 *)

(** stochastic() with a name already in the network is refused and changes
    nothing. *)
Theorem C05_duplicate_refused : forall (W : world) (b : bn W) n d ns r,
  snd (step W b (Get W (QOne n))) = ORef W r ->
  step W b (Stochastic W n d ns) = (b, OErr W ValueError).
Proof.
  intros W b n d ns r. rewrite get_one. simpl.
  destruct (dict_get (b_nodes W b) n) eqn:E; [|discriminate]. intros _.
  unfold stochastic. now rewrite E.
Qed.
Print Assumptions C05_duplicate_refused.

(** A node bound to a name stays bound to it for the rest of the history, unless
    deterministic() or a deprecated construction reuses that very name. *)
Theorem C05_binding_permanent : forall (W : world) (b : bn W) n r h,
  snd (step W b (Get W (QOne n))) = ORef W r ->
  Forall (keeps_name W n) h ->
  snd (step W (run W b h) (Get W (QOne n))) = ORef W r.
Proof.
  intros W b n r h H F. rewrite get_one in *. cbn [fst snd] in *.
  destruct (dict_get (b_nodes W b) n) as [r'|] eqn:E; [|discriminate].
  inversion H; subst. now rewrite (permanent W b n r h E F).
Qed.
Print Assumptions C05_binding_permanent.

Example C05_case :
  snd (step W0 (run W0 net0 [Stochastic W0 3 4 None; Deterministic W0 9 1; LogJoint W0;
                             Stochastic W0 3 5 None]) (Get W0 (QOne 3)))
  = ORef W0 (RStoch W0 0).
Proof. reflexivity. Qed.

(** Without that exception the claim is false of the code: deterministic() silently replaces a
    stochastic node (bn.py:373-385 has no check). *)
Theorem C05_permanent_refuted : exists (W : world) (b : bn W) n i t,
  snd (step W b (Get W (QOne n))) = ORef W (RStoch W i) /\
  snd (step W b (Deterministic W n t)) = OTensor W t /\
  snd (step W (fst (step W b (Deterministic W n t))) (Get W (QOne n))) = ORef W (RDet W t).
Proof.
  exists W0, (run W0 net0 [Stochastic W0 3 4 None]), 3, 0, 77. repeat split.
Qed.
Print Assumptions C05_permanent_refuted.

(** A call affects only the name it creates. *)
Theorem C05_other_names_untouched : forall (W : world) (b : bn W) c m,
  (forall n d ns, c = Stochastic W n d ns -> n <> m) ->
  (forall n d ns o, c = Legacy W n d ns o -> n <> m) ->
  (forall n t, c = Deterministic W n t -> n <> m) ->
  snd (step W (fst (step W b c)) (Get W (QOne m))) = snd (step W b (Get W (QOne m))).
Proof.
  intros W b c m H1 H2 H3. rewrite !get_one. cbn [snd]. rewrite nodes_step; auto.
  - destruct c; simpl; auto; eauto.
  - destruct c; auto. intros ->. exfalso. eapply H1; reflexivity.
Qed.
Print Assumptions C05_other_names_untouched.

(** A successful stochastic() binds the name to a node that no name denoted
    before. *)
Theorem C05_fresh_node : forall (W : world) loc c obs k0 h n d ns b1 i,
  let b := run W (new_bn W loc c obs k0) h in
  step W b (Stochastic W n d ns) = (b1, ORef W (RStoch W i)) ->
  bound W b1 n i /\ forall m, ~ bound W b m i.
Proof.
  intros W loc c obs k0 h n d ns b1 i b H.
  assert (I : inv W k0 b) by (apply inv_run, inv_new).
  destruct (stochastic_ok W _ _ _ _ _ _ H) as [ob [E [Hn [_ [-> [_ Hb]]]]]]. split.
  - apply bound_iff. rewrite Hb. rewrite <- dict_set_fresh by assumption. apply dict_get_set_eq.
  - intros m Hm. apply bound_iff in Hm.
    pose proof (proj2 (i_ids _ _ _ I) (length (b_objs W b))) as L.
    assert (In (length (b_objs W b)) (stoch_ids W b)).
    { apply in_ids. exists m. now apply dict_get_in. }
    apply L in H0. lia.
Qed.
Print Assumptions C05_fresh_node.

(** bn[name] = value is refused. *)
Theorem C05_no_item_assignment : forall (W : world) (b : bn W) n,
  step W b (SetItem W n) = (b, OErr W TypeError).
Proof. reflexivity. Qed.

(** ** C06 *)

(** log_joint() is the sum of the log-densities of exactly the current
    stochastic nodes, each at the value it reads as; for every history that does
    not bypass stochastic(). *)
Theorem C06_log_joint_is_sum : forall (W : world) loc obs k0 h,
  let b0 := new_bn W loc (CNone W) obs k0 in
  let b := run W b0 h in
  safe W b0 h ->
  exists b' ids (parts : list (w_dist W * w_tensor W)),
    step W b (LogJoint W) =
      (b', OVal W (py_sum W (map (fun p => w_log_prob W (fst p) (snd p)) parts))) /\
    lists_stochastic W b ids /\ lists_stochastic W b' ids /\
    Forall2 (fun i p =>
       (exists nd, nth_error (b_objs W b) i = Some nd /\ sn_dist W nd = fst p) /\
       step W b' (ReadTensor W i) = (b', OTensor W (snd p))) ids parts.
Proof.
  intros W loc obs k0 h b0 b S. apply (log_joint_sum W k0).
  - apply inv_run, inv_new.
  - apply (good_run W k0); [apply inv_new|apply good_new|exact S].
  - unfold b. rewrite custom_run; auto.
Qed.
Print Assumptions C06_log_joint_is_sum.

Definition hist6 : list (call W0) :=
  [Stochastic W0 1 4 None; LogJoint W0; Stochastic W0 2 3 None; Deterministic W0 9 1;
   Stochastic W0 3 2 (Some 6); ReadTensor W0 2; LogJoint W0; Deterministic W0 9 2].
Example C06_case : safe W0 net0 hist6 /\
  snd (step W0 (run W0 net0 hist6) (LogJoint W0)) =
  OVal W0 ((10*4 + 7) + (10*3 + 8) + (10*2 + 205)).
Proof.
  split; [|reflexivity]. simpl. repeat split; auto; intros i H; vm_compute in H; discriminate.
Qed.

(** A custom log_joint function set on the model before the network is built
    gets the log-densities of the names it asks for. *)
Theorem C06_custom_log_joint : forall (W : world) loc obs k0 h names f,
  let b0 := new_bn W loc (CFun W names f) obs k0 in
  let b := run W b0 h in
  safe W b0 h ->
  (forall n, In n names -> exists i, bound W b n i) ->
  exists b' vs, step W b (LogJoint W) = (b', OVal W (f vs)) /\
    Forall2 (fun n v => exists i nd t, bound W b' n i /\ nth_error (b_objs W b') i = Some nd /\
        step W b' (ReadTensor W i) = (b', OTensor W t) /\
        v = w_log_prob W (sn_dist W nd) t) names vs.
Proof.
  intros W loc obs k0 h names f b0 b S B.
  assert (I : inv W k0 b) by (apply inv_run, inv_new).
  assert (G : good W b) by (apply (good_run W k0); [apply inv_new|apply good_new|exact S]).
  assert (Cu : b_custom W b = CFun W names f) by (unfold b; rewrite custom_run; auto).
  destruct (log_joint_good W k0 b I G) as [G1 [J [_ [T [Hn [Hc Ev]]]]]].
  destruct (T names f Cu) as [v Hv].
  { apply Forall_forall. intros n H. destruct (B n H) as [i Hi]. exists i. now apply bound_iff. }
  pose proof (J v Hv) as Jv. unfold joint_is in Jv. rewrite Hc, Cu in Jv.
  destruct Jv as [vs [F ->]].
  assert (I1 : inv W k0 (fst (log_joint W b))) by (exact (inv_step W k0 b (LogJoint W) I)).
  exists (fst (log_joint W b)), vs. split.
  - simpl. destruct (log_joint W b); simpl in *. congruence.
  - eapply Forall2_impl; [|exact F]. intros n v [i [H1 H2]].
    destruct (has_clp_value W k0 _ i v I1 H2) as [nd [t [E [Rd ->]]]].
    exists i, nd, t. split; [now apply bound_iff|]. auto.
Qed.
Print Assumptions C06_custom_log_joint.

Example C06_custom_case :
  let b0 := new_bn W0 None (CFun W0 [3; 2] (fun l => 2 * py_sum W0 l)) [(2, Some 8)] 5 in
  snd (step W0 (run W0 b0 [Stochastic W0 2 3 None; Stochastic W0 3 2 None; Stochastic W0 4 2 None])
         (LogJoint W0)) = OVal W0 (2 * ((10*2 + 205) + (10*3 + 8))).
Proof. reflexivity. Qed.

(** A log_joint that is not callable is reported, every time, and changes nothing. *)
Theorem C06_not_callable : forall (W : world) loc obs k0 h,
  let b0 := new_bn W loc (CNotCallable W) obs k0 in
  safe W b0 h -> step W (run W b0 h) (LogJoint W) = (run W b0 h, OErr W TypeError).
Proof.
  intros W loc obs k0 h b0 S. set (b := run W b0 h).
  assert (I : inv W k0 b) by (apply inv_run, inv_new).
  assert (G : good W b) by (apply (good_run W k0); [apply inv_new|apply good_new|exact S]).
  assert (Cu : b_custom W b = CNotCallable W) by (unfold b; rewrite custom_run; auto).
  destruct (log_joint_good W k0 b I G) as [_ [J [_ [_ [_ [Hc _]]]]]].
  cbn [step]. unfold log_joint in *. destruct (b_cache W b) as [v|].
  - specialize (J v eq_refl). unfold joint_is in J. cbn in J. now rewrite Cu in J.
  - unfold log_joint_compute. now rewrite Cu.
Qed.
Print Assumptions C06_not_callable.
Example C06_not_callable_case : let b0 := new_bn W0 None (CNotCallable W0) [] 7 in
  safe W0 b0 [Stochastic W0 1 4 None; LogJoint W0; Stochastic W0 2 3 None; ReadTensor W0 1].
Proof. simpl. auto. Qed.

(** The restrictions of C06_log_joint_is_sum are needed. A
    deterministic() over a stochastic name, a deprecated construction, and a
    change of meta_bn.log_joint all leave a stale cached value behind; without
    the earlier query the answer differs. *)
Theorem C06_stale_after_deterministic_refuted : exists (W : world) (b : bn W) c v v',
  snd (step W (run W b [c]) (LogJoint W)) = OVal W v /\
  snd (step W (run W b [LogJoint W; c]) (LogJoint W)) = OVal W v' /\ v <> v' /\
  exists n t, c = Deterministic W n t.
Proof.
  exists W0, (run W0 net0 [Stochastic W0 1 4 None; Stochastic W0 2 4 None]),
    (Deterministic W0 2 0), 47, 95.
  repeat split; try discriminate. eauto.
Qed.
Theorem C06_stale_after_legacy_refuted : exists (W : world) (b : bn W) c v v',
  snd (step W (run W b [c]) (LogJoint W)) = OVal W v /\
  snd (step W (run W b [LogJoint W; c]) (LogJoint W)) = OVal W v' /\ v <> v' /\
  exists n d ns o, c = Legacy W n d ns o.
Proof.
  exists W0, (run W0 net0 [Stochastic W0 1 4 None]), (Legacy W0 4 1 None (Some 3)), 60, 47.
  repeat split; try discriminate. eauto 8.
Qed.
Theorem C06_stale_after_set_log_joint_refuted : exists (W : world) (b : bn W) c v v',
  snd (step W (run W b [c]) (LogJoint W)) = OVal W v /\
  snd (step W (run W b [LogJoint W; c]) (LogJoint W)) = OVal W v' /\ v <> v' /\
  exists f, c = SetLogJoint W f.
Proof.
  exists W0, (run W0 net0 [Stochastic W0 1 4 None]), (SetLogJoint W0 (CFun W0 [1] (fun _ => 3))), 3, 47.
  repeat split; try discriminate. eauto.
Qed.
(** A deprecated construction that raises leaves a node behind on which every
    later log_joint() fails. *)
Theorem C06_failed_legacy_breaks_network_refuted : exists (W : world) (b : bn W) n d o,
  snd (step W b (Legacy W n d None (Some o))) = OErr W ValueError /\
  snd (step W b (LogJoint W)) <> OErr W AttributeError /\
  snd (step W (fst (step W b (Legacy W n d None (Some o)))) (LogJoint W)) = OErr W AttributeError.
Proof.
  exists W0, net0, 3, 4, 2000. repeat split. discriminate.
Qed.
Print Assumptions C06_stale_after_deterministic_refuted.
Print Assumptions C06_stale_after_legacy_refuted.
Print Assumptions C06_stale_after_set_log_joint_refuted.
Print Assumptions C06_failed_legacy_breaks_network_refuted.

(** ** C07 *)

(** get() of a list: the answers of the single queries, in the order asked; if
    any name is unknown, ValueError; never changes the network. *)
Theorem C07_get_many : forall (W : world) (b : bn W) l,
  (exists rs, step W b (Get W (QMany l)) = (b, ORefs W rs) /\
     Forall2 (fun n r => step W b (Get W (QOne n)) = (b, ORef W r)) l rs) \/
  (step W b (Get W (QMany l)) = (b, OErr W ValueError) /\
     exists n, In n l /\ step W b (Get W (QOne n)) = (b, OErr W ValueError)).
Proof.
  intros W b l. cbn [step]. unfold get. cbn [query_names].
  destruct (check_names W b false l) as [e|] eqn:C.
  - right. rewrite (check_names_some W _ _ _ _ C). split; [reflexivity|].
    destruct (check_false_some W _ _ _ C) as [n [Hn E]]. exists n. split; [assumption|].
    change (step W b (Get W (QOne n)) = (b, OErr W ValueError)). now rewrite get_one, E.
  - left. destruct (map_get W b l C) as [rs [-> F]]. exists rs. split; [destruct rs; reflexivity|].
    eapply Forall2_impl; [|exact F]. intros n r E.
    change (step W b (Get W (QOne n)) = (b, ORef W r)). now rewrite get_one, E.
Qed.
Print Assumptions C07_get_many.

(** cond_log_prob() of a list, all-or-nothing: if some name is not a current
    stochastic node nothing happens at all (no value is drawn); otherwise the
    answers are, in order, those of the single queries. *)
Theorem C07_cond_log_prob_refused : forall (W : world) (b : bn W) l n,
  In n l -> (forall i, ~ bound W b n i) ->
  step W b (CondLogProb W (QMany l)) = (b, OErr W ValueError).
Proof.
  intros W b l n Hn B. cbn [step]. unfold cond_log_prob. cbn [query_names].
  destruct (check_names W b true l) as [e|] eqn:C.
  - now rewrite (check_names_some W _ _ _ _ C).
  - apply check_names_none in C. rewrite Forall_forall in C.
    destruct (C n Hn) as [i Hi]. exfalso. apply (B i). now apply bound_iff.
Qed.
Print Assumptions C07_cond_log_prob_refused.

Theorem C07_cond_log_prob_many : forall (W : world) loc c obs k0 h l,
  let b0 := new_bn W loc c obs k0 in
  let b := run W b0 h in
  safe W b0 h -> (forall n, In n l -> exists i, bound W b n i) ->
  exists b' vs, step W b (CondLogProb W (QMany l)) = (b', OVals W vs) /\
    Forall2 (fun n v => step W b' (CondLogProb W (QOne n)) = (b', OVal W v) /\
       exists i, bound W b n i /\ step W b' (CondLogP W i) = (b', OVal W v)) l vs.
Proof.
  intros W loc c obs k0 h l b0 b S B.
  assert (I : inv W k0 b) by (apply inv_run, inv_new).
  assert (G : good W b) by (apply (good_run W k0); [apply inv_new|apply good_new|exact S]).
  cbn [step]. unfold cond_log_prob at 1. cbn [query_names].
  assert (Fa : Forall (fun n => exists i, dict_get (b_nodes W b) n = Some (RStoch W i)) l).
  { apply Forall_forall. intros n Hn. destruct (B n Hn) as [i Hi]. exists i. now apply bound_iff. }
  rewrite (proj2 (check_names_none W b l) Fa).
  destruct (map_ncl W k0 l b I G Fa) as [b' [vs [M [R [I1 [G1 F]]]]]]. rewrite M.
  exists b', vs. split; [destruct vs; reflexivity|].
  eapply Forall2_impl; [|exact F]. intros n v [i [Hi [nd [E Hc]]]].
  assert (Hcl : cond_log_p W b' i = (b', inr v)).
  { unfold cond_log_p. now rewrite E, Hc. }
  split.
  - unfold cond_log_prob. simpl. unfold check_name, node_cond_log_p. rewrite Hi.
    rewrite Hcl. reflexivity.
  - exists i. split.
    + apply bound_iff. destruct R as [_ [[_ [_ [_ N]]] _]]. congruence.
    + simpl. now rewrite Hcl.
Qed.
Print Assumptions C07_cond_log_prob_many.

Example C07_case :
  snd (step W0 (run W0 net0 hist6) (CondLogProb W0 (QMany [3; 1; 3]))) = OVals W0 [225; 47; 225] /\
  step W0 (run W0 net0 hist6) (CondLogProb W0 (QMany [3; 9])) =
    (run W0 net0 hist6, OErr W0 ValueError) /\
  snd (step W0 (run W0 net0 hist6) (Get W0 (QMany [9; 3]))) = ORefs W0 [RDet W0 2; RStoch W0 2].
Proof. split; [|split]; vm_compute; reflexivity. Qed.

(** outputs() of a list of current stochastic names: their values in order. *)
Theorem C07_outputs_many : forall (W : world) loc c obs k0 h l,
  let b0 := new_bn W loc c obs k0 in
  let b := run W b0 h in
  safe W b0 h -> (forall n, In n l -> exists i, bound W b n i) ->
  exists b' ts, step W b (Outputs W (QMany l)) = (b', OTensors W ts) /\
    Forall2 (fun n t => exists i, bound W b n i /\
        step W b' (ReadTensor W i) = (b', OTensor W t)) l ts.
Proof.
  intros W loc c obs k0 h l b0 b S B.
  assert (I : inv W k0 b) by (apply inv_run, inv_new).
  assert (G : good W b) by (apply (good_run W k0); [apply inv_new|apply good_new|exact S]).
  cbn [step]. unfold outputs. cbn [query_names].
  assert (Fa : Forall (fun n => exists i, dict_get (b_nodes W b) n = Some (RStoch W i)) l).
  { apply Forall_forall. intros n Hn. destruct (B n Hn) as [i Hi]. exists i. now apply bound_iff. }
  destruct (check_names W b false l) as [e|] eqn:C.
  { exfalso. destruct (check_false_some W _ _ _ C) as [n [Hn E]].
    rewrite Forall_forall in Fa. destruct (Fa n Hn) as [i Hi]. congruence. }
  destruct (map_nt W l b G (proj2 (i_ids _ _ _ I)) Fa) as [b' [ts [M [R F]]]]. rewrite M.
  exists b', ts. split; [destruct ts; reflexivity|].
  eapply Forall2_impl; [|exact F]. intros n t [i [nd [Hi [E V]]]]. exists i. split.
  - apply bound_iff. destruct R as [_ [[_ [_ [_ N]]] _]]. congruence.
  - change (step W b' (ReadTensor W i) = (b', OTensor W t)). eapply read_held; eauto.
Qed.
Print Assumptions C07_outputs_many.

(** outputs() of one name rather than a list: the value itself, not a list of one. *)
Theorem C07_outputs_one : forall (W : world) loc c obs k0 h n i,
  let b0 := new_bn W loc c obs k0 in
  let b := run W b0 h in
  safe W b0 h -> bound W b n i ->
  exists b' t, step W b (Outputs W (QOne n)) = (b', OTensor W t) /\
    step W b' (ReadTensor W i) = (b', OTensor W t).
Proof.
  intros W loc c obs k0 h n i b0 b S B.
  destruct (C07_outputs_many W loc c obs k0 h [n] S) as [b' [ts [E F]]].
  { intros n' [<-|[]]. now exists i. }
  inversion F as [|? t ? ts' [j [Bj R]] F1]; subst. inversion F1; subst.
  assert (j = i) as -> by (apply bound_iff in B; apply bound_iff in Bj; unfold b, b0 in *; congruence).
  exists b', t. split; [|easy]. revert E. cbn [step]. unfold outputs. cbn [query_names]. fold b0 b.
  destruct (check_names W b false [n]); [discriminate|]. destruct (map_state _ _ b [n]) as [b1 [e|l]]; [discriminate|].
  intros [= -> ->]. reflexivity.
Qed.
Print Assumptions C07_outputs_one.
Example C07_outputs_case : exists t,
  snd (step W0 (run W0 net0 hist6) (Outputs W0 (QOne 3))) = OTensor W0 t /\
  snd (step W0 (run W0 net0 hist6) (Outputs W0 (QMany [3]))) = OTensors W0 [t].
Proof. eexists. split; vm_compute; reflexivity. Qed.

(** outputs() of a name bound by deterministic() fails although the name is in
    the network (a plain Tensor has no [.tensor]). *)
Theorem C07_outputs_deterministic_refuted : exists (W : world) (b : bn W) n t,
  snd (step W b (Get W (QOne n))) = ORef W (RDet W t) /\
  snd (step W b (Outputs W (QOne n))) = OErr W AttributeError.
Proof. exists W0, (run W0 net0 [Deterministic W0 3 5]), 3, 5. repeat split. Qed.
Print Assumptions C07_outputs_deterministic_refuted.

(** ** C08 *)

(** The value of a new stochastic node: the enclosing observe()'s observation of
    its name if there is one (and it is not None); otherwise the constructor's;
    otherwise a sample. An unusable observation is a ValueError and the name
    stays free. *)
Theorem C08_precedence : forall (W : world) (b : bn W) n d ns,
  snd (step W b (Get W (QOne n))) = OErr W ValueError ->
  let from_observe := match b_local W b with Some obs => obs n | None => None end in
  let from_constructor := dict_get (b_observed W b) n in
  let chosen := match from_observe with
                | Some o => Some (w_convert W d o)
                | None => match from_constructor with
                          | Some (Some o) => Some (w_convert W d o)
                          | Some None => Some None
                          | None => None
                          end
                end in
  match chosen with
  | Some (Some t) => exists b1 i,       (* observed *)
      step W b (Stochastic W n d ns) = (b1, ORef W (RStoch W i)) /\ bound W b1 n i /\
      b_draws W b1 = b_draws W b /\
      forall h, step W (run W b1 h) (ReadTensor W i) = (run W b1 h, OTensor W t)
  | Some None => exists b1,             (* rejected observation *)
      step W b (Stochastic W n d ns) = (b1, OErr W ValueError) /\
      forall m, snd (step W b1 (Get W (QOne m))) = snd (step W b (Get W (QOne m)))
  | None => exists b1 i,                (* sampled, on first read *)
      step W b (Stochastic W n d ns) = (b1, ORef W (RStoch W i)) /\ bound W b1 n i /\
      b_draws W b1 = b_draws W b /\
      snd (step W b1 (ReadTensor W i)) = OTensor W (w_sample W d ns (b_draws W b)) /\
      b_draws W (fst (step W b1 (ReadTensor W i))) = S (b_draws W b)
  end.
Proof.
  intros W b n d ns H. rewrite get_one in H. cbn [snd] in H.
  destruct (dict_get (b_nodes W b) n) eqn:En; [discriminate|]. clear H.
  assert (Obs : forall ob,
    init_observation W (set_cache W b None) n d (get_observation W (set_cache W b None) n) = inr ob ->
    exists b1, step W b (Stochastic W n d ns) = (b1, ORef W (RStoch W (length (b_objs W b)))) /\
      nth_error (b_objs W b1) (length (b_objs W b)) = Some (SNode W d ns ob None None true) /\
      bound W b1 n (length (b_objs W b)) /\ b_draws W b1 = b_draws W b).
  { intros ob Hi. simpl. unfold stochastic. rewrite En, Hi. simpl. eexists.
    split; [reflexivity|]. simpl. split; [rewrite nth_error_app2, Nat.sub_diag; auto|].
    split; [|reflexivity]. apply bound_iff. simpl. apply dict_get_set_eq. }
  assert (Err : forall e, e = ValueError ->
    init_observation W (set_cache W b None) n d (get_observation W (set_cache W b None) n) = inl e ->
    exists b1, step W b (Stochastic W n d ns) = (b1, OErr W ValueError) /\
      forall m, snd (step W b1 (Get W (QOne m))) = snd (step W b (Get W (QOne m)))).
  { intros e -> Hi. simpl. unfold stochastic. rewrite En, Hi. eexists. split; [reflexivity|].
    intros m. change (snd (step W (set_cache W b None) (Get W (QOne m))) =
                      snd (step W b (Get W (QOne m)))). now rewrite !get_one. }
  assert (Done : forall t,
    init_observation W (set_cache W b None) n d (get_observation W (set_cache W b None) n) = inr (Some t) ->
    exists b1 i,
      step W b (Stochastic W n d ns) = (b1, ORef W (RStoch W i)) /\ bound W b1 n i /\
      b_draws W b1 = b_draws W b /\
      forall h, step W (run W b1 h) (ReadTensor W i) = (run W b1 h, OTensor W t)).
  { intros t Hi. destruct (Obs _ Hi) as [b1 [H1 [H2 [H3 H4]]]].
    exists b1, (length (b_objs W b)). split; [assumption|]. split; [assumption|]. split; [assumption|].
    intros h. eapply observed_read; [exact H2|]. apply run_evolves. }
  unfold init_observation, get_observation in *. simpl in Obs, Err, Done. cbv zeta.
  destruct (match b_local W b with Some obs => obs n | None => None end) as [o|].
  - destruct (w_convert W d o) as [t|]; eauto.
  - destruct (dict_get (b_observed W b) n) as [[o|]|].
    + destruct (w_convert W d o) as [t|]; eauto.
    + eauto.
    + destruct (Obs _ eq_refl) as [b1 [H1 [H2 [H3 H4]]]].
      exists b1, (length (b_objs W b)). split; [assumption|]. split; [assumption|].
      split; [assumption|]. rewrite step_ReadTensor. unfold read_tensor. rewrite H2. simpl.
      rewrite H4. auto.
Qed.
Print Assumptions C08_precedence.

(** The four outcomes all occur. *)
Example C08_cases :
  let net := new_bn W0 (Some (fun n => if Nat.eqb n 1 then Some 7 else None)) (CNone W0)
               [(1, Some 6); (2, Some 8); (3, Some 2000); (5, None)] 5 in
  let value n := snd (step W0 (run W0 net [Stochastic W0 n 4 None]) (ReadTensor W0 0)) in
  let made n := snd (step W0 net (Stochastic W0 n 4 None)) in
  value 1 = OTensor W0 7 /\ value 2 = OTensor W0 8 /\ value 4 = OTensor W0 405 /\
  made 3 = OErr W0 ValueError /\ made 5 = OErr W0 ValueError.
Proof. repeat split. Qed.
