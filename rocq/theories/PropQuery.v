(** C04, C07: the deprecated query() and the deprecated methods of a stochastic node. *)
From Coq Require Import List Arith Bool Lia.
From Verif Require Import ModelBN SpecBN ProofBN ModelQuery PropBN.
Import ListNotations.

Lemma safe_snoc (W : world) h : forall b c, safe W b h -> ok_call W (run W b h) c -> safe W b (h ++ [c]).
Proof. induction h as [|a h IH]; intros b c; cbn; [tauto|]. intros [H1 H2] H3. split; [exact H1|]. now apply IH. Qed.
Lemma run_snoc (W : world) (b : bn W) h c : run W b (h ++ [c]) = fst (step W (run W b h) c).
Proof. unfold run. now rewrite fold_left_app. Qed.
Lemma bound_kept (W : world) (b : bn W) q n i :
  bound W (fst (step W b (Outputs W q))) n i <-> bound W b n i.
Proof.
  rewrite !bound_iff. cbn [step].
  assert (R : reads W b (fst (outputs W b q))).
  { unfold outputs. destruct (check_names W b false (query_names q)); [apply reads_refl|].
    pose proof (map_state_reads W (node_tensor W) (node_tensor_reads W) (query_names q) b) as M.
    destruct (map_state W (node_tensor W) b (query_names q)) as [b1 [e|l]]; [exact M|]. destruct q; [|exact M]. destruct l as [|? [|]]; exact M. }
  destruct R as [_ [[_ [_ [_ N]]] _]]. rewrite N. tauto.
Qed.
Lemma known (W : world) (b : bn W) l : (forall n, In n l -> exists i, bound W b n i) -> check_names W b false l = None.
Proof.
  intros H. destruct (check_names W b false l) as [e|] eqn:C; [|reflexivity].
  destruct (check_false_some W _ _ _ C) as [n [Hn E]]. destruct (H n Hn) as [i Hi]. apply bound_iff in Hi. congruence.
Qed.

(** query() of a list of current stochastic names with both options: one pair for each
    name, in the order asked: the node's value and its log-probability at that value, the
    ones every later query of the node gives. *)
Theorem C07_query_many : forall (W : world) loc c obs k0 h l,
  let b0 := new_bn W loc c obs k0 in
  let b := run W b0 h in
  safe W b0 h -> (forall n, In n l -> exists i, bound W b n i) ->
  exists b' rows, query_net W b (QMany l) true true = (b', AList W rows) /\
    Forall2 (fun n row => exists i t v, bound W b n i /\ row = [ITensor W t; IVal W v] /\
       step W b' (ReadTensor W i) = (b', OTensor W t) /\
       step W b' (CondLogP W i) = (b', OVal W v)) l rows.
Proof.
  intros W loc c obs k0 h l b0 b S B.
  destruct (C07_outputs_many W loc c obs k0 h l S B) as [b1 [ts [E1 F1]]]. fold b0 b in E1, F1.
  destruct (C07_cond_log_prob_many W loc c obs k0 (h ++ [Outputs W (QMany l)]) l) as [b2 [vs [E2 F2]]].
  { apply safe_snoc; [exact S|exact Logic.I]. }
  { intros n Hn. destruct (B n Hn) as [i Hi]. exists i. rewrite run_snoc. now apply bound_kept. }
  rewrite run_snoc in E2, F2. fold b0 b in E2, F2. rewrite E1 in E2, F2. cbn [fst] in E2, F2.
  exists b2, (map (fun xy => [ITensor W (fst xy); IVal W (snd xy)]) (combine ts vs)). split.
  - unfold query_net. cbn [query_names]. rewrite (known W b l B). unfold append_if. rewrite E1. cbn [part_of app]. rewrite E2. cbn [part_of app map items zip].
    f_equal. f_equal. generalize ts vs. intros a. induction a as [|x a IH]; intros [|y v]; try reflexivity. cbn. f_equal. apply IH.
  - assert (K : forall n i, bound W b1 n i -> bound W b n i).
    { intros n i H. apply (bound_kept W b (QMany l)). now rewrite E1. }
    assert (V : forall i t, step W b1 (ReadTensor W i) = (b1, OTensor W t) -> step W b2 (ReadTensor W i) = (b2, OTensor W t)).
    { intros i t H. pose proof (C04_value_stable W b1 [] [CondLogProb W (QMany l)] i t) as Q. cbn [run fold_left] in Q.
      rewrite H in Q. cbn [fst snd] in Q. rewrite E2 in Q. exact (Q eq_refl). }
    clear - F1 F2 K V. revert vs F2. induction F1 as [|n t l ts [i [Hi Rt]] F1 IH]; intros vs F2; inversion F2 as [|? v ? vs' [_ [j [Hj Rv]]] F2']; subst; [constructor|].
    cbn [combine map fst snd]. constructor; [|now apply IH].
    apply K in Hj. assert (j = i) as -> by (apply bound_iff in Hi; apply bound_iff in Hj; congruence).
    exists i, t, v. auto.
Qed.
Print Assumptions C07_query_many.

(** One name: the pair itself. *)
Theorem C07_query_one : forall (W : world) loc c obs k0 h n i,
  let b0 := new_bn W loc c obs k0 in
  let b := run W b0 h in
  safe W b0 h -> bound W b n i ->
  exists b' t v, query_net W b (QOne n) true true = (b', ATuple W [ITensor W t; IVal W v]) /\
    step W b' (ReadTensor W i) = (b', OTensor W t) /\ step W b' (CondLogP W i) = (b', OVal W v).
Proof.
  intros W loc c obs k0 h n i b0 b S B.
  destruct (C07_query_many W loc c obs k0 h [n] S) as [b2 [rows [E F]]].
  { intros n' [<-|[]]. now exists i. }
  fold b0 b in E, F. inversion F as [|? row ? rows' [j [t [v [Bj [-> [Rt Rv]]]]]] F1]; subst. inversion F1; subst.
  assert (j = i) as -> by (apply bound_iff in B; apply bound_iff in Bj; congruence).
  exists b2, t, v. split; [|auto]. revert E. unfold query_net. cbn [query_names].
  destruct (check_names W b false [n]) eqn:C; [discriminate|]. unfold append_if. cbn [step]. unfold outputs. cbn [query_names]. rewrite C.
  cbn [map_state]. destruct (node_tensor W b n) as [b1 [e|t']]; [discriminate|]. cbn [part_of app].
  unfold cond_log_prob. cbn [query_names]. destruct (check_names W b1 true [n]); [discriminate|].
  cbn [map_state]. destruct (node_cond_log_p W b1 n) as [b3 [e|v']]; [discriminate|]. cbn.
  intros [= -> -> ->]. reflexivity.
Qed.
Print Assumptions C07_query_one.

(** One option only: what outputs() or cond_log_prob() give, each in a tuple of its own;
    no option: ValueError. A name that is not in the network: ValueError, before anything
    is drawn. *)
Theorem C07_query_options : forall (W : world) (b : bn W) l,
  (forall n, In n l -> exists i, bound W b n i) ->
  (forall b' ts, step W b (Outputs W (QMany l)) = (b', OTensors W ts) ->
     query_net W b (QMany l) true false = (b', AList W (map (fun t => [ITensor W t]) ts))) /\
  (forall b' vs, step W b (CondLogProb W (QMany l)) = (b', OVals W vs) ->
     query_net W b (QMany l) false true = (b', AList W (map (fun v => [IVal W v]) vs))) /\
  query_net W b (QMany l) false false = (b, AErr W ValueError).
Proof.
  intros W b l B. unfold query_net. cbn [query_names]. rewrite (known W b l B). unfold append_if. repeat split.
  - intros b' ts E. rewrite E. cbn [part_of app map items zip]. now rewrite map_map.
  - intros b' vs E. rewrite E. cbn [part_of app map items zip]. now rewrite map_map.
Qed.
Theorem C07_query_refused : forall (W : world) (b : bn W) q n o1 o2,
  In n (query_names q) -> snd (step W b (Get W (QOne n))) = OErr W ValueError ->
  query_net W b q o1 o2 = (b, AErr W ValueError).
Proof.
  intros W b q n o1 o2 Hn G. rewrite get_one in G. cbn [snd] in G. unfold query_net.
  destruct (check_names W b false (query_names q)) as [e|] eqn:C; [now rewrite (check_names_some W _ _ _ _ C)|].
  exfalso. apply (check_false_none W b _ C n Hn). destruct (dict_get (b_nodes W b) n); [discriminate|reflexivity].
Qed.
Print Assumptions C07_query_options.
Print Assumptions C07_query_refused.

Example C07_query_case :
  let b := run W0 net0 [Stochastic W0 3 4 None; Stochastic W0 1 4 None] in
  snd (query_net W0 b (QMany [3; 1]) true true) = AList W0 [[ITensor W0 405; IVal W0 445]; [ITensor W0 7; IVal W0 47]] /\
  snd (query_net W0 b (QOne 1) true true) = ATuple W0 [ITensor W0 7; IVal W0 47] /\
  query_net W0 b (QMany [3; 8]) true true = (b, AErr W0 ValueError).
Proof. repeat split; vm_compute; reflexivity. Qed.

(** The deprecated sample() of a node draws anew: it neither is nor changes the node's
    value, whether that was read before or is read afterwards. *)
Theorem C04_node_sample : forall (W : world) (b : bn W) i ns t,
  snd (step W b (ReadTensor W i)) = OTensor W t ->
  let b1 := fst (step W b (ReadTensor W i)) in
  exists d, node_sample W b1 i ns = (incr_draws W b1, OTensor W (w_sample W d ns (b_draws W b1))) /\
    step W (incr_draws W b1) (ReadTensor W i) = (incr_draws W b1, OTensor W t) /\
    (forall v, snd (step W b1 (CondLogP W i)) = OVal W v -> snd (step W (incr_draws W b1) (CondLogP W i)) = OVal W v).
Proof.
  intros W b i ns t H b1. destruct (read_result W b i t H) as [nd [E V]]. fold b1 in E.
  exists (sn_dist W nd). split; [unfold node_sample; now rewrite E|].
  assert (E' : nth_error (b_objs W (incr_draws W b1)) i = Some nd) by exact E.
  split; [eapply read_held; eauto|].
  intros v. rewrite !step_CondLogP. cbn [snd]. unfold cond_log_p. rewrite E, E'. destruct (sn_cond_log_p W nd) as [v'|]; [auto|].
  pose proof (read_held W b1 i nd t E V) as R1. pose proof (read_held W _ i nd t E' V) as R2. rewrite step_ReadTensor in R1, R2.
  destruct (read_tensor W b1 i) as [b2 [e|t2]]; [discriminate|]. destruct (read_tensor W (incr_draws W b1) i) as [b3 [e|t3]]; [discriminate|].
  cbn in R1, R2. injection R1 as -> ->. injection R2 as -> ->. rewrite E, E'. auto.
Qed.
Print Assumptions C04_node_sample.

(** Its log_prob() is that of the distribution the node was created with, at any point of
    any history. *)
Theorem C04_node_log_prob : forall (W : world) (b : bn W) n d ns b1 i h,
  step W b (Stochastic W n d ns) = (b1, ORef W (RStoch W i)) ->
  forall given, node_log_prob W (run W b1 h) i given = (run W b1 h, OVal W (w_log_prob W d given)).
Proof.
  intros W b n d ns b1 i h H given. destruct (stochastic_ok W _ _ _ _ _ _ H) as [ob [E _]].
  destruct (proj2 (run_evolves W h b1) _ _ E) as [y [Ey Ev]]. unfold node_log_prob. rewrite Ey, (ev_dist _ _ _ Ev). reflexivity.
Qed.
Print Assumptions C04_node_log_prob.
Example C04_node_case :
  let b := run W0 net0 [Stochastic W0 3 4 None; ReadTensor W0 0] in
  snd (node_sample W0 b 0 None) = OTensor W0 406 /\ snd (step W0 (fst (node_sample W0 b 0 None)) (ReadTensor W0 0)) = OTensor W0 405 /\
  snd (node_log_prob W0 b 0 405) = snd (step W0 b (CondLogP W0 0)).
Proof. repeat split. Qed.
