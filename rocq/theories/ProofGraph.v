From Coq Require Import List Arith Bool Lia Relations.
From Verif Require Import ModelGraph SpecGraph.
Import ListNotations.

Lemma tensor_eqb_eq a b : tensor_eqb a b = true <-> a = b.
Proof.
  destruct a as [a1 a2], b as [b1 b2]; unfold tensor_eqb; simpl.
  rewrite andb_true_iff, !Nat.eqb_eq. split.
  - intros [-> ->]; reflexivity.
  - intros H; inversion H; auto.
Qed.

Lemma tensor_in_In t s : tensor_in t s = true <-> In t s.
Proof.
  unfold tensor_in. rewrite existsb_exists. split.
  - intros [x [Hin He]]. apply tensor_eqb_eq in He; subst; assumption.
  - intros H; exists t; split; [assumption|]. now apply tensor_eqb_eq.
Qed.

Lemma op_in_In o s : op_in o s = true <-> In o s.
Proof.
  unfold op_in. rewrite existsb_exists. split.
  - intros [x [Hin He]]. apply Nat.eqb_eq in He; subst; assumption.
  - intros H; exists o; split; [assumption|]. now apply Nat.eqb_eq.
Qed.

Lemma fromkeys_acc_In o l : forall acc,
  In o (fromkeys_acc acc l) <-> In o l /\ ~ In o acc.
Proof.
  induction l as [|x l IH]; intros acc; simpl; [tauto|].
  destruct (op_in x acc) eqn:E.
  - apply op_in_In in E. rewrite IH. split.
    + tauto.
    + intros [[->|H] H2]; tauto.
  - assert (~ In x acc) by (intro H; apply op_in_In in H; congruence).
    simpl. rewrite IH. simpl. split.
    + intros [->|[H1 H2]]; [tauto|]. split; [tauto|]. tauto.
    + intros [[->|H1] H2]; [tauto|].
      destruct (Nat.eq_dec x o); [tauto|]. right. tauto.
Qed.

Lemma fromkeys_In o l : In o (fromkeys l) <-> In o l.
Proof. unfold fromkeys. rewrite fromkeys_acc_In. simpl. tauto. Qed.

(** The dependencies pushed for [o], in order. *)
Definition deps (g : graph) (treat : list tensor) (o : op) : list op :=
  op_control_inputs g o ++
  map t_op (filter (fun t => negb (tensor_in t treat)) (op_inputs g o)).

Lemma extendleft_rev l q : extendleft q (rev l) = l ++ q.
Proof.
  unfold extendleft. induction l as [|x l IH]; simpl; [reflexivity|].
  rewrite fold_left_app. simpl. rewrite IH. reflexivity.
Qed.

Lemma push_inputs_deps g treat o q :
  push_inputs g treat o q = deps g treat o ++ q.
Proof.
  unfold push_inputs, deps. rewrite extendleft_rev, <- app_assoc. f_equal.
  induction (op_inputs g o) as [|t l IH]; simpl; [reflexivity|].
  rewrite fold_left_app; simpl. rewrite IH.
  destruct (tensor_in t treat); simpl; reflexivity.
Qed.

Lemma deps_follows g treat o d : In d (deps g treat o) <-> follows g treat o d.
Proof.
  unfold deps, follows. rewrite in_app_iff, in_map_iff. split.
  - intros [H|[t [H1 H2]]]; [tauto|]. left. apply filter_In in H2.
    destruct H2 as [H2 H3]. exists t. split; [assumption|]. split; [|assumption].
    intro Hc. apply tensor_in_In in Hc. rewrite Hc in H3. discriminate.
  - intros [[t [H1 [H2 H3]]]|H]; [|tauto]. right. exists t. split; [assumption|].
    apply filter_In. split; [assumption|].
    destruct (tensor_in t treat) eqn:E; [|reflexivity].
    apply tensor_in_In in E; contradiction.
Qed.

Section DFS.
  Context (g : graph) (seeds treat : list tensor).

  Definition d_init : dfs :=
    Dfs (fromkeys (map t_op (filter (fun t => negb (tensor_in t treat)) seeds)))
        [] [] [].

  Lemma seeds_filter t :
    In t (filter (fun t => negb (tensor_in t treat)) seeds) <->
    In t seeds /\ ~ In t treat.
  Proof.
    rewrite filter_In. split.
    - intros [H1 H2]; split; [assumption|]. intro Hc; apply tensor_in_In in Hc.
      rewrite Hc in H2; discriminate.
    - intros [H1 H2]; split; [assumption|].
      destruct (tensor_in t treat) eqn:E; [|reflexivity].
      apply tensor_in_In in E; contradiction.
  Qed.

  (** Invariant that needs no acyclicity. *)
  Record inv (s : dfs) : Prop := {
    i_q_needed : forall o, In o (d_q s) -> needed g seeds treat o;
    i_seen_needed : forall o, In o (d_seen s) -> needed g seeds treat o;
    i_done_seen : forall o, In o (d_done s) -> In o (d_seen s);
    i_seen_nodup : NoDup (d_seen s);
    i_ret_done : forall o, In o (d_ret s) <-> In o (d_done s);
    i_ret_nodup : NoDup (d_ret s);
    i_pending : forall o, In o (d_seen s) -> In o (d_q s) \/ In o (d_done s);
    i_seeds : forall t, In t seeds -> ~ In t treat ->
                In (t_op t) (d_q s) \/ In (t_op t) (d_done s);
    i_closed : forall o d, In o (d_seen s) -> follows g treat o d ->
                In d (d_q s) \/ In d (d_done s) }.

  Lemma inv_init : inv d_init.
  Proof.
    assert (Hq : forall o, In o (d_q d_init) <->
              exists t, In t seeds /\ ~ In t treat /\ t_op t = o).
    { intros o. unfold d_init; simpl. rewrite fromkeys_In, in_map_iff. split.
      - intros [t [H1 H2]]. apply seeds_filter in H2. exists t; tauto.
      - intros [t [H1 [H2 H3]]]. exists t. split; [assumption|].
        apply seeds_filter; tauto. }
    constructor; try (simpl; tauto).
    - intros o H. apply Hq in H. destruct H as [t [H1 [H2 <-]]].
      now constructor.
    - simpl; constructor.
    - simpl; constructor.
    - intros t H1 H2. left. apply Hq. exists t; auto.
  Qed.

  Lemma nodup_app_one (l : list op) o : NoDup l -> ~ In o l -> NoDup (l ++ [o]).
  Proof.
    intros H1 H2. induction l as [|x l IH]; simpl.
    - constructor; [auto|constructor].
    - inversion H1; subst. constructor.
      + rewrite in_app_iff; simpl in *. intros [Hc|[Hc|[]]]; [tauto|].
        subst. apply H2; left; reflexivity.
      + apply IH; [assumption|]. simpl in H2; tauto.
  Qed.

  Lemma inv_step s s' : inv s -> dfs_step g treat s = Some s' -> inv s'.
  Proof.
    intros I Hs. unfold dfs_step in Hs.
    destruct (d_q s) as [|o q'] eqn:Eq; [discriminate|].
    destruct (op_in o (d_seen s)) eqn:Eseen; simpl in Hs.
    - apply op_in_In in Eseen.
      destruct (op_in o (d_done s)) eqn:Edone; simpl in Hs; inversion Hs; subst; clear Hs.
      + apply op_in_In in Edone.
        constructor; simpl.
        * intros x Hx. apply (i_q_needed _ I). rewrite Eq; right; assumption.
        * apply (i_seen_needed _ I).
        * apply (i_done_seen _ I).
        * apply (i_seen_nodup _ I).
        * apply (i_ret_done _ I).
        * apply (i_ret_nodup _ I).
        * intros x Hx. destruct (i_pending _ I x Hx) as [H|H]; [|tauto].
          rewrite Eq in H. destruct H as [->|H]; tauto.
        * intros t H1 H2. destruct (i_seeds _ I t H1 H2) as [H|H]; [|tauto].
          rewrite Eq in H. destruct H as [->|H]; tauto.
        * intros x d H1 H2. destruct (i_closed _ I x d H1 H2) as [H|H]; [|tauto].
          rewrite Eq in H. destruct H as [->|H]; tauto.
      + assert (Hnd : ~ In o (d_done s)) by (intro H; apply op_in_In in H; congruence).
        constructor; simpl.
        * intros x Hx. apply (i_q_needed _ I). rewrite Eq; right; assumption.
        * apply (i_seen_needed _ I).
        * intros x [->|H]; [assumption|]. now apply (i_done_seen _ I).
        * apply (i_seen_nodup _ I).
        * intros x. rewrite in_app_iff. simpl. rewrite (i_ret_done _ I x). tauto.
        * apply nodup_app_one; [apply (i_ret_nodup _ I)|].
          rewrite (i_ret_done _ I). assumption.
        * intros x Hx. destruct (i_pending _ I x Hx) as [H|H]; [|tauto].
          rewrite Eq in H. destruct H as [->|H]; tauto.
        * intros t H1 H2. destruct (i_seeds _ I t H1 H2) as [H|H]; [|tauto].
          rewrite Eq in H. destruct H as [->|H]; tauto.
        * intros x d H1 H2. destruct (i_closed _ I x d H1 H2) as [H|H]; [|tauto].
          rewrite Eq in H. destruct H as [->|H]; tauto.
    - assert (Hns : ~ In o (d_seen s)) by (intro H; apply op_in_In in H; congruence).
      inversion Hs; subst; clear Hs.
      assert (Ho : needed g seeds treat o)
        by (apply (i_q_needed _ I); rewrite Eq; left; reflexivity).
      constructor; simpl; rewrite ?push_inputs_deps.
      + intros x Hx. apply in_app_iff in Hx. destruct Hx as [Hx|Hx].
        * apply deps_follows in Hx. now apply needed_dep with o.
        * apply (i_q_needed _ I). now rewrite Eq.
      + intros x [<-|H]; [assumption|]. now apply (i_seen_needed _ I).
      + intros x H; right. now apply (i_done_seen _ I).
      + constructor; [assumption|]. apply (i_seen_nodup _ I).
      + apply (i_ret_done _ I).
      + apply (i_ret_nodup _ I).
      + intros x [<-|H].
        * left. apply in_app_iff. right; left; reflexivity.
        * destruct (i_pending _ I x H) as [H'|H']; [|tauto].
          left. apply in_app_iff. right. now rewrite <- Eq.
      + intros t H1 H2. destruct (i_seeds _ I t H1 H2) as [H|H]; [|tauto].
        left. apply in_app_iff. right. now rewrite <- Eq.
      + intros x d [<-|H] H2.
        * left. apply in_app_iff. left. now apply deps_follows.
        * destruct (i_closed _ I x d H H2) as [H'|H']; [|tauto].
          left. apply in_app_iff. right. now rewrite <- Eq.
  Qed.

  Lemma inv_loop fuel : forall s r, inv s -> dfs_loop fuel g treat s = Some r ->
    exists s', inv s' /\ d_q s' = [] /\ d_ret s' = r.
  Proof.
    induction fuel as [|f IH]; intros s r I H; simpl in H;
      destruct (dfs_step g treat s) as [s1|] eqn:E.
    - discriminate.
    - inversion H; subst. exists s. split; [assumption|]. split; [|reflexivity].
      unfold dfs_step in E. destruct (d_q s); [reflexivity|].
      destruct (op_in o (d_seen s)); simpl in E; [|discriminate].
      destruct (op_in o (d_done s)); discriminate.
    - apply (IH s1 r); [|assumption]. now apply inv_step with s.
    - inversion H; subst. exists s. split; [assumption|]. split; [|reflexivity].
      unfold dfs_step in E. destruct (d_q s); [reflexivity|].
      destruct (op_in o (d_seen s)); simpl in E; [|discriminate].
      destruct (op_in o (d_done s)); discriminate.
  Qed.

  Lemma result_exact fuel r :
    get_backward_ops fuel g seeds treat = Some r ->
    NoDup r /\ forall o, In o r <-> needed g seeds treat o.
  Proof.
    intros H. unfold get_backward_ops in H.
    destruct (inv_loop fuel _ r inv_init H) as [s [I [Hq <-]]].
    split; [apply (i_ret_nodup _ I)|].
    intros o. rewrite (i_ret_done _ I). split.
    - intros Hd. apply (i_seen_needed _ I). now apply (i_done_seen _ I).
    - induction 1 as [t H1 H2|o d Hn IH Hf].
      + destruct (i_seeds _ I t H1 H2) as [Hc|Hc]; [|assumption].
        rewrite Hq in Hc; destruct Hc.
      + destruct (i_closed _ I o d) as [Hc|Hc]; try assumption.
        * now apply (i_done_seen _ I).
        * rewrite Hq in Hc; destruct Hc.
  Qed.

  (** Termination: expansions and pops are bounded. *)
  Definition unseen (ops : list op) (seen : list op) : list op :=
    filter (fun o => negb (op_in o seen)) ops.
  Fixpoint weight (l : list op) : nat :=
    match l with [] => 0 | o :: l' => 1 + length (deps g treat o) + weight l' end.
  Definition measure (ops : list op) (s : dfs) : nat :=
    length (d_q s) + weight (unseen ops (d_seen s)).

  Lemma weight_unseen_cons ops seen o : In o ops -> ~ In o seen ->
    weight (unseen ops (o :: seen)) + 1 + length (deps g treat o)
      <= weight (unseen ops seen).
  Proof.
    intros Hin Hns.
    assert (Hmono : forall l, weight (unseen l (o :: seen)) <= weight (unseen l seen)).
    { unfold unseen, op_in. induction l as [|x l IH]; simpl in *; [lia|].
      destruct (Nat.eqb x o); destruct (existsb (Nat.eqb x) seen); simpl in *; lia. }
    induction ops as [|x l IH]; [destruct Hin|].
    destruct Hin as [->|Hin].
    - unfold unseen. simpl. rewrite Nat.eqb_refl. simpl.
      destruct (op_in o seen) eqn:E; [apply op_in_In in E; contradiction|].
      simpl. specialize (Hmono l). unfold unseen in Hmono. simpl in Hmono. lia.
    - specialize (IH Hin). unfold unseen in *. simpl.
      destruct (Nat.eqb x o) eqn:E; simpl.
      + apply Nat.eqb_eq in E; subst x.
        destruct (op_in o seen) eqn:E2; [apply op_in_In in E2; contradiction|].
        simpl. simpl in IH. lia.
      + destruct (op_in x seen) eqn:E2; unfold op_in in E2; rewrite ?E2; simpl;
          simpl in IH; lia.
  Qed.

  Lemma loop_terminates ops (Hfin : finite_part g seeds treat ops) :
    forall fuel s, inv s -> measure ops s <= fuel ->
    exists r, dfs_loop fuel g treat s = Some r.
  Proof.
    induction fuel as [|f IH]; intros s I Hm.
    - unfold measure in Hm. destruct (d_q s) eqn:E; [|simpl in Hm; lia].
      exists (d_ret s). simpl. unfold dfs_step. now rewrite E.
    - simpl. destruct (dfs_step g treat s) as [s'|] eqn:E; [|eauto].
      pose proof (inv_step _ _ I E) as I'.
      apply IH; [assumption|].
      unfold dfs_step in E. destruct (d_q s) as [|o q'] eqn:Eq; [discriminate|].
      unfold measure in *. rewrite Eq in Hm. simpl in Hm.
      destruct (op_in o (d_seen s)) eqn:E1; simpl in E.
      + destruct (op_in o (d_done s)); simpl in E; inversion E; subst; simpl; lia.
      + assert (~ In o (d_seen s)) by (intro Hc; apply op_in_In in Hc; congruence).
        inversion E; subst; simpl. rewrite push_inputs_deps, app_length. simpl.
        assert (Hin : In o ops).
        { apply Hfin. apply (i_q_needed _ I). rewrite Eq; left; reflexivity. }
        pose proof (weight_unseen_cons ops (d_seen s) o Hin H). lia.
  Qed.

  (** Order, for acyclic graphs. *)
  Record inv_ord (s : dfs) : Prop := {
    o_open : forall a, In a (d_seen s) -> ~ In a (d_done s) ->
      exists l1 l2, d_q s = l1 ++ a :: l2 /\
        (forall x, In x l1 -> clos_trans op (follows g treat) a x) /\
        (forall d, follows g treat a d -> In d l1 \/ In d (d_done s));
    o_sorted : dependency_ordered g treat (d_ret s) }.

  Lemma dependency_ordered_snoc l o :
    dependency_ordered g treat l ->
    (forall d, follows g treat o d -> In d l) ->
    dependency_ordered g treat (l ++ [o]).
  Proof.
    intros H1 H2 l1 x l2 E d Hd.
    destruct l2 as [|y l2] using rev_ind.
    - apply app_inj_tail in E. destruct E as [-> ->]. now apply H2.
    - clear IHl2. rewrite app_comm_cons, app_assoc in E.
      apply app_inj_tail in E. destruct E as [-> ->].
      now apply (H1 l1 x l2).
  Qed.

  Lemma inv_ord_step s s' : acyclic g treat -> inv s -> inv_ord s ->
    dfs_step g treat s = Some s' -> inv_ord s'.
  Proof.
    intros Hac I O Hs. unfold dfs_step in Hs.
    destruct (d_q s) as [|o q'] eqn:Eq; [discriminate|].
    destruct (op_in o (d_seen s)) eqn:Eseen; simpl in Hs.
    - apply op_in_In in Eseen.
      destruct (op_in o (d_done s)) eqn:Edone; simpl in Hs; inversion Hs; subst; clear Hs.
      + apply op_in_In in Edone. constructor; simpl; [|apply (o_sorted _ O)].
        intros a Ha Hnd. destruct (o_open _ O a Ha Hnd) as [l1 [l2 [E [H1 H2]]]].
        rewrite Eq in E. destruct l1 as [|y l1].
        * simpl in E. inversion E; subst. contradiction.
        * simpl in E. inversion E; subst. exists l1, l2. split; [reflexivity|].
          split; [intros x Hx; apply H1; now right|].
          intros d Hd. destruct (H2 d Hd) as [[->|H]|H]; tauto.
      + assert (Hnd0 : ~ In o (d_done s)) by (intro H; apply op_in_In in H; congruence).
        destruct (o_open _ O o Eseen Hnd0) as [l1 [l2 [E [H1 H2]]]].
        rewrite Eq in E. destruct l1 as [|y l1].
        2:{ simpl in E. inversion E; subst. exfalso. apply (Hac y).
            apply H1. now left. }
        constructor; simpl.
        * intros a Ha Hnd.
          assert (Ha' : ~ In a (d_done s)) by tauto.
          destruct (o_open _ O a Ha Ha') as [m1 [m2 [E' [H1' H2']]]].
          rewrite Eq in E'. destruct m1 as [|y m1].
          -- simpl in E'. inversion E'; subst. exfalso. apply Hnd. now left.
          -- simpl in E'. inversion E'; subst. exists m1, m2. split; [reflexivity|].
             split; [intros x Hx; apply H1'; now right|].
             intros d Hd. destruct (H2' d Hd) as [[->|H]|H]; tauto.
        * apply dependency_ordered_snoc; [apply (o_sorted _ O)|].
          intros d Hd. destruct (H2 d Hd) as [[]|H]. now apply (i_ret_done _ I).
    - assert (Hns : ~ In o (d_seen s)) by (intro H; apply op_in_In in H; congruence).
      inversion Hs; subst; clear Hs. constructor; simpl; rewrite ?push_inputs_deps;
        [|apply (o_sorted _ O)].
      intros a [<-|Ha] Hnd.
      + exists (deps g treat o), q'. split; [reflexivity|]. split.
        * intros x Hx. apply t_step. now apply deps_follows.
        * intros d Hd. left. now apply deps_follows.
      + destruct (o_open _ O a Ha Hnd) as [l1 [l2 [E [H1 H2]]]].
        rewrite Eq in E. destruct l1 as [|y l1].
        * simpl in E. inversion E; subst. contradiction.
        * simpl in E. inversion E; subst.
          exists (deps g treat y ++ y :: l1), l2. split.
          -- now rewrite <- app_assoc.
          -- split.
             ++ intros x Hx. apply in_app_iff in Hx. destruct Hx as [Hx|Hx].
                ** apply t_trans with y; [apply H1; now left|].
                   apply t_step. now apply deps_follows.
                ** now apply H1.
             ++ intros d Hd. destruct (H2 d Hd) as [H|H]; [|tauto].
                left. apply in_app_iff. tauto.
  Qed.

  Lemma inv_ord_loop (Hac : acyclic g treat) fuel : forall s r, inv s -> inv_ord s ->
    dfs_loop fuel g treat s = Some r -> dependency_ordered g treat r.
  Proof.
    induction fuel as [|f IH]; intros s r I O H; simpl in H;
      destruct (dfs_step g treat s) as [s1|] eqn:E; try discriminate.
    - inversion H; subst. apply (o_sorted _ O).
    - apply (IH s1 r); [| |assumption].
      + now apply inv_step with s.
      + now apply inv_ord_step with s.
    - inversion H; subst. apply (o_sorted _ O).
  Qed.

  Lemma result_ordered fuel r : acyclic g treat ->
    get_backward_ops fuel g seeds treat = Some r -> dependency_ordered g treat r.
  Proof.
    intros Hac H. apply (inv_ord_loop Hac fuel d_init r inv_init); [|exact H].
    constructor; simpl.
    - tauto.
    - intros l1 o l2 E. destruct l1; discriminate.
  Qed.

  Lemma result_exists ops : finite_part g seeds treat ops ->
    exists bound, forall fuel, bound <= fuel ->
      exists r, get_backward_ops fuel g seeds treat = Some r.
  Proof.
    intros Hfin. exists (measure ops d_init). intros fuel Hf.
    apply (loop_terminates ops Hfin fuel d_init inv_init Hf).
  Qed.

  Lemma loop_fuel_mono f1 : forall f2 s r1 r2,
    dfs_loop f1 g treat s = Some r1 -> dfs_loop f2 g treat s = Some r2 -> r1 = r2.
  Proof.
    induction f1 as [|f1 IH]; intros f2 s r1 r2 H1 H2; destruct f2; simpl in *;
      destruct (dfs_step g treat s) as [s1|] eqn:E; try congruence.
    now apply (IH f2 s1).
  Qed.
End DFS.
