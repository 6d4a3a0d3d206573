From Coq Require Import List Arith Bool Lia.
From Verif Require Import ModelBN SpecBN.
Import ListNotations.

Section Proofs.
Context (W : world).
Notation bn := (bn W). Notation snode := (snode W).
Notation step := (step W). Notation run := (run W).

(** ** Lists and dictionaries *)
Lemma upd_length {A} (l : list A) i a : length (upd l i a) = length l.
Proof. revert i; induction l; destruct i; simpl; auto. Qed.
Lemma nth_upd_eq {A} (l : list A) i a x :
  nth_error l i = Some x -> nth_error (upd l i a) i = Some a.
Proof. revert i; induction l; destruct i; simpl; intros; try discriminate; auto. Qed.
Lemma nth_upd_neq {A} (l : list A) i j a :
  i <> j -> nth_error (upd l i a) j = nth_error l j.
Proof.
  revert i j; induction l as [|y l IH]; intros [|i] [|j] H; simpl; auto; try lia.
Qed.
Lemma dict_get_set_eq {A} (d : list (name * A)) n a : dict_get (dict_set d n a) n = Some a.
Proof.
  induction d as [|[n' a'] d IH]; simpl.
  - now rewrite Nat.eqb_refl.
  - destruct (Nat.eqb n n') eqn:E; simpl; rewrite E; auto.
Qed.
Lemma dict_get_set_neq {A} (d : list (name * A)) n a m : m <> n ->
  dict_get (dict_set d n a) m = dict_get d m.
Proof.
  intros H. induction d as [|[n' a'] d IH]; simpl.
  - apply Nat.eqb_neq in H. now rewrite H.
  - destruct (Nat.eqb n n') eqn:E; simpl.
    + apply Nat.eqb_eq in E; subst. apply Nat.eqb_neq in H. now rewrite H.
    + destruct (Nat.eqb m n'); auto.
Qed.
Lemma dict_set_fresh {A} (d : list (name * A)) n a : dict_get d n = None ->
  dict_set d n a = d ++ [(n, a)].
Proof.
  induction d as [|[n' a'] d IH]; simpl; auto.
  destruct (Nat.eqb n n'); [discriminate|]. intros H. now rewrite IH.
Qed.

(** ** Evolution of node objects *)
Record node_evolves (x y : snode) : Prop := {
  ev_dist : sn_dist W y = sn_dist W x;
  ev_ns : sn_n_samples W y = sn_n_samples W x;
  ev_obs : sn_obs W y = sn_obs W x;
  ev_ready : sn_ready W y = sn_ready W x;
  ev_samples : forall t, sn_samples W x = Some t -> sn_samples W y = Some t;
  ev_clp : forall v, sn_cond_log_p W x = Some v -> sn_cond_log_p W y = Some v }.

Lemma node_evolves_refl x : node_evolves x x.
Proof. constructor; auto. Qed.
Lemma node_evolves_trans x y z : node_evolves x y -> node_evolves y z -> node_evolves x z.
Proof. intros [? ? ? ? ? ?] [? ? ? ? ? ?]. constructor; try congruence; auto. Qed.

Definition evolves (b b' : bn) : Prop :=
  length (b_objs W b) <= length (b_objs W b') /\
  forall i x, nth_error (b_objs W b) i = Some x ->
  exists y, nth_error (b_objs W b') i = Some y /\ node_evolves x y.

Lemma evolves_refl b : evolves b b.
Proof. split; [lia|]. intros i x H. exists x. split; [assumption|apply node_evolves_refl]. Qed.
Lemma evolves_trans b c d : evolves b c -> evolves c d -> evolves b d.
Proof.
  intros [L1 H1] [L2 H2]. split; [lia|]. intros i x H.
  destruct (H1 _ _ H) as [y [Hy E1]]. destruct (H2 _ _ Hy) as [z [Hz E2]].
  exists z. split; [assumption|]. eapply node_evolves_trans; eauto.
Qed.
Lemma evolves_objs b b' : b_objs W b' = b_objs W b -> evolves b b'.
Proof.
  intros H. split; [rewrite H; lia|]. intros i x Hx. rewrite H.
  exists x. split; [assumption|apply node_evolves_refl].
Qed.
Lemma evolves_app b b' x : b_objs W b' = b_objs W b ++ [x] -> evolves b b'.
Proof.
  intros H. split; [rewrite H, app_length; simpl; lia|]. intros i y Hy. rewrite H.
  exists y. split; [|apply node_evolves_refl].
  rewrite nth_error_app1; [assumption|]. apply nth_error_Some. congruence.
Qed.
Lemma evolves_upd b b' i x y : nth_error (b_objs W b) i = Some x ->
  b_objs W b' = upd (b_objs W b) i y -> node_evolves x y -> evolves b b'.
Proof.
  intros Hx Hb E. split; [rewrite Hb, upd_length; lia|]. intros j z Hz. rewrite Hb.
  destruct (Nat.eq_dec i j) as [<-|Hn].
  - rewrite Hx in Hz. inversion Hz; subst. exists y. split; [|assumption].
    eapply nth_upd_eq; eauto.
  - rewrite nth_upd_neq by assumption. exists z. split; [assumption|apply node_evolves_refl].
Qed.

(** Parts of a network that reads leave alone. *)
Definition same_frame (b b' : bn) : Prop :=
  b_local W b' = b_local W b /\ b_custom W b' = b_custom W b /\
  b_observed W b' = b_observed W b /\ b_nodes W b' = b_nodes W b.
Lemma same_frame_refl b : same_frame b b.
Proof. repeat split. Qed.
Lemma same_frame_trans a b c : same_frame a b -> same_frame b c -> same_frame a c.
Proof. unfold same_frame. intuition congruence. Qed.

(** Reads: evolve objects, keep frame, cache and number of objects. *)
Definition reads (b b' : bn) : Prop :=
  evolves b b' /\ same_frame b b' /\ b_cache W b' = b_cache W b /\
  length (b_objs W b') = length (b_objs W b).
Lemma reads_refl b : reads b b.
Proof. split; [apply evolves_refl|]. split; [apply same_frame_refl|]. auto. Qed.
Lemma reads_trans a b c : reads a b -> reads b c -> reads a c.
Proof.
  intros [A1 [A2 [A3 A4]]] [B1 [B2 [B3 B4]]].
  split; [eapply evolves_trans; eauto|]. split; [eapply same_frame_trans; eauto|].
  split; congruence.
Qed.

(** Value currently held by a node object. *)
Definition value_of (nd : snode) : option (w_tensor W) :=
  if sn_ready W nd then
    match sn_obs W nd with Some t => Some t | None => sn_samples W nd end
  else None.

Definition with_samples (nd : snode) t : snode :=
  SNode W (sn_dist W nd) (sn_n_samples W nd) (sn_obs W nd) (Some t)
        (sn_cond_log_p W nd) (sn_ready W nd).
Definition with_clp (nd : snode) v : snode :=
  SNode W (sn_dist W nd) (sn_n_samples W nd) (sn_obs W nd) (sn_samples W nd)
        (Some v) (sn_ready W nd).

(** Big-step description of read_tensor and cond_log_p. *)
Inductive rt (b : bn) (i : nat) : bn * (exn + w_tensor W) -> Prop :=
| rt_none : nth_error (b_objs W b) i = None -> rt b i (b, inl AttributeError)
| rt_unready nd : nth_error (b_objs W b) i = Some nd -> sn_ready W nd = false ->
    rt b i (b, inl AttributeError)
| rt_have nd t : nth_error (b_objs W b) i = Some nd -> sn_ready W nd = true ->
    value_of nd = Some t -> rt b i (b, inr t)
| rt_draw nd : nth_error (b_objs W b) i = Some nd -> sn_ready W nd = true ->
    sn_obs W nd = None -> sn_samples W nd = None ->
    let t := w_sample W (sn_dist W nd) (sn_n_samples W nd) (b_draws W b) in
    rt b i (incr_draws W (set_objs W b (upd (b_objs W b) i (with_samples nd t))), inr t).

Lemma read_tensor_rt b i : rt b i (read_tensor W b i).
Proof.
  unfold read_tensor. destruct (nth_error (b_objs W b) i) as [nd|] eqn:E; [|now constructor].
  destruct (sn_ready W nd) eqn:Er; [|eapply rt_unready; eauto].
  destruct (sn_obs W nd) as [t|] eqn:Eo.
  - eapply rt_have; eauto. unfold value_of. now rewrite Er, Eo.
  - destruct (sn_samples W nd) as [t|] eqn:Es.
    + eapply rt_have; eauto. unfold value_of. now rewrite Er, Eo.
    + pose proof (rt_draw b i nd E Er Eo Es) as H. unfold with_samples in H.
      rewrite Er, Eo in H. exact H.
Qed.

Inductive cl (b : bn) (i : nat) : bn * (exn + w_val W) -> Prop :=
| cl_cached nd v : nth_error (b_objs W b) i = Some nd -> sn_cond_log_p W nd = Some v ->
    cl b i (b, inr v)
| cl_err b1 e : rt b i (b1, inl e) -> cl b i (b1, inl e)
| cl_new b1 t nd : rt b i (b1, inr t) -> nth_error (b_objs W b1) i = Some nd ->
    sn_cond_log_p W nd = None -> value_of nd = Some t ->
    let v := w_log_prob W (sn_dist W nd) t in
    cl b i (set_objs W b1 (upd (b_objs W b1) i (with_clp nd v)), inr v).

Lemma cond_log_p_cl b i : cl b i (cond_log_p W b i).
Proof.
  unfold cond_log_p. destruct (nth_error (b_objs W b) i) as [nd|] eqn:E.
  2:{ constructor. now constructor. }
  destruct (sn_cond_log_p W nd) as [v|] eqn:Ec; [eapply cl_cached; eauto|].
  pose proof (read_tensor_rt b i) as R.
  destruct (read_tensor W b i) as [b1 [e|t]]; [now constructor|].
  assert (H : exists nd1, nth_error (b_objs W b1) i = Some nd1 /\
      sn_cond_log_p W nd1 = None /\ value_of nd1 = Some t /\ sn_dist W nd1 = sn_dist W nd).
  { inversion R as [| |nd' t' E' Er Ev|nd' E' Er Eo Es]; subst;
      rewrite E in E'; inversion E'; subst nd'.
    - exists nd. auto.
    - eexists. split; [simpl; eapply nth_upd_eq; eauto|]. simpl.
      split; [assumption|]. split; [|reflexivity].
      unfold value_of, with_samples. simpl. now rewrite Er, Eo. }
  destruct H as [nd1 [E1 [Hc [Hv Hd]]]]. rewrite E1, <- Hd.
  exact (cl_new b i b1 t nd1 R E1 Hc Hv).
Qed.

Lemma rt_reads b i r : rt b i r -> reads b (fst r).
Proof.
  intros [ | | |nd E Er Eo Es t]; try apply reads_refl. simpl.
  split; [|split; [|split]].
  - eapply evolves_upd; [exact E|reflexivity|]. constructor; simpl; auto; congruence.
  - repeat split.
  - reflexivity.
  - simpl. now rewrite upd_length.
Qed.
Lemma cl_reads b i r : cl b i r -> reads b (fst r).
Proof.
  intros [ | |b1 t nd R E Ec Ev v]; try apply reads_refl.
  - apply (rt_reads _ _ _ H).
  - eapply reads_trans; [apply (rt_reads _ _ _ R)|]. simpl.
    split; [|split; [|split]].
    + eapply evolves_upd; [exact E|reflexivity|]. constructor; simpl; auto; congruence.
    + repeat split.
    + reflexivity.
    + simpl. now rewrite upd_length.
Qed.
Lemma read_tensor_reads b i : reads b (fst (read_tensor W b i)).
Proof. eapply rt_reads, read_tensor_rt. Qed.
Lemma cond_log_p_reads b i : reads b (fst (cond_log_p W b i)).
Proof. eapply cl_reads, cond_log_p_cl. Qed.

Lemma map_state_ind {A B} (P : bn -> Prop) (f : bn -> A -> bn * (exn + B)) :
  (forall b a, P b -> P (fst (f b a))) ->
  forall l b, P b -> P (fst (map_state W f b l)).
Proof.
  intros H. induction l as [|a l IH]; simpl; intros b Hb; auto.
  pose proof (H b a Hb) as H1. destruct (f b a) as [b1 [e|x]]; simpl in *; auto.
  pose proof (IH b1 H1) as H2. destruct (map_state W f b1 l) as [b2 [e|xs]]; auto.
Qed.
Lemma map_state_reads {A B} (f : bn -> A -> bn * (exn + B)) :
  (forall b a, reads b (fst (f b a))) ->
  forall l b, reads b (fst (map_state W f b l)).
Proof.
  intros H l b. apply (map_state_ind (reads b)); [|apply reads_refl].
  intros c a Hc. eapply reads_trans; eauto.
Qed.
Lemma node_cond_log_p_reads b n : reads b (fst (node_cond_log_p W b n)).
Proof.
  unfold node_cond_log_p. destruct (dict_get (b_nodes W b) n) as [[i|t]|];
    try apply reads_refl. apply cond_log_p_reads.
Qed.
Lemma node_tensor_reads b n : reads b (fst (node_tensor W b n)).
Proof.
  unfold node_tensor. destruct (dict_get (b_nodes W b) n) as [[i|t]|];
    try apply reads_refl. apply read_tensor_reads.
Qed.

(** A predicate preserved by read_tensor and cond_log_p of any handle is
    preserved by every query. *)
Section Query.
Context (P : bn -> Prop)
  (Prt : forall b i, P b -> P (fst (read_tensor W b i)))
  (Pcl : forall b i, P b -> P (fst (cond_log_p W b i))).

Lemma get_pres b q : P b -> P (fst (get W b q)).
Proof.
  intros H. unfold get. destruct (check_names W b false (query_names q)); auto.
  pose proof (map_state_ind P (fun b n => (b, node_at W b n)) ltac:(auto) (query_names q) b H) as M.
  destruct (map_state _ _ _ _) as [b1 [e|l]]; auto.
  destruct q; auto. destruct l as [|? [|? ?]]; auto.
Qed.
Lemma ncl_pres b n : P b -> P (fst (node_cond_log_p W b n)).
Proof. unfold node_cond_log_p. destruct (dict_get (b_nodes W b) n) as [[i|t]|]; auto. Qed.
Lemma nt_pres b n : P b -> P (fst (node_tensor W b n)).
Proof. unfold node_tensor. destruct (dict_get (b_nodes W b) n) as [[i|t]|]; auto. Qed.
Lemma cond_log_prob_pres b q : P b -> P (fst (cond_log_prob W b q)).
Proof.
  intros H. unfold cond_log_prob. destruct (check_names W b true (query_names q)); auto.
  pose proof (map_state_ind P (node_cond_log_p W) ncl_pres (query_names q) b H) as M.
  destruct (map_state _ _ _ _) as [b1 [e|l]]; auto.
  destruct q; auto. destruct l as [|? [|? ?]]; auto.
Qed.
Lemma outputs_pres b q : P b -> P (fst (outputs W b q)).
Proof.
  intros H. unfold outputs. destruct (check_names W b false (query_names q)); auto.
  pose proof (map_state_ind P (node_tensor W) nt_pres (query_names q) b H) as M.
  destruct (map_state _ _ _ _) as [b1 [e|l]]; auto.
  destruct q; auto. destruct l as [|? [|? ?]]; auto.
Qed.
Lemma log_joint_compute_pres b : P b -> P (fst (log_joint_compute W b)).
Proof.
  intros H. unfold log_joint_compute. destruct (b_custom W b) as [|ns f|]; auto.
  - pose proof (map_state_ind P (cond_log_p W) Pcl (stoch_ids W b) b H) as M.
    destruct (map_state _ _ _ _) as [b1 [e|l]]; auto.
  - pose proof (cond_log_prob_pres b (QMany ns) H) as M.
    destruct (cond_log_prob W b (QMany ns)) as [b1 []]; auto.
Qed.
Lemma log_joint_pres b : (forall b v, P b -> P (set_cache W b v)) ->
  P b -> P (fst (log_joint W b)).
Proof.
  intros Hc H. unfold log_joint. destruct (b_cache W b); auto.
  pose proof (log_joint_compute_pres b H) as M.
  destruct (log_joint_compute W b) as [b1 [e|v]]; simpl in *; auto.
Qed.
End Query.

Lemma stochastic_evolves b n d ns : evolves b (fst (stochastic W b n d ns)).
Proof.
  unfold stochastic. destruct (dict_get (b_nodes W b) n); [apply evolves_refl|].
  destruct (init_observation W _ _ _ _).
  - now apply evolves_objs.
  - eapply evolves_app. reflexivity.
Qed.
Lemma legacy_evolves b n d ns o : evolves b (fst (legacy W b n d ns o)).
Proof.
  unfold legacy. destruct (init_observation W _ _ _ _); eapply evolves_app; reflexivity.
Qed.

Lemma step_ReadTensor b i : step b (ReadTensor W i) =
  (fst (read_tensor W b i), match snd (read_tensor W b i) with
     inl e => OErr W e | inr t => OTensor W t end).
Proof. simpl. destruct (read_tensor W b i) as [b1 [e|t]]; reflexivity. Qed.
Lemma step_CondLogP b i : step b (CondLogP W i) =
  (fst (cond_log_p W b i), match snd (cond_log_p W b i) with
     inl e => OErr W e | inr t => OVal W t end).
Proof. simpl. destruct (cond_log_p W b i) as [b1 [e|t]]; reflexivity. Qed.

Lemma step_evolves b c : evolves b (fst (step b c)).
Proof.
  assert (Prt : forall b' i, evolves b b' -> evolves b (fst (read_tensor W b' i))).
  { intros b' i H. eapply evolves_trans; [exact H|]. apply read_tensor_reads. }
  assert (Pcl : forall b' i, evolves b b' -> evolves b (fst (cond_log_p W b' i))).
  { intros b' i H. eapply evolves_trans; [exact H|]. apply cond_log_p_reads. }
  destruct c; try (apply evolves_refl).
  - apply stochastic_evolves.
  - apply legacy_evolves.
  - now apply evolves_objs.
  - rewrite step_ReadTensor. apply Prt, evolves_refl.
  - rewrite step_CondLogP. apply Pcl, evolves_refl.
  - apply (get_pres (evolves b)), evolves_refl.
  - apply (cond_log_prob_pres (evolves b) Pcl), evolves_refl.
  - apply (outputs_pres (evolves b) Prt), evolves_refl.
  - apply (log_joint_pres (evolves b) Pcl); [|apply evolves_refl].
    intros b' v H. eapply evolves_trans; [exact H|]. now apply evolves_objs.
  - now apply evolves_objs.
Qed.
Lemma run_evolves h : forall b, evolves b (run b h).
Proof.
  induction h as [|c h IH]; intros b; [apply evolves_refl|]. simpl.
  eapply evolves_trans; [apply step_evolves|apply IH].
Qed.

Lemma evolves_value x y t : node_evolves x y -> value_of x = Some t -> value_of y = Some t.
Proof.
  intros [_ _ Ho Hr Hs _]. unfold value_of. rewrite Ho, Hr.
  destruct (sn_ready W x); [|discriminate]. destruct (sn_obs W x); auto.
Qed.

(** A node holding a value answers it without changing anything. *)
Lemma read_held b i nd t : nth_error (b_objs W b) i = Some nd -> value_of nd = Some t ->
  step b (ReadTensor W i) = (b, OTensor W t).
Proof.
  intros E V. rewrite step_ReadTensor. pose proof (read_tensor_rt b i) as R.
  destruct R as [E'|nd' E' Er|nd' t' E' Er Ev|nd' E' Er Eo Es t']; simpl;
    try (rewrite E in E'; inversion E'; subst nd'); try congruence.
  - unfold value_of in V. rewrite Er in V. discriminate.
  - exfalso. unfold value_of in V. rewrite Er, Eo in V. congruence.
Qed.
Lemma read_result b i t : snd (step b (ReadTensor W i)) = OTensor W t ->
  exists nd, nth_error (b_objs W (fst (step b (ReadTensor W i)))) i = Some nd /\
             value_of nd = Some t.
Proof.
  rewrite step_ReadTensor. simpl. pose proof (read_tensor_rt b i) as R.
  destruct R as [E'|nd' E' Er|nd' t' E' Er Ev|nd' E' Er Eo Es t']; simpl; intros H;
    inversion H; subst.
  - exists nd'. auto.
  - exists (with_samples nd' t'). split; [eapply nth_upd_eq; eauto|].
    unfold value_of, with_samples. simpl. now rewrite Er, Eo.
Qed.

Lemma value_stable b h h' i t :
  let b1 := fst (step (run b h) (ReadTensor W i)) in
  snd (step (run b h) (ReadTensor W i)) = OTensor W t ->
  step (run b1 h') (ReadTensor W i) = (run b1 h', OTensor W t).
Proof.
  intros b1 H. destruct (read_result _ _ _ H) as [nd [E V]].
  destruct (proj2 (run_evolves h' b1) _ _ E) as [y [Ey Ev]].
  eapply read_held; [exact Ey|]. eapply evolves_value; eauto.
Qed.

(** ** Invariant of reachable networks *)
Definition keys (b : bn) : list name := map fst (b_nodes W b).

Record inv (k0 : nat) (b : bn) : Prop := {
  i_clp : forall i nd v, nth_error (b_objs W b) i = Some nd ->
      sn_cond_log_p W nd = Some v ->
      exists t, value_of nd = Some t /\ v = w_log_prob W (sn_dist W nd) t;
  i_ids : NoDup (stoch_ids W b) /\
      forall i, In i (stoch_ids W b) -> i < length (b_objs W b);
  i_keys : NoDup (keys b);
  i_le : k0 <= b_draws W b;
  i_smp : forall i nd t, nth_error (b_objs W b) i = Some nd ->
      sn_samples W nd = Some t -> sn_obs W nd = None /\ sn_ready W nd = true;
  i_draw : exists own : nat -> nat,
      (forall k, k0 <= k < b_draws W b -> exists nd,
          nth_error (b_objs W b) (own k) = Some nd /\
          sn_samples W nd = Some (w_sample W (sn_dist W nd) (sn_n_samples W nd) k)) /\
      (forall i nd t, nth_error (b_objs W b) i = Some nd -> sn_samples W nd = Some t ->
          exists k, k0 <= k < b_draws W b /\ own k = i) /\
      (forall k k', k0 <= k < b_draws W b -> k0 <= k' < b_draws W b ->
          own k = own k' -> k = k') }.

Lemma inv_frame k0 b b' : b_objs W b' = b_objs W b -> b_draws W b' = b_draws W b ->
  b_nodes W b' = b_nodes W b -> inv k0 b -> inv k0 b'.
Proof.
  intros Ho Hd Hn [A B C D E F]. unfold stoch_ids, keys in *.
  constructor; unfold stoch_ids, keys in *; rewrite ?Ho, ?Hd, ?Hn; auto.
Qed.

Lemma inv_rt k0 b i r : rt b i r -> inv k0 b -> inv k0 (fst r).
Proof.
  intros [ | | |nd E Er Eo Es t] I; auto. destruct I as [A B C D S [own [F1 [F2 F3]]]].
  simpl. constructor; simpl.
  - intros j nd' v Hj Hv. destruct (Nat.eq_dec i j) as [<-|Hn].
    + rewrite (nth_upd_eq _ _ _ _ E) in Hj. inversion Hj; subst nd'. simpl in Hv.
      destruct (A _ _ _ E Hv) as [t' [V _]]. unfold value_of in V.
      rewrite Er, Eo, Es in V. discriminate.
    + rewrite nth_upd_neq in Hj by assumption. eauto.
  - unfold stoch_ids in *. simpl. rewrite upd_length. assumption.
  - assumption.
  - lia.
  - intros j nd' t' Hj Hv. destruct (Nat.eq_dec i j) as [<-|Hn].
    + rewrite (nth_upd_eq _ _ _ _ E) in Hj. inversion Hj; subst nd'. simpl. auto.
    + rewrite nth_upd_neq in Hj by assumption. eauto.
  - exists (fun k => if Nat.eqb k (b_draws W b) then i else own k).
    assert (G : forall k, k0 <= k < b_draws W b -> own k <> i).
    { intros k Hk <-. destruct (F1 k Hk) as [x [Hx Hs]]. congruence. }
    split; [|split].
    + intros k Hk. destruct (Nat.eqb_spec k (b_draws W b)) as [->|Hne].
      * exists (with_samples nd t). split; [eapply nth_upd_eq; eauto|]. reflexivity.
      * assert (Hk' : k0 <= k < b_draws W b) by lia.
        destruct (F1 k Hk') as [x [Hx Hs]]. exists x. split; [|assumption].
        rewrite nth_upd_neq; [assumption|]. intros Heq. now apply (G k Hk').
    + intros j nd' t' Hj Hs. destruct (Nat.eq_dec i j) as [<-|Hn].
      * exists (b_draws W b). split; [lia|]. now rewrite Nat.eqb_refl.
      * rewrite nth_upd_neq in Hj by assumption.
        destruct (F2 _ _ _ Hj Hs) as [k [Hk Hown]]. exists k. split; [lia|].
        destruct (Nat.eqb_spec k (b_draws W b)); [lia|assumption].
    + intros k k' Hk Hk'.
      destruct (Nat.eqb_spec k (b_draws W b)), (Nat.eqb_spec k' (b_draws W b)); intros Heq.
      * lia.
      * exfalso. apply (G k'); [lia|congruence].
      * exfalso. apply (G k); [lia|congruence].
      * apply F3; [lia|lia|assumption].
Qed.

Lemma inv_cl k0 b i r : cl b i r -> inv k0 b -> inv k0 (fst r).
Proof.
  intros [ |b1 e R|b1 t nd R E Ec Ev v] I; auto.
  - apply (inv_rt k0 _ _ _ R I).
  - pose proof (inv_rt k0 _ _ _ R I) as [A B C D S [own [F1 [F2 F3]]]]. simpl in *.
    assert (Hup : forall j x, nth_error (upd (b_objs W b1) i (with_clp nd v)) j = Some x ->
              (j = i /\ x = with_clp nd v) \/ (j <> i /\ nth_error (b_objs W b1) j = Some x)).
    { intros j x Hj. destruct (Nat.eq_dec i j) as [<-|Hn].
      - rewrite (nth_upd_eq _ _ _ _ E) in Hj. inversion Hj; auto.
      - rewrite nth_upd_neq in Hj by assumption. right; auto. }
    constructor; simpl.
    + intros j x w Hj Hw. destruct (Hup _ _ Hj) as [[-> ->]|[_ Hx]]; [|eauto].
      simpl in Hw. inversion Hw; subst w. exists t. split; [|reflexivity].
      exact Ev.
    + unfold stoch_ids in *. simpl. now rewrite upd_length.
    + assumption.
    + assumption.
    + intros j x w Hj Hw. destruct (Hup _ _ Hj) as [[-> ->]|[_ Hx]]; [|eauto].
      simpl in *. eauto.
    + exists own. split; [|split; [|assumption]].
      * intros k Hk. destruct (F1 k Hk) as [x [Hx Hs]].
        destruct (Nat.eq_dec i (own k)) as [Heq|Hn].
        -- exists (with_clp nd v). rewrite <- Heq in Hx. rewrite E in Hx. inversion Hx; subst x.
           rewrite <- Heq. split; [eapply nth_upd_eq; eauto|]. exact Hs.
        -- exists x. rewrite nth_upd_neq by assumption. auto.
      * intros j x w Hj Hw. destruct (Hup _ _ Hj) as [[-> ->]|[_ Hx]]; [|eauto].
        simpl in Hw. eauto.
Qed.

Lemma stoch_ids_set (d : list (name * noderef W)) n i :
  let ids d := flat_map (fun p => match snd p with RStoch _ j => [j] | RDet _ _ => [] end) d in
  (forall j, In j (ids d) -> j < i) -> NoDup (ids d) ->
  NoDup (ids (dict_set d n (RStoch W i))) /\
  (forall j, In j (ids (dict_set d n (RStoch W i))) -> j < S i) /\
  (forall j, In j (ids (dict_set d n (RStoch W i))) -> j = i \/ In j (ids d)).
Proof.
  intros ids. induction d as [|[n' r] d IH]; intros Hlt Hnd.
  - simpl. split; [constructor; [auto|constructor]|]. split; intros j [<-|[]]; auto; lia.
  - simpl. destruct (Nat.eqb n n').
    + simpl. assert (Hd : forall j, In j (ids d) -> j < i).
      { intros j Hj. apply Hlt. simpl. apply in_or_app. auto. }
      assert (Hn : NoDup (ids d)).
      { unfold ids in Hnd. simpl in Hnd. destruct r; simpl in Hnd; auto. now inversion Hnd. }
      split; [|split].
      * constructor; [|assumption]. intros Hin. apply Hd in Hin. lia.
      * intros j [<-|Hj]; [lia|]. apply Hd in Hj. lia.
      * intros j [<-|Hj]; [auto|]. right. apply in_or_app. auto.
    + assert (Hd : forall j, In j (ids d) -> j < i).
      { intros j Hj. apply Hlt. simpl. apply in_or_app. auto. }
      unfold ids in Hnd. simpl in Hnd. fold ids in Hnd.
      destruct r as [k|t]; simpl in *.
      * inversion Hnd as [|? ? Hk Hn]; subst.
        destruct (IH Hd Hn) as [I1 [I2 I3]]. split; [|split].
        -- constructor; [|assumption]. intros Hin. destruct (I3 _ Hin) as [->|]; auto.
           specialize (Hlt i (or_introl eq_refl)). lia.
        -- intros j [<-|Hj]; [|auto]. specialize (Hlt k (or_introl eq_refl)). lia.
        -- intros j [<-|Hj]; [auto|]. destruct (I3 _ Hj); auto.
      * destruct (IH Hd Hnd) as [I1 [I2 I3]]. auto.
Qed.
Lemma stoch_ids_det (d : list (name * noderef W)) n t :
  let ids d := flat_map (fun p => match snd p with RStoch _ j => [j] | RDet _ _ => [] end) d in
  NoDup (ids d) ->
  NoDup (ids (dict_set d n (RDet W t))) /\
  (forall j, In j (ids (dict_set d n (RDet W t))) -> In j (ids d)).
Proof.
  intros ids. induction d as [|[n' r] d IH]; intros Hnd.
  - simpl. auto.
  - simpl. destruct (Nat.eqb n n').
    + simpl. unfold ids in Hnd. simpl in Hnd. fold ids in Hnd. split.
      * destruct r; simpl in Hnd; auto. now inversion Hnd.
      * intros j Hj. apply in_or_app; auto.
    + unfold ids in Hnd. simpl in Hnd. fold ids in Hnd. destruct r as [k|t']; simpl in *.
      * inversion Hnd as [|? ? Hk Hn]; subst. destruct (IH Hn) as [I1 I2]. split.
        -- constructor; auto.
        -- intros j [<-|Hj]; auto.
      * now apply IH.
Qed.
Lemma keys_set {A} (d : list (name * A)) n a : NoDup (map fst d) ->
  NoDup (map fst (dict_set d n a)) /\
  (forall m, In m (map fst (dict_set d n a)) -> m = n \/ In m (map fst d)).
Proof.
  induction d as [|[n' x] d IH]; simpl; intros H.
  - split; [repeat constructor; auto|]. intros m [<-|[]]; auto.
  - inversion H as [|? ? Hn Hd]; subst. destruct (IH Hd) as [I1 I2].
    destruct (Nat.eqb_spec n n'); simpl.
    + split; [constructor; auto|]. intros m [<-|Hm]; auto.
    + split.
      * constructor; auto. intros Hin. destruct (I2 _ Hin); [congruence|auto].
      * intros m [<-|Hm]; auto. destruct (I2 _ Hm); auto.
Qed.

Lemma inv_app k0 b b' x n : b_objs W b' = b_objs W b ++ [x] ->
  sn_samples W x = None -> sn_cond_log_p W x = None -> b_draws W b' = b_draws W b ->
  b_nodes W b' = dict_set (b_nodes W b) n (RStoch W (length (b_objs W b))) ->
  inv k0 b -> inv k0 b'.
Proof.
  intros Ho Xs Xc Hd Hn [A [B1 B2] C D S [own [F1 [F2 F3]]]].
  assert (Hup : forall j y, nth_error (b_objs W b') j = Some y ->
            y = x \/ nth_error (b_objs W b) j = Some y).
  { intros j y Hj. rewrite Ho in Hj. destruct (Nat.lt_ge_cases j (length (b_objs W b))).
    - rewrite nth_error_app1 in Hj by assumption. auto.
    - rewrite nth_error_app2 in Hj by assumption.
      destruct (j - length (b_objs W b)) as [|[|]]; simpl in Hj; inversion Hj; auto. }
  constructor.
  - intros i nd v Hi Hv. destruct (Hup _ _ Hi) as [->|Hi']; [congruence|eauto].
  - destruct (stoch_ids_set (b_nodes W b) n (length (b_objs W b)) B2 B1) as [I1 [I2 _]].
    unfold stoch_ids. rewrite Hn. split; [exact I1|].
    intros i Hi. rewrite Ho, app_length. simpl. apply I2 in Hi. lia.
  - unfold keys. rewrite Hn. now apply keys_set.
  - congruence.
  - intros i nd t Hi Hv. destruct (Hup _ _ Hi) as [->|Hi']; [congruence|eauto].
  - exists own. rewrite Hd. split; [|split; [|assumption]].
    + intros k Hk. destruct (F1 k Hk) as [y [Hy Hs]]. exists y. split; [|assumption].
      rewrite Ho, nth_error_app1; [assumption|]. apply nth_error_Some. congruence.
    + intros i nd t Hi Hv. destruct (Hup _ _ Hi) as [->|Hi']; [congruence|eauto].
Qed.

Lemma inv_step k0 b c : inv k0 b -> inv k0 (fst (step b c)).
Proof.
  assert (Prt : forall b' i, inv k0 b' -> inv k0 (fst (read_tensor W b' i))).
  { intros b' i H. eapply inv_rt; [apply read_tensor_rt|exact H]. }
  assert (Pcl : forall b' i, inv k0 b' -> inv k0 (fst (cond_log_p W b' i))).
  { intros b' i H. eapply inv_cl; [apply cond_log_p_cl|exact H]. }
  intros I. destruct c.
  - simpl. unfold stochastic. destruct (dict_get (b_nodes W b) n); [exact I|].
    destruct (init_observation W _ _ _ _) as [e|ob]; simpl.
    + eapply inv_frame; [..|exact I]; reflexivity.
    + eapply inv_app with (n := n); [..|exact I]; reflexivity.
  - simpl. unfold legacy. destruct (init_observation W _ _ _ _) as [e|ob]; simpl;
      eapply inv_app with (n := n); try exact I; reflexivity.
  - destruct I as [A [B1 B2] C D S F]. simpl. constructor; simpl; auto.
    + destruct (stoch_ids_det (b_nodes W b) n t B1) as [I1 I2]. split; [exact I1|].
      intros i Hi. apply B2, I2, Hi.
    + now apply keys_set.
  - rewrite step_ReadTensor. now apply Prt.
  - rewrite step_CondLogP. now apply Pcl.
  - now apply (get_pres (inv k0)).
  - now apply (cond_log_prob_pres (inv k0) Pcl).
  - now apply (outputs_pres (inv k0) Prt).
  - apply (log_joint_pres (inv k0) Pcl); [|assumption].
    intros b' v H. eapply inv_frame; [..|exact H]; reflexivity.
  - eapply inv_frame; [..|exact I]; reflexivity.
  - exact I.
Qed.
Lemma inv_run k0 h : forall b, inv k0 b -> inv k0 (run b h).
Proof. induction h as [|c h IH]; intros b H; auto. simpl. apply IH, inv_step, H. Qed.
Lemma inv_new k0 loc c obs : inv k0 (new_bn W loc c obs k0).
Proof.
  constructor; simpl.
  - intros [|]; discriminate.
  - split; [constructor|intros ? []].
  - constructor.
  - lia.
  - intros [|]; discriminate.
  - exists (fun k => k). split; [intros; lia|]. split; [intros [|]; discriminate|auto].
Qed.

(** ** C04 *)
Lemma stochastic_ok b n d ns b1 i : step b (Stochastic W n d ns) = (b1, ORef W (RStoch W i)) ->
  exists ob, nth_error (b_objs W b1) i = Some (SNode W d ns ob None None true) /\
    dict_get (b_nodes W b) n = None /\
    init_observation W b n d (get_observation W b n) = inr ob /\
    i = length (b_objs W b) /\ b_draws W b1 = b_draws W b /\
    b_nodes W b1 = b_nodes W b ++ [(n, RStoch W i)].
Proof.
  simpl. unfold stochastic. destruct (dict_get (b_nodes W b) n) eqn:En; [discriminate|].
  destruct (init_observation W (set_cache W b None) n d
              (get_observation W (set_cache W b None) n)) as [e|ob] eqn:Ei; [discriminate|].
  simpl. intros H. inversion H; subst. exists ob. simpl. split; [|split; [|split; [|split; [|split]]]]; auto.
  - rewrite nth_error_app2, Nat.sub_diag; auto.
  - now apply dict_set_fresh.
Qed.

(** A properly initialised node always answers. *)
Lemma read_total b i nd : nth_error (b_objs W b) i = Some nd -> sn_ready W nd = true ->
  exists t, snd (read_tensor W b i) = inr t.
Proof.
  intros E Er. pose proof (read_tensor_rt b i) as R.
  destruct R as [E'|nd' E' Er'|nd' t' E' Er' Ev|nd' E' Er' Eo Es t']; simpl; try congruence; eauto.
Qed.
Lemma clp_total b i nd : nth_error (b_objs W b) i = Some nd -> sn_ready W nd = true ->
  exists v, snd (cond_log_p W b i) = inr v.
Proof.
  intros E Er. pose proof (cond_log_p_cl b i) as R.
  destruct R as [nd' v' E' Hv|b1 e R|b1 t nd' R E' Ec Ev v']; simpl; eauto.
  exfalso. inversion R; congruence.
Qed.
(** After computing a log-probability the node holds the value it is taken at. *)
Lemma clp_result k0 b i v : inv k0 b -> snd (cond_log_p W b i) = inr v ->
  exists nd t, nth_error (b_objs W (fst (cond_log_p W b i))) i = Some nd /\
    value_of nd = Some t /\ v = w_log_prob W (sn_dist W nd) t /\ sn_cond_log_p W nd = Some v.
Proof.
  intros I. pose proof (cond_log_p_cl b i) as R.
  destruct R as [nd' v' E' Hv|b1 e R|b1 t nd' R E' Ec Ev v']; simpl; intros H; inversion H; subst.
  - destruct (i_clp _ _ I _ _ _ E' Hv) as [t [V ->]]. eauto 8.
  - exists (with_clp nd' v'), t. split; [eapply nth_upd_eq; eauto|]. auto.
Qed.

Lemma log_prob_of_value k0 b n d ns b1 i h : inv k0 b ->
  step b (Stochastic W n d ns) = (b1, ORef W (RStoch W i)) ->
  exists t, let b2 := fst (step (run b1 h) (CondLogP W i)) in
  snd (step (run b1 h) (CondLogP W i)) = OVal W (w_log_prob W d t) /\
  forall h', snd (step (run b2 h') (ReadTensor W i)) = OTensor W t /\
             snd (step (run b2 h') (CondLogP W i)) = OVal W (w_log_prob W d t).
Proof.
  intros I H. pose proof (inv_step k0 b (Stochastic W n d ns) I) as I1. rewrite H in I1. simpl in I1.
  destruct (stochastic_ok _ _ _ _ _ _ H) as [ob [E _]].
  destruct (proj2 (run_evolves h b1) _ _ E) as [y [Ey Evy]].
  assert (Ry : sn_ready W y = true) by apply (ev_ready _ _ Evy).
  destruct (clp_total _ _ _ Ey Ry) as [v Hv].
  destruct (clp_result k0 _ _ _ (inv_run k0 h b1 I1) Hv) as [z [t [Ez [Vz [-> Hz]]]]].
  assert (Hd : sn_dist W z = d).
  { destruct (cond_log_p_reads (run b1 h) i) as [[_ Hev] _].
    destruct (Hev _ _ Ey) as [z' [Ez' Hz']]. rewrite Ez in Ez'. inversion Ez'; subst z'.
    rewrite (ev_dist _ _ Hz'), (ev_dist _ _ Evy). reflexivity. }
  rewrite Hd in *. exists t. rewrite step_CondLogP, Hv. cbn [fst snd]. split; [reflexivity|].
  intros h'. destruct (proj2 (run_evolves h' (fst (cond_log_p W (run b1 h) i))) _ _ Ez)
    as [u [Eu Hu]]. split.
  - now rewrite (read_held _ _ _ _ Eu (evolves_value _ _ _ Hu Vz)).
  - rewrite step_CondLogP. cbn [fst snd]. pose proof (ev_clp _ _ Hu _ Hz) as Hc.
    remember (run (fst (cond_log_p W (run b1 h) i)) h') as b3 eqn:E3. clear E3.
    unfold cond_log_p. rewrite Eu, Hc. reflexivity.
Qed.

(** ** C05 *)
Lemma get_one b n : step b (Get W (QOne n)) =
  (b, match dict_get (b_nodes W b) n with Some r => ORef W r | None => OErr W ValueError end).
Proof.
  simpl. unfold get. simpl. unfold check_name, node_at.
  destruct (dict_get (b_nodes W b) n) as [[i|t]|]; reflexivity.
Qed.
Lemma bound_iff b n i : bound W b n i <-> dict_get (b_nodes W b) n = Some (RStoch W i).
Proof.
  unfold bound. rewrite get_one. simpl. destruct (dict_get (b_nodes W b) n) as [r|].
  - split; intros H; inversion H; reflexivity.
  - split; discriminate.
Qed.

(** Calls other than creations leave the dictionary alone. *)
Lemma frame_step b c : match c with Stochastic _ _ _ _ | Legacy _ _ _ _ _ | Deterministic _ _ _ => False
                       | _ => True end ->
  b_nodes W (fst (step b c)) = b_nodes W b /\
  length (b_objs W (fst (step b c))) = length (b_objs W b).
Proof.
  set (P := fun b' => b_nodes W b' = b_nodes W b /\ length (b_objs W b') = length (b_objs W b)).
  assert (Prt : forall b' i, P b' -> P (fst (read_tensor W b' i))).
  { intros b' i [H1 H2]. destruct (read_tensor_reads b' i) as [_ [[_ [_ [_ F]]] [_ L]]].
    split; congruence. }
  assert (Pcl : forall b' i, P b' -> P (fst (cond_log_p W b' i))).
  { intros b' i [H1 H2]. destruct (cond_log_p_reads b' i) as [_ [[_ [_ [_ F]]] [_ L]]].
    split; congruence. }
  assert (P0 : P b) by (split; reflexivity).
  change (match c with Stochastic _ _ _ _ | Legacy _ _ _ _ _ | Deterministic _ _ _ => False
                       | _ => True end -> P (fst (step b c))).
  destruct c; intros []; try exact P0.
  - rewrite step_ReadTensor. now apply Prt.
  - rewrite step_CondLogP. now apply Pcl.
  - now apply (get_pres P).
  - now apply (cond_log_prob_pres P Pcl).
  - now apply (outputs_pres P Prt).
  - now apply (log_joint_pres P Pcl).
Qed.

(** The name a call may create or rebind. *)
Lemma nodes_step b c n : keeps_name W n c ->
  (match c with Stochastic _ n' _ _ => n' = n -> dict_get (b_nodes W b) n <> None | _ => True end) ->
  dict_get (b_nodes W (fst (step b c))) n = dict_get (b_nodes W b) n.
Proof.
  intros K S. pose proof (frame_step b c) as Fr.
  destruct c; try (rewrite (proj1 (Fr Logic.I)); reflexivity); clear Fr.
  - simpl in *. unfold stochastic. destruct (dict_get (b_nodes W b) n0) eqn:E; [reflexivity|].
    destruct (init_observation W _ _ _ _); simpl; [reflexivity|].
    apply dict_get_set_neq. intros ->. now apply S.
  - simpl in *. unfold legacy. destruct (init_observation W _ _ _ _); simpl;
      apply dict_get_set_neq; auto.
  - simpl in *. apply dict_get_set_neq; auto.
Qed.
Lemma permanent b n r h : dict_get (b_nodes W b) n = Some r ->
  Forall (keeps_name W n) h -> dict_get (b_nodes W (run b h)) n = Some r.
Proof.
  intros H F. revert b H. induction F as [|c h K F IH]; intros b H; auto.
  simpl. apply IH. rewrite nodes_step; auto. destruct c; auto. congruence.
Qed.

(** ** C06 *)
Lemma in_ids b i : In i (stoch_ids W b) <-> exists n, In (n, RStoch W i) (b_nodes W b).
Proof.
  unfold stoch_ids. rewrite in_flat_map. split.
  - intros [[n r] [H1 H2]]. simpl in H2. destruct r as [j|t]; [|destruct H2].
    destruct H2 as [<-|[]]. eauto.
  - intros [n H]. exists (n, RStoch W i). simpl. auto.
Qed.
Lemma dict_get_in {A} (d : list (name * A)) n a : dict_get d n = Some a -> In (n, a) d.
Proof.
  induction d as [|[m x] d IH]; simpl; [discriminate|].
  destruct (Nat.eqb_spec n m) as [->|]; intros H; [inversion H; auto|auto].
Qed.
Lemma in_dict_get {A} (d : list (name * A)) n a : NoDup (map fst d) -> In (n, a) d ->
  dict_get d n = Some a.
Proof.
  induction d as [|[m x] d IH]; simpl; intros N H; [destruct H|].
  inversion N as [|? ? N1 N2]; subst.
  destruct H as [H|H].
  - inversion H; subst. now rewrite Nat.eqb_refl.
  - destruct (Nat.eqb_spec n m) as [->|]; auto. exfalso. apply N1.
    apply in_map_iff. exists (m, a). auto.
Qed.
Lemma lists_ids k0 b : inv k0 b -> lists_stochastic W b (stoch_ids W b).
Proof.
  intros I. split; [apply (i_ids _ _ I)|]. intros i. rewrite in_ids. split; intros [n H]; exists n.
  - apply bound_iff. apply in_dict_get; auto. apply (i_keys _ _ I).
  - apply bound_iff in H. now apply dict_get_in.
Qed.

Definition has_clp (b : bn) (i : nat) (v : w_val W) : Prop :=
  exists nd, nth_error (b_objs W b) i = Some nd /\ sn_cond_log_p W nd = Some v.
Lemma has_clp_evolves b b' i v : evolves b b' -> has_clp b i v -> has_clp b' i v.
Proof.
  intros [_ E] [nd [H1 H2]]. destruct (E _ _ H1) as [y [Hy Ev]].
  exists y. split; [assumption|]. now apply (ev_clp _ _ Ev).
Qed.
Lemma Forall2_impl {A B} (P Q : A -> B -> Prop) l m :
  (forall a b, P a b -> Q a b) -> Forall2 P l m -> Forall2 Q l m.
Proof. intros H F. induction F; constructor; auto. Qed.

(** What the cached log joint is worth. *)
Definition joint_is (b : bn) (v : w_val W) : Prop :=
  match b_custom W b with
  | CNone _ => exists vs, Forall2 (has_clp b) (stoch_ids W b) vs /\ v = py_sum W vs
  | CFun _ names f => exists vs, Forall2 (fun n v => exists i,
        dict_get (b_nodes W b) n = Some (RStoch W i) /\ has_clp b i v) names vs /\ v = f vs
  | CNotCallable _ => False
  end.
Record good (b : bn) : Prop := {
  g_ready : forall i nd, nth_error (b_objs W b) i = Some nd -> sn_ready W nd = true;
  g_cache : forall v, b_cache W b = Some v -> joint_is b v }.

Lemma reads_ids b b' : reads b b' -> stoch_ids W b' = stoch_ids W b.
Proof. intros [_ [[_ [_ [_ H]]] _]]. unfold stoch_ids. now rewrite H. Qed.
Lemma reads_joint b b' v : reads b b' -> joint_is b v -> joint_is b' v.
Proof.
  intros R. pose proof (reads_ids _ _ R) as Hids. destruct R as [E [[_ [Hc [_ Hn]]] _]].
  unfold joint_is. rewrite Hc, Hids, Hn. destruct (b_custom W b); auto.
  - intros [vs [F ->]]. exists vs. split; [|reflexivity].
    eapply Forall2_impl; [|exact F]. intros; eapply has_clp_evolves; eauto.
  - intros [vs [F ->]]. exists vs. split; [|reflexivity].
    eapply Forall2_impl; [|exact F]. intros n v [i [H1 H2]]. exists i. split; auto.
    eapply has_clp_evolves; eauto.
Qed.
Lemma reads_good b b' : reads b b' -> good b -> good b'.
Proof.
  intros R [G1 G2]. split.
  - intros i nd H. destruct R as [[_ E] [_ [_ L]]].
    assert (Hi : i < length (b_objs W b)).
    { rewrite <- L. apply nth_error_Some. congruence. }
    destruct (nth_error (b_objs W b) i) as [x|] eqn:Ex; [|apply nth_error_None in Ex; lia].
    destruct (E _ _ Ex) as [y [Hy Ev]]. rewrite H in Hy. inversion Hy; subst y.
    rewrite (ev_ready _ _ Ev). eauto.
  - intros v Hv. eapply reads_joint; [exact R|]. apply G2.
    destruct R as [_ [_ [Hc _]]]. congruence.
Qed.

(** Evaluating all log-probabilities. *)
Lemma map_clp k0 l : forall b, inv k0 b -> good b ->
  (forall i, In i l -> i < length (b_objs W b)) ->
  exists b' vs, map_state W (cond_log_p W) b l = (b', inr vs) /\ reads b b' /\
    inv k0 b' /\ good b' /\ Forall2 (has_clp b') l vs.
Proof.
  induction l as [|i l IH]; intros b I G L; simpl.
  - exists b, []. split; [reflexivity|]. split; [apply reads_refl|]. auto.
  - assert (Hi : i < length (b_objs W b)) by (apply L; simpl; auto).
    destruct (nth_error (b_objs W b) i) as [nd|] eqn:E; [|apply nth_error_None in E; lia].
    destruct (clp_total b i nd E (g_ready _ G _ _ E)) as [v Hv].
    destruct (clp_result k0 b i v I Hv) as [nd1 [t [E1 [_ [_ H1]]]]].
    pose proof (cond_log_p_reads b i) as R.
    pose proof (inv_cl k0 b i _ (cond_log_p_cl b i) I) as I1.
    destruct (cond_log_p W b i) as [b1 r]. simpl in *. subst r.
    destruct (IH b1 I1 (reads_good _ _ R G)) as [b2 [vs [M [R2 [I2 [G2 F2]]]]]].
    { intros j Hj. destruct R as [_ [_ [_ ->]]]. auto. }
    rewrite M. exists b2, (v :: vs). split; [reflexivity|].
    split; [eapply reads_trans; eauto|]. split; [assumption|]. split; [assumption|].
    constructor; [|assumption]. eapply has_clp_evolves; [apply R2|]. exists nd1. auto.
Qed.

Lemma check_names_none b l : check_names W b true l = None <->
  Forall (fun n => exists i, dict_get (b_nodes W b) n = Some (RStoch W i)) l.
Proof.
  induction l as [|n l IH]; simpl; [split; auto|].
  unfold check_name at 1. destruct (dict_get (b_nodes W b) n) as [[i|t]|] eqn:E.
  - rewrite IH. split; [intros H; constructor; eauto|intros H; now inversion H].
  - split; [discriminate|]. intros H. inversion H as [|? ? [i Hi] ?]; congruence.
  - split; [discriminate|]. intros H. inversion H as [|? ? [i Hi] ?]; congruence.
Qed.
Lemma check_names_some b os l e : check_names W b os l = Some e -> e = ValueError.
Proof.
  induction l as [|n l IH]; simpl; [discriminate|].
  unfold check_name at 1. destruct (dict_get (b_nodes W b) n) as [[i|t]|]; auto.
  - destruct os; [intros H; now inversion H|auto].
  - intros H; now inversion H.
Qed.
Lemma map_ncl k0 l : forall b, inv k0 b -> good b ->
  Forall (fun n => exists i, dict_get (b_nodes W b) n = Some (RStoch W i)) l ->
  exists b' vs, map_state W (node_cond_log_p W) b l = (b', inr vs) /\ reads b b' /\
    inv k0 b' /\ good b' /\ Forall2 (fun n v => exists i,
       dict_get (b_nodes W b') n = Some (RStoch W i) /\ has_clp b' i v) l vs.
Proof.
  induction l as [|n l IH]; intros b I G L; simpl.
  - exists b, []. split; [reflexivity|]. split; [apply reads_refl|]. auto.
  - inversion L as [|? ? [i Hn] L']; subst. unfold node_cond_log_p at 1. rewrite Hn.
    assert (Hi : i < length (b_objs W b)).
    { apply (i_ids _ _ I). apply in_ids. exists n. now apply dict_get_in. }
    destruct (nth_error (b_objs W b) i) as [nd|] eqn:E; [|apply nth_error_None in E; lia].
    destruct (clp_total b i nd E (g_ready _ G _ _ E)) as [v Hv].
    destruct (clp_result k0 b i v I Hv) as [nd1 [t [E1 [_ [_ H1]]]]].
    pose proof (cond_log_p_reads b i) as R.
    pose proof (inv_cl k0 b i _ (cond_log_p_cl b i) I) as I1.
    destruct (cond_log_p W b i) as [b1 r]. simpl in *. subst r.
    assert (Hnd : b_nodes W b1 = b_nodes W b) by apply R.
    destruct (IH b1 I1 (reads_good _ _ R G)) as [b2 [vs [M [R2 [I2 [G2 F2]]]]]].
    { now rewrite Hnd. }
    rewrite M. exists b2, (v :: vs). split; [reflexivity|].
    split; [eapply reads_trans; eauto|]. split; [assumption|]. split; [assumption|].
    constructor; [|assumption]. exists i. split.
    + assert (b_nodes W b2 = b_nodes W b1) by apply R2. congruence.
    + eapply has_clp_evolves; [apply R2|]. exists nd1. auto.
Qed.

(** log_joint: result described by [joint_is]. *)
Lemma log_joint_good k0 b : inv k0 b -> good b ->
  good (fst (log_joint W b)) /\
  (forall v, snd (log_joint W b) = OVal W v -> joint_is (fst (log_joint W b)) v) /\
  (b_custom W b = CNone W -> exists v, snd (log_joint W b) = OVal W v) /\
  (forall names f, b_custom W b = CFun W names f ->
     Forall (fun n => exists i, dict_get (b_nodes W b) n = Some (RStoch W i)) names ->
     exists v, snd (log_joint W b) = OVal W v) /\
  b_nodes W (fst (log_joint W b)) = b_nodes W b /\
  b_custom W (fst (log_joint W b)) = b_custom W b /\ evolves b (fst (log_joint W b)).
Proof.
  intros I G. unfold log_joint. destruct (b_cache W b) as [v|] eqn:C.
  - simpl. split; [assumption|]. split; [|split; [|split]]; eauto.
    + intros v' H. inversion H; subst. now apply G.
    + split; [|split]; auto. apply evolves_refl.
  - unfold log_joint_compute. destruct (b_custom W b) as [|names f|] eqn:Cu.
    + destruct (map_clp k0 (stoch_ids W b) b I G (proj2 (i_ids _ _ I)))
        as [b1 [vs [M [R [I1 [G1 F]]]]]]. rewrite M. simpl.
      assert (J : joint_is (set_cache W b1 (Some (py_sum W vs))) (py_sum W vs)).
      { unfold joint_is. simpl. assert (Hc : b_custom W b1 = CNone W).
        { destruct R as [_ [[_ [Hc _]] _]]. congruence. }
        rewrite Hc. exists vs. split; [|reflexivity].
        change (stoch_ids W (set_cache W b1 (Some (py_sum W vs)))) with (stoch_ids W b1).
        rewrite (reads_ids _ _ R). exact F. }
      split; [|split; [|split; [|split]]].
      * split; [apply (g_ready _ G1)|]. simpl. intros v H. inversion H; subst. exact J.
      * intros v H. inversion H; subst. exact J.
      * eauto.
      * eauto.
      * destruct R as [E [[_ [Hc [_ Hn]]] _]]. split; [exact Hn|]. split; [congruence|].
        eapply evolves_trans; [exact E|now apply evolves_objs].
    + unfold cond_log_prob. simpl (query_names _).
      destruct (check_names W b true names) as [e|] eqn:Ck.
      * simpl. split; [assumption|]. split; [discriminate|]. split; [discriminate|].
        split; [|split; [reflexivity|split; [assumption|apply evolves_refl]]].
        intros names' f' H Fa. inversion H; subst.
        apply check_names_none in Fa. congruence.
      * apply check_names_none in Ck.
        destruct (map_ncl k0 names b I G Ck) as [b1 [vs [M [R [I1 [G1 F]]]]]]. rewrite M. simpl.
        assert (J : joint_is (set_cache W b1 (Some (f vs))) (f vs)).
        { unfold joint_is. simpl. assert (Hc : b_custom W b1 = CFun W names f).
          { destruct R as [_ [[_ [Hc _]] _]]. congruence. }
          rewrite Hc. exists vs. split; [|reflexivity]. exact F. }
        split; [|split; [|split; [|split]]].
        -- split; [apply (g_ready _ G1)|]. simpl. intros v H. inversion H; subst. exact J.
        -- intros v H. inversion H; subst. exact J.
        -- eauto.
        -- eauto.
        -- destruct R as [E [[_ [Hc [_ Hn]]] _]]. split; [exact Hn|]. split; [congruence|].
           eapply evolves_trans; [exact E|now apply evolves_objs].
    + simpl. split; [assumption|]. split; [discriminate|]. split; [discriminate|].
      split; [discriminate|]. split; [reflexivity|]. split; [assumption|]. apply evolves_refl.
Qed.

Lemma stoch_ids_det_eq (d : list (name * noderef W)) n t :
  let ids d := flat_map (fun p => match snd p with RStoch _ j => [j] | RDet _ _ => [] end) d in
  (forall i, dict_get d n <> Some (RStoch W i)) ->
  ids (dict_set d n (RDet W t)) = ids d.
Proof.
  intros ids. induction d as [|[m r] d IH]; simpl; intros H; [reflexivity|].
  destruct (Nat.eqb n m).
  - simpl. destruct r; [exfalso; eapply H; reflexivity|reflexivity].
  - simpl. now rewrite IH.
Qed.

Lemma good_step k0 b c : inv k0 b -> good b -> ok_call W b c -> good (fst (step b c)).
Proof.
  intros I G S. destruct c; try (now destruct S); try exact G.
  - simpl. unfold stochastic. destruct (dict_get (b_nodes W b) n); [exact G|].
    destruct (init_observation W _ _ _ _) as [e|ob]; simpl.
    + split; [apply (g_ready _ G)|discriminate].
    + split; [|discriminate]. simpl. intros i nd H.
      destruct (Nat.lt_ge_cases i (length (b_objs W b))) as [Hl|Hl].
      * rewrite nth_error_app1 in H by assumption. eapply g_ready; eauto.
      * rewrite nth_error_app2 in H by assumption.
        destruct (i - length (b_objs W b)) as [|[|]]; simpl in H; inversion H; reflexivity.
  - simpl in *. assert (S' : forall i, dict_get (b_nodes W b) n <> Some (RStoch W i)).
    { intros i H. apply (S i). now apply bound_iff. }
    split; [apply (g_ready _ G)|]. simpl. intros v Hv. apply (g_cache _ G) in Hv.
    unfold joint_is, deterministic in *. simpl in *. destruct (b_custom W b); auto.
    + unfold stoch_ids in *. simpl. rewrite stoch_ids_det_eq by assumption. exact Hv.
    + destruct Hv as [vs [F ->]]. exists vs. split; [|reflexivity].
      eapply Forall2_impl; [|exact F]. intros m v [i [H1 H2]]. exists i. split; [|exact H2].
      rewrite dict_get_set_neq; [assumption|]. intros ->. now apply (S' i).
  - rewrite step_ReadTensor. eapply reads_good; [apply read_tensor_reads|exact G].
  - rewrite step_CondLogP. eapply reads_good; [apply cond_log_p_reads|exact G].
  - now apply (get_pres good).
  - apply (cond_log_prob_pres good); [|exact G].
    intros b' i H. eapply reads_good; [apply cond_log_p_reads|exact H].
  - apply (outputs_pres good); [|exact G].
    intros b' i H. eapply reads_good; [apply read_tensor_reads|exact H].
  - apply (log_joint_good k0 b I G).
Qed.
Lemma good_run k0 h : forall b, inv k0 b -> good b -> safe W b h -> good (run b h).
Proof.
  induction h as [|c h IH]; intros b I G S; auto. simpl in *. destruct S as [S1 S2].
  apply IH; auto. now apply inv_step. now apply (good_step k0).
Qed.
Lemma good_new loc c obs k : good (new_bn W loc c obs k).
Proof. split; simpl; [intros [|]; discriminate|discriminate]. Qed.

Lemma has_clp_value k0 b i v : inv k0 b -> has_clp b i v -> exists nd t,
  nth_error (b_objs W b) i = Some nd /\ step b (ReadTensor W i) = (b, OTensor W t) /\
  v = w_log_prob W (sn_dist W nd) t.
Proof.
  intros I [nd [E H]]. destruct (i_clp _ _ I _ _ _ E H) as [t [V ->]].
  exists nd, t. split; [assumption|]. split; [|reflexivity]. eapply read_held; eauto.
Qed.
Lemma custom_step b c : ok_call W b c -> b_custom W (fst (step b c)) = b_custom W b.
Proof.
  set (P := fun b' => b_custom W b' = b_custom W b).
  assert (Prt : forall b' i, P b' -> P (fst (read_tensor W b' i))).
  { intros b' i H. destruct (read_tensor_reads b' i) as [_ [[_ [F _]] _]]. unfold P in *. congruence. }
  assert (Pcl : forall b' i, P b' -> P (fst (cond_log_p W b' i))).
  { intros b' i H. destruct (cond_log_p_reads b' i) as [_ [[_ [F _]] _]]. unfold P in *. congruence. }
  assert (P0 : P b) by reflexivity.
  change (ok_call W b c -> P (fst (step b c))).
  destruct c; intros S; try (now destruct S); try exact P0.
  - simpl. unfold stochastic. destruct (dict_get (b_nodes W b) n); [exact P0|].
    destruct (init_observation W _ _ _ _) as [e|ob]; exact P0.
  - rewrite step_ReadTensor. now apply Prt.
  - rewrite step_CondLogP. now apply Pcl.
  - now apply (get_pres P).
  - now apply (cond_log_prob_pres P Pcl).
  - now apply (outputs_pres P Prt).
  - now apply (log_joint_pres P Pcl).
Qed.
Lemma custom_run h : forall b, safe W b h -> b_custom W (run b h) = b_custom W b.
Proof.
  induction h as [|c h IH]; intros b S; auto. simpl in *. destruct S as [S1 S2].
  rewrite IH; auto. now apply custom_step.
Qed.

Lemma log_joint_sum k0 b : inv k0 b -> good b -> b_custom W b = CNone W ->
  exists b' ids (parts : list (w_dist W * w_tensor W)),
    step b (LogJoint W) =
      (b', OVal W (py_sum W (map (fun p => w_log_prob W (fst p) (snd p)) parts))) /\
    lists_stochastic W b ids /\ lists_stochastic W b' ids /\
    Forall2 (fun i p => (exists nd, nth_error (b_objs W b) i = Some nd /\ sn_dist W nd = fst p) /\
                        step b' (ReadTensor W i) = (b', OTensor W (snd p))) ids parts.
Proof.
  intros I G Cu. destruct (log_joint_good k0 b I G) as [G1 [J [T [_ [Hn [Hc Ev]]]]]].
  destruct (T Cu) as [v Hv]. pose proof (J v Hv) as Jv.
  assert (I1 : inv k0 (fst (log_joint W b))) by (exact (inv_step k0 b (LogJoint W) I)).
  unfold joint_is in Jv. rewrite Hc, Cu in Jv. destruct Jv as [vs [F ->]].
  set (b' := fst (log_joint W b)) in *.
  assert (Hids : stoch_ids W b' = stoch_ids W b) by (unfold stoch_ids; now rewrite Hn).
  assert (X : exists parts, vs = map (fun p => w_log_prob W (fst p) (snd p)) parts /\
    Forall2 (fun i p => (exists nd, nth_error (b_objs W b) i = Some nd /\ sn_dist W nd = fst p) /\
                        step b' (ReadTensor W i) = (b', OTensor W (snd p))) (stoch_ids W b) parts).
  { rewrite Hids in F. pose proof (proj2 (i_ids _ _ I)) as L. revert F L. clear Hv J.
    generalize (stoch_ids W b) as l. intros l F.
    induction F as [|i v l vs Hi F IH]; intros L.
    - exists []. split; [reflexivity|constructor].
    - destruct IH as [parts [-> Fp]]; [intros j Hj; apply L; simpl; auto|].
      destruct (has_clp_value k0 b' i v I1 Hi) as [nd [t [E [Rd ->]]]].
      exists ((sn_dist W nd, t) :: parts). split; [reflexivity|].
      constructor; [|assumption]. split; [|assumption]. simpl.
      assert (Hl : i < length (b_objs W b)) by (apply L; simpl; auto).
      destruct (nth_error (b_objs W b) i) as [x|] eqn:Ex; [|apply nth_error_None in Ex; lia].
      destruct (proj2 Ev _ _ Ex) as [y [Ey Hy]]. rewrite E in Ey. inversion Ey; subst y.
      exists x. split; [reflexivity|]. symmetry. apply (ev_dist _ _ Hy). }
  destruct X as [parts [-> Fp]]. exists b', (stoch_ids W b), parts.
  split; [|split; [|split]].
  - simpl. subst b'. destruct (log_joint W b); simpl in *. congruence.
  - eapply lists_ids; eauto.
  - rewrite <- Hids. eapply lists_ids; eauto.
  - exact Fp.
Qed.

(** ** C07 *)
Lemma map_get b l : check_names W b false l = None ->
  exists rs, map_state W (fun b n => (b, node_at W b n)) b l = (b, inr rs) /\
    Forall2 (fun n r => dict_get (b_nodes W b) n = Some r) l rs.
Proof.
  induction l as [|n l IH]; simpl.
  - intros _. exists []. auto.
  - unfold check_name at 1, node_at at 1.
    destruct (dict_get (b_nodes W b) n) as [[i|t]|] eqn:E; [| |discriminate];
      intros H; destruct (IH H) as [rs [-> F]]; eexists; split; try reflexivity;
      constructor; auto.
Qed.
Lemma check_false_some b l e : check_names W b false l = Some e ->
  exists n, In n l /\ dict_get (b_nodes W b) n = None.
Proof.
  induction l as [|n l IH]; simpl; [discriminate|]. unfold check_name at 1.
  destruct (dict_get (b_nodes W b) n) as [[i|t]|] eqn:E; intros H; eauto.
  - destruct (IH H) as [m [? ?]]; eauto.
  - destruct (IH H) as [m [? ?]]; eauto.
Qed.
Lemma check_false_none b l : check_names W b false l = None ->
  forall n, In n l -> dict_get (b_nodes W b) n <> None.
Proof.
  induction l as [|n l IH]; simpl; [intros _ ? []|]. unfold check_name at 1.
  destruct (dict_get (b_nodes W b) n) as [[i|t]|] eqn:E; intros H m; [| |discriminate];
    (intros [<-|Hm]; [congruence|auto]).
Qed.
Lemma map_nt l : forall b, good b -> (forall i, In i (stoch_ids W b) -> i < length (b_objs W b)) ->
  Forall (fun n => exists i, dict_get (b_nodes W b) n = Some (RStoch W i)) l ->
  exists b' ts, map_state W (node_tensor W) b l = (b', inr ts) /\ reads b b' /\
    Forall2 (fun n t => exists i nd, dict_get (b_nodes W b') n = Some (RStoch W i) /\
       nth_error (b_objs W b') i = Some nd /\ value_of nd = Some t) l ts.
Proof.
  induction l as [|n l IH]; intros b G B L; simpl.
  - exists b, []. split; [reflexivity|]. split; [apply reads_refl|]. auto.
  - inversion L as [|? ? [i Hn] L']; subst. unfold node_tensor at 1. rewrite Hn.
    assert (Hi : i < length (b_objs W b)).
    { apply B. apply in_ids. exists n. now apply dict_get_in. }
    destruct (nth_error (b_objs W b) i) as [nd|] eqn:E; [|apply nth_error_None in E; lia].
    destruct (read_total b i nd E (g_ready _ G _ _ E)) as [t Ht].
    pose proof (read_result b i t) as Hr. rewrite step_ReadTensor, Ht in Hr.
    destruct (Hr eq_refl) as [nd1 [E1 V1]]. clear Hr.
    pose proof (read_tensor_reads b i) as R.
    destruct (read_tensor W b i) as [b1 r]. simpl in *. subst r.
    assert (Hnd : b_nodes W b1 = b_nodes W b) by apply R.
    destruct (IH b1 (reads_good _ _ R G)) as [b2 [vs [M [R2 F2]]]].
    { intros j. rewrite (reads_ids _ _ R). destruct R as [_ [_ [_ ->]]]. auto. }
    { now rewrite Hnd. }
    rewrite M. exists b2, (t :: vs). split; [reflexivity|].
    split; [eapply reads_trans; eauto|].
    constructor; [|assumption].
    destruct R2 as [[_ E2] [[_ [_ [_ N2]]] _]]. destruct (E2 _ _ E1) as [y [Ey Hy]].
    exists i, y. split; [congruence|]. split; [assumption|]. eapply evolves_value; eauto.
Qed.

(** ** C08 *)
Lemma observed_read b i d ns ob b' : nth_error (b_objs W b) i = Some (SNode W d ns (Some ob) None None true) ->
  evolves b b' -> step b' (ReadTensor W i) = (b', OTensor W ob).
Proof.
  intros E [_ Ev]. destruct (Ev _ _ E) as [y [Ey Hy]].
  eapply read_held; [exact Ey|]. unfold value_of. rewrite (ev_ready _ _ Hy), (ev_obs _ _ Hy). reflexivity.
Qed.

End Proofs.
