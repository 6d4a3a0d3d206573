(** C52: the life of a variational objective. *)
From Coq Require Import List Arith Bool ZArith Lia.
From Verif Require Import ModelBN ModelDict ModelObjective ModelLife SpecBN SpecLife ProofBN PropDict PropObjective PropBN ProofLife ProofLifeNet.
Import ListNotations.
Local Open Scope nat_scope.

Section C52.
Context (W : world) (X : ops W).

Lemma created_inv kd ax t obs lat var k s : create W kd ax t obs lat var k = inr s -> inv W X s.
Proof.
  unfold create. destruct kd, ax; try discriminate; destruct (construct W lat var) as [b' [e|o]]; intros [= <-]; split; discriminate.
Qed.
Lemma acts_ok h : forall s s1 rs, inv W X s -> Forall (fun a => ~ adds_node W X a) h -> acts W X h s = (s1, rs) ->
  same W s s1 /\ stays W s s1 /\ inv W X s1 /\
  forall j a r, nth_error h j = Some a -> nth_error rs j = Some r -> is_estimate W r ->
    exists lj, fixed W s1 = Some lj /\ estimate W X (ob_kind W (s_obj W s)) a lj (entropy_of W X (s_obj W s)) = Some r.
Proof.
  induction h as [|a h IH]; intros s s1 rs I Q; cbn.
  - intros [= <- <-]. split; [apply same_refl|]. split; [apply stays_refl|]. split; [exact I|]. intros [|j]; discriminate.
  - inversion Q as [|? ? Qa Qh]; subst. destruct (act W X a s) as [s0 r] eqn:A. destruct (acts W X h s0) as [s2 rs2] eqn:B. intros [= <- <-].
    destruct (act_ok W X a s s0 r I Qa A) as (S & F & I0 & R). destruct (IH s0 s2 rs2 I0 Qh B) as (S2 & F2 & I2 & R2).
    split; [eapply same_trans; eauto|]. split; [eapply stays_trans; eauto|]. split; [exact I2|].
    intros [|j] x y; cbn.
    + intros [= <-] [= <-] E. destruct (R E) as (lj & L & V). exists lj. split; [now apply F2|exact V].
    + intros Hx Hy E. destruct (R2 j x y Hx Hy E) as (lj & L & V). exists lj. split; [exact L|].
      rewrite <- (same_ent W X _ _ S). destruct S as (<- & _). exact V.
Qed.

(** Which constructor calls are rejected: a multi-sample objective without axis, both or
    neither of latent and variational, something that is not a network as variational. *)
Theorem C52_create kd ax t obs lat var k : let r := create W kd ax t obs lat var k in
  (kd = Iw -> ax = false -> r = inl ValueError) /\
  ((lat = None <-> var = None) -> r = inl ValueError) /\
  (~ (kd = Iw /\ ax = false) -> lat = None -> var = Some (VOther W) -> r = inl TypeError) /\
  (~ (kd = Iw /\ ax = false) -> var = None -> forall p l, lat = Some (p :: l) -> exists s, r = inr s).
Proof.
  cbv zeta. unfold create. split; [intros -> ->; reflexivity|]. split; [|split].
  - intros (H1 & H2). assert (C : snd (construct W lat var) = inl ValueError).
    { destruct lat as [l|], var as [v|]; [destruct v; reflexivity|discriminate (H2 eq_refl)|discriminate (H1 eq_refl)|reflexivity]. }
    destruct (construct W lat var) as [b' r]. cbn in C. subst r. destruct kd, ax; reflexivity.
  - intros N -> ->. cbn. destruct kd, ax; try reflexivity. exfalso. apply N. split; reflexivity.
  - intros N -> p l ->. cbn. destruct kd, ax; try (eexists; reflexivity). exfalso. apply N. split; reflexivity.
Qed.
(** However the program interleaves the accesses to an objective, with calls on the
    variational network, reads of obj.bn and changes of its own dictionary, all estimates
    it ever gets are those of one and the same log joint and of the entropy of the
    latent variables at construction. *)
Theorem C52_consistent kd ax t obs lat var k s0 h s rs :
  create W kd ax t obs lat var k = inr s0 -> Forall (fun a => ~ adds_node W X a) h -> acts W X h s0 = (s, rs) ->
  exists lj, forall j a r, nth_error h j = Some a -> nth_error rs j = Some r -> is_estimate W r ->
    estimate W X kd a lj (entropy_of W X (s_obj W s0)) = Some r.
Proof.
  intros C Q A. destruct (acts_ok h s0 s rs (created_inv _ _ _ _ _ _ _ _ C) Q A) as (_ & _ & _ & R).
  assert (K : ob_kind W (s_obj W s0) = kd).
  { unfold create in C. destruct kd, ax; try discriminate; destruct (construct W lat var) as [b' [e|o]]; try discriminate C; injection C as <-; reflexivity. }
  rewrite K in R. destruct (fixed W s) as [lj|].
  - exists lj. intros j a r Ha Hr E. destruct (R j a r Ha Hr E) as (l & [= <-] & V). exact V.
  - exists (w_zero W). intros j a r Ha Hr E. destruct (R j a r Ha Hr E) as (l & L & _). discriminate.
Qed.

(** The model is built at most once and its log joint function completes at most once,
    whatever the program does. *)
Theorem C52_once kd ax t obs lat var k s0 h s rs :
  create W kd ax t obs lat var k = inr s0 -> acts W X h s0 = (s, rs) -> s_built W s <= 1 /\ s_done W s <= 1.
Proof.
  intros C A. assert (N : counted W s0).
  { unfold create in C. destruct kd, ax; try discriminate; destruct (construct W lat var) as [b' [e|o]]; try discriminate C; injection C as <-; split; reflexivity. }
  destruct (gr_count W _ _ (acts_grows W X h s0 s rs A) N) as [-> ->].
  destruct (ob_bn W (s_obj W s)), (ob_log_joint W (s_obj W s)); lia.
Qed.

(** obj.bn is one network: a value read from it once is read from it forever. *)
Theorem C52_bn_values i t s s1 h s2 rs :
  act W X (OnBn W X (ReadTensor W i)) s = (s1, ROut W (OTensor W t)) -> acts W X h s1 = (s2, rs) ->
  snd (act W X (OnBn W X (ReadTensor W i)) s2) = ROut W (OTensor W t).
Proof.
  intros A H. pose proof (acts_grows W X h s1 s2 rs H) as G. cbn [act] in *.
  destruct (ob_target W (s_obj W s)) as [m|f|] eqn:T; [|discriminate..].
  destruct (get_bn W X m s) as [s0 [e|b]] eqn:B; [discriminate|].
  destruct (get_bn_ok W X m s s0 (inr b) T B) as ((_ & S2 & _) & _).
  unfold step_at in A. destruct (step W (at_draws W b (s_draws W s0)) (ReadTensor W i)) as [b' o] eqn:St. injection A as <- ->.
  assert (Hb : step W b' (ReadTensor W i) = (b', OTensor W t)).
  { destruct (read_result W (at_draws W b (s_draws W s0)) i t) as (nd & N & V); [now rewrite St|]. rewrite St in N. cbn in N.
    eapply read_held; eauto. }
  destruct (gr_same W _ _ G) as (_ & Tt & _). cbn in Tt. rewrite Tt, S2, T.
  destruct (gr_bn W _ _ G b' eq_refl) as (b2 & Hb2 & E). unfold get_bn. rewrite Hb2. unfold step_at.
  cbn [step]. rewrite (read_evolved W b' b2 i t _ E Hb). reflexivity.
Qed.

(** What the caller does to the dictionary it passed is not seen. *)
Theorem C52_own_copy h : forall s s1 rs, acts W X h s = (s1, rs) ->
  snd (acts W X (filter (fun a => negb (mutates W X a)) h) s) =
  map snd (filter (fun p => negb (mutates W X (fst p))) (combine h rs)).
Proof.
  assert (G : forall h d s, snd (acts W X (filter (fun a => negb (mutates W X a)) h) (put W d s)) =
     snd (acts W X (filter (fun a => negb (mutates W X a)) h) s)).
  { clear h. induction h as [|a h IH]; intros d s; [reflexivity|]. cbn [filter]. destruct (mutates W X a) eqn:M; cbn [negb]; [apply IH|].
    cbn [acts]. rewrite (act_put W X a d s M). destruct (act W X a s) as [s0 r]. cbn [fst snd].
    specialize (IH d s0). destruct (acts W X _ (put W d s0)), (acts W X _ s0). cbn in *. now rewrite IH. }
  induction h as [|a h IH]; intros s s1 rs; cbn [acts].
  - intros [= <- <-]. reflexivity.
  - destruct (act W X a s) as [s0 r] eqn:A. destruct (acts W X h s0) as [s2 rs2] eqn:B. intros [= <- <-].
    specialize (IH s0 s2 rs2 B). cbn [filter combine fst]. destruct (mutates W X a) eqn:M; cbn [negb map snd].
    + destruct a; try discriminate. cbn in A. injection A as <- <-. rewrite <- IH. symmetry. apply G.
    + cbn [acts]. rewrite A. destruct (acts W X _ s0) as [s3 rs3]. cbn in *. now rewrite IH.
Qed.

(** A class has the estimators of its own only, and the objective of klpq cannot be
    evaluated; without latent variables the ELBO is the average log joint, and nothing
    else gives an estimate. *)
Theorem C52_available kd ax t obs lat var k s0 h s rs j a r :
  create W kd ax t obs lat var k = inr s0 -> Forall (fun a => ~ adds_node W X a) h -> acts W X h s0 = (s, rs) ->
  nth_error h j = Some a -> nth_error rs j = Some r -> is_estimate W r ->
  match a, kd with
  | (ReadObjective _ _ | Convert _ _ _ _ | Sgvb _ _), Elbo => True
  | (ReadObjective _ _ | Convert _ _ _ _ | Sgvb _ _ | Vimco _ _), Iw
  | Reinforce _ _ _ _ _ _, Elbo | Importance _ _, Klpq _ => ob_inputs W (s_obj W s0) <> []
  | _, _ => False
  end.
Proof.
  intros C Q A Ha Hr E. destruct (C52_consistent kd ax t obs lat var k s0 h s rs C Q A) as (lj & V). specialize (V j a r Ha Hr E).
  assert (K : ob_inputs W (s_obj W s0) = [] -> ob_log_probs W (s_obj W s0) = []).
  { unfold create in C. destruct (construct W lat var) as [b' [e|o]] eqn:Co; [destruct kd, ax; discriminate|].
    assert (o_inputs W o = [] -> o_log_probs W o = []).
    { unfold construct in Co. destruct var as [[b|]|], lat as [[|x l]|]; try discriminate.
      - destruct (unobserved W b (b_nodes W b)) as [e|l]; [discriminate|]. destruct (map_state W (cond_log_p W) b (map snd l)) as [b1 [e|vs]]; [discriminate|].
        injection Co as _ <-. cbn. destruct l; [reflexivity|discriminate].
      - injection Co as _ <-. discriminate. }
    destruct kd, ax; try discriminate; injection C as <-; exact H. }
  unfold entropy_of in V.
  destruct a, kd; cbn in V; try exact Logic.I; try discriminate; intros N; rewrite (K N) in V; discriminate.
Qed.
(** ... where klpq says so, when it is asked for its value. *)
Theorem C52_klpq_no_value axis ax t obs lat var k s0 h s rs :
  create W (Klpq axis) ax t obs lat var k = inr s0 -> Forall (fun a => ~ adds_node W X a) h -> acts W X h s0 = (s, rs) ->
  act W X (ReadObjective W X) s = (s, RErr W NotImplemented).
Proof.
  intros C Q A. destruct (acts_ok h s0 s rs (created_inv _ _ _ _ _ _ _ _ C) Q A) as ((K & _) & _ & I & _).
  assert (K0 : ob_kind W (s_obj W s0) = Klpq axis).
  { unfold create in C. destruct (construct W lat var) as [b' [e|o]]; try discriminate C; injection C as <-; reflexivity. }
  rewrite K0 in K. cbn [act]. unfold tensor_. destruct (ob_tensor W (s_obj W s)) as [v|] eqn:T.
  - destruct (v_tensor W X s I v T) as (lj & _ & V). rewrite K in V. destruct (entropy_of W X (s_obj W s)); discriminate.
  - unfold objective_. rewrite K. reflexivity.
Qed.

(** reinforce() with variance reduction makes a variable: a second call in the same
    variable scope fails, unless the scope reuses variables, when both estimates share
    one moving average. Without variance reduction it may be called any number of times. *)
Theorem C52_reinforce_again vr bl scope reuse s s1 r h s2 rs bl' reuse' :
  act W X (Reinforce W X true bl scope reuse) s = (s1, r) -> is_estimate W r -> acts W X h s1 = (s2, rs) ->
  (is_estimate W (snd (act W X (Reinforce W X vr bl' scope reuse') s2)) -> vr = true -> reuse' = true) /\
  (s_means W (fst (act W X (Reinforce W X false bl' scope reuse') s2)) = s_means W s2).
Proof.
  intros A E H. assert (In1 : In scope (s_means W s1)).
  { cbn [act] in A. destruct (ob_kind W (s_obj W s)); [|injection A as <- <-; destruct E..].
    destruct (both W X s) as [s0 [e|[lj [e|]]]]; [injection A as <- <-; destruct E| |injection A as <- <-; destruct E].
    destruct (get_mean scope reuse (s_means W s0)) as [means|] eqn:M; [|injection A as <- <-; destruct E].
    assert (In scope means).
    { unfold get_mean in M. destruct (existsb (Nat.eqb scope) (s_means W s0)) eqn:Ex, reuse; try discriminate; injection M as <-; [|now left].
      apply existsb_exists in Ex. destruct Ex as (x & Hx & Q). apply Nat.eqb_eq in Q. now subst. }
    destruct bl; injection A as <- <-; exact H0. }
  apply (gr_means W _ _ (acts_grows W X h s1 s2 rs H)) in In1.
  assert (Mb : forall s0 r0, both W X s2 = (s0, r0) -> s_means W s0 = s_means W s2).
  { intros s0 r0. unfold both. destruct (log_joint_term W X s2) as [s3 r3] eqn:L.
    assert (M3 : s_means W s3 = s_means W s2).
    { unfold log_joint_term in L. destruct (ob_target W (s_obj W s2)) as [m|f|]; [| |injection L as <- _; reflexivity].
      - unfold get_bn in L. destruct (ob_bn W (s_obj W s2)) as [b|].
        + destruct (log_joint W (at_draws W b (s_draws W s2))) as [b' o]. destruct o; injection L as <- _; reflexivity.
        + destruct (observe W m (merged W X s2) (s_draws W s2)) as [b [e|]]; [injection L as <- _; reflexivity|]. cbn in L.
          destruct (log_joint W (at_draws W b (b_draws W b))) as [b' o]. destruct o; injection L as <- _; reflexivity.
      - destruct (ob_log_joint W (s_obj W s2)); [injection L as <- _; reflexivity|].
        destruct (f (merged W X s2) (s_calls W s2)); injection L as <- _; reflexivity. }
    destruct r3 as [e|lj]; [intros [= <- _]; exact M3|].
    unfold entropy_term. destruct (ob_entropy W (s_obj W s3)); intros [= <- _]; exact M3. }
  split.
  - cbn [act]. destruct (ob_kind W (s_obj W s2)); [|intros []..].
    destruct (both W X s2) as [s0 [e|[lj [e|]]]] eqn:B; [intros []| |intros []]. intros F ->. rewrite (Mb _ _ eq_refl) in F.
    unfold get_mean in F. assert (Ex : existsb (Nat.eqb scope) (s_means W s2) = true).
    { apply existsb_exists. exists scope. split; [exact In1|apply Nat.eqb_refl]. }
    rewrite Ex in F. destruct reuse'; [reflexivity|destruct F].
  - cbn [act]. destruct (ob_kind W (s_obj W s2)); [|reflexivity..].
    destruct (both W X s2) as [s0 [e|[lj [e|]]]] eqn:B; exact (Mb _ _ eq_refl).
Qed.

(** An exception from the model's code, or from the log joint function, is not
    remembered: the next access tries again. *)
Theorem C52_retry m s s1 e : ob_target W (s_obj W s) = TModel W m -> act W X (ReadBn W X) s = (s1, RErr W e) ->
  s_obj W s1 = s_obj W s /\ ob_bn W (s_obj W s1) = None.
Proof.
  intros T. cbn [act]. rewrite T. unfold get_bn. destruct (ob_bn W (s_obj W s)) as [b|] eqn:B; [discriminate|].
  destruct (observe W m (merged W X s) (s_draws W s)) as [b [x|]]; intros [= <- <-]; cbn. auto.
Qed.

Theorem C52_retry_function f s e : ob_target W (s_obj W s) = TFun W f -> ob_kind W (s_obj W s) = Elbo ->
  ob_tensor W (s_obj W s) = None -> ob_log_joint W (s_obj W s) = None -> f (merged W X s) (s_calls W s) = inl e ->
  exists s1, act W X (ReadObjective W X) s = (s1, RErr W (Py e)) /\ s_obj W s1 = s_obj W s /\ merged W X s1 = merged W X s /\
    s_calls W s1 = S (s_calls W s).
Proof.
  intros T K Te L F. cbn [act]. unfold tensor_, objective_, both, log_joint_term. rewrite T, K, Te, L, F.
  eexists. split; [reflexivity|]. repeat split.
Qed.

(** [t] is the tensor a latent input stands for. *)
Definition stands_for (s : state W) (x : vinput W) (t : w_tensor W) : Prop :=
  match x with
  | VTensor _ u => u = t
  | VNode _ i => exists b, s_vnet W s = Some b /\ step W b (ReadTensor W i) = (b, OTensor W t)
  end.

Lemma merged_seen s0 s obs : grows W s0 s -> ob_observed W (s_obj W s0) = obs -> NoDup (map fst obs) ->
  NoDup (map fst (ob_inputs W (s_obj W s0))) ->
  forall n, (forall o, dict_get obs n = Some o -> seen W (merged W X s) n = o) /\
      (dict_get obs n = None -> forall x t, In (n, x) (ob_inputs W (s_obj W s0)) -> stands_for s0 x t -> seen W (merged W X s) n = Some (x_obs W X t)) /\
      (dict_get obs n = None -> ~ In n (map fst (ob_inputs W (s_obj W s0))) -> seen W (merged W X s) n = None).
Proof.
  intros G Eo No Ni. destruct (gr_same W _ _ G) as (_ & Ht & Hi & _ & Ho).
  intros n.
  assert (Nm : forall f : vinput W -> option (w_obs W), NoDup (map fst (map (fun p => (fst p, f (snd p))) (ob_inputs W (s_obj W s0))))).
  { intros f. rewrite map_map. exact Ni. }
  pose proof (merge2 (V := option (w_obs W)) (map (fun p => (fst p, input_obs W X s (snd p))) (ob_inputs W (s_obj W s0))) obs n (Nm _) No) as M.
  assert (Sn : seen W (merged W X s) n = match (match dict_get obs n with Some v => Some v
      | None => dict_get (map (fun p => (fst p, input_obs W X s (snd p))) (ob_inputs W (s_obj W s0))) n end) with Some o => o | None => None end).
  { unfold seen, merged, variational_obs. rewrite Ho, Hi, Eo. exact (f_equal (fun q => match q with Some o => o | None => None end) M). }
  rewrite Sn. clear M Sn. split; [|split].
  - intros o Hn. now rewrite Hn.
  - intros Hn x t Hx St. rewrite Hn.
    rewrite (in_dict_get _ n (input_obs W X s x)); [|apply Nm|apply in_map_iff; exists (n, x); auto].
    destruct x as [i|u]; cbn [input_obs stands_for] in *; [|now rewrite St].
    destruct St as (b0 & Hv & Hr). pose proof (gr_vnet W _ _ G) as V. rewrite Hv in V. destruct V as (b1 & -> & E).
    rewrite (read_evolved W b0 b1 i t _ E Hr). reflexivity.
  - intros Hn Hx. rewrite Hn. destruct (dict_get (map _ _) n) eqn:D; [|reflexivity]. exfalso. apply Hx.
    apply dict_get_in in D. apply in_map_iff in D. destruct D as ((n' & x) & [= <- _] & D). apply in_map_iff. exists (n', x). auto.
Qed.

(** Whenever the model gets built, it is observed with the values the caller gave at
    construction and, for the other names, with the values of the latent inputs. *)
Theorem C52_observations kd ax m obs lat var k s0 h s rs s1 :
  create W kd ax (TModel W m) obs lat var k = inr s0 -> acts W X h s0 = (s, rs) ->
  NoDup (map fst obs) -> NoDup (map fst (ob_inputs W (s_obj W s0))) -> s_built W s = 0 ->
  act W X (ReadBn W X) s = (s1, RBn W) ->
  exists d b k', observe W m d k' = (b, None) /\ ob_bn W (s_obj W s1) = Some b /\ b_draws W b = s_draws W s1 /\
    forall n, (forall o, dict_get obs n = Some o -> seen W d n = o) /\
      (dict_get obs n = None -> forall x t, In (n, x) (ob_inputs W (s_obj W s0)) -> stands_for s0 x t -> seen W d n = Some (x_obs W X t)) /\
      (dict_get obs n = None -> ~ In n (map fst (ob_inputs W (s_obj W s0))) -> seen W d n = None).
Proof.
  intros C A No Ni Bt R. pose proof (acts_grows W X h s0 s rs A) as G. destruct (gr_same W _ _ G) as (_ & Ht & Hi & _ & Ho).
  assert (C0 : counted W s0 /\ ob_observed W (s_obj W s0) = obs /\ ob_target W (s_obj W s0) = TModel W m).
  { unfold create in C. destruct kd, ax; try discriminate; destruct (construct W lat var) as [b' [e|o]]; try discriminate C; injection C as <-; repeat split; reflexivity. }
  destruct C0 as (C0 & Eo & Et). destruct (gr_count W _ _ G C0) as [Bb _]. rewrite Bt in Bb.
  cbn [act] in R. rewrite Ht, Et in R. unfold get_bn in R. destruct (ob_bn W (s_obj W s)) as [b|]; [discriminate|].
  destruct (observe W m (merged W X s) (s_draws W s)) as [b [e|]] eqn:Ob; [discriminate|]. injection R as <-.
  exists (merged W X s), b, (s_draws W s). split; [exact Ob|]. split; [reflexivity|]. split; [reflexivity|].
  exact (merged_seen s0 s obs G Eo No Ni).
Qed.

(** The first estimate asks for the log joint. *)
Lemma first_estimate a s s1 r : ob_tensor W (s_obj W s) = None -> act W X a s = (s1, r) -> is_estimate W r ->
  exists s' lj, log_joint_term W X s = (s', inr lj) /\ ob_bn W (s_obj W s1) = ob_bn W (s_obj W s') /\
    ob_target W (s_obj W s1) = ob_target W (s_obj W s').
Proof.
  intros N.
  assert (B : forall s0 r0, both W X s = (s0, inr r0) -> exists s' lj, log_joint_term W X s = (s', inr lj) /\
     ob_bn W (s_obj W s0) = ob_bn W (s_obj W s') /\ ob_target W (s_obj W s0) = ob_target W (s_obj W s')).
  { intros s0 r0. unfold both. destruct (log_joint_term W X s) as [s' [e|lj]]; [discriminate|].
    unfold entropy_term. destruct (ob_entropy W (s_obj W s')); intros [= <- _]; exists s', lj; auto. }
  assert (T : forall s0 v, tensor_ W X s = (s0, inr v) -> exists s' lj, log_joint_term W X s = (s', inr lj) /\
     ob_bn W (s_obj W s0) = ob_bn W (s_obj W s') /\ ob_target W (s_obj W s0) = ob_target W (s_obj W s')).
  { intros s0 v. unfold tensor_. rewrite N. destruct (objective_ W X s) as [s2 [e|w]] eqn:O; [discriminate|]. intros [= <- _]. cbn.
    unfold objective_ in O. destruct (ob_kind W (s_obj W s)); [| |discriminate];
      destruct (both W X s) as [s3 [e|[lj [e|]]]] eqn:Q; try discriminate; injection O as <- _; eapply B; reflexivity. }
  destruct a as [| |dtype as_ref| |vr bl scope reuse| | |c|c|n o]; cbn [act]; intros A E.
  - destruct (ob_target W (s_obj W s)) as [m|f|]; [destruct (get_bn W X m s) as [? []]|..]; injection A as <- <-; destruct E.
  - destruct (tensor_ W X s) as [s2 [e|v]]; injection A as <- <-; [destruct E|]. eapply T; reflexivity.
  - destruct (tensor_ W X s) as [s2 [e|v]]; [injection A as <- <-; destruct E|].
    destruct (match dtype with Some d => _ | None => _ end); [injection A as <- <-; destruct E|].
    destruct as_ref; injection A as <- <-; [destruct E|]. eapply T; reflexivity.
  - destruct (ob_kind W (s_obj W s)); [| |injection A as <- <-; destruct E];
      (destruct (tensor_ W X s) as [s2 [e|v]]; injection A as <- <-; [destruct E|]; eapply T; reflexivity).
  - destruct (ob_kind W (s_obj W s)); [|injection A as <- <-; destruct E..].
    destruct (both W X s) as [s2 [e|[lj [e|]]]]; [injection A as <- <-; destruct E| |injection A as <- <-; destruct E].
    destruct (B s2 _ eq_refl) as (s' & l & Q). exists s', l.
    destruct vr; [destruct (get_mean scope reuse (s_means W s2)); [destruct bl|]|]; injection A as <- <-; exact Q.
  - destruct (ob_kind W (s_obj W s)); [injection A as <- <-; destruct E| |injection A as <- <-; destruct E].
    destruct (both W X s) as [s2 [e|[lj [e|]]]]; [injection A as <- <-; destruct E| |injection A as <- <-; destruct E].
    destruct (B s2 _ eq_refl) as (s' & l & Q). exists s', l.
    destruct (x_vimco W X lj e); injection A as <- <-; exact Q.
  - destruct (ob_kind W (s_obj W s)); [injection A as <- <-; destruct E..|].
    destruct (both W X s) as [s2 [e|[lj [e|]]]]; [injection A as <- <-; destruct E| |injection A as <- <-; destruct E].
    destruct (B s2 _ eq_refl) as (s' & l & Q). exists s', l. injection A as <- <-. exact Q.
  - destruct (ob_target W (s_obj W s)) as [m|f|]; [|injection A as <- <-; destruct E..].
    destruct (get_bn W X m s) as [s2 [e|b]]; [injection A as <- <-; destruct E|].
    destruct (step_at W b (s_draws W s2) c). injection A as <- <-. destruct E.
  - destruct (s_vnet W s) as [b|]; [|injection A as <- <-; destruct E]. destruct (step_at W b (s_draws W s) c). injection A as <- <-. destruct E.
  - injection A as <- <-. destruct E.
Qed.

(** The whole computation. A list of factors: names with a distribution and a value. *)
Definition factors := list (name * (w_dist W * w_tensor W)).
Definition log_density (l : factors) : w_val W := py_sum W (map (fun p => w_log_prob W (fst (snd p)) (snd (snd p))) l).

Lemma name_parts (b : bn W) (R : nat -> w_dist W * w_tensor W -> Prop) ids parts :
  NoDup ids -> (forall i, In i ids -> exists n, bound W b n i) -> Forall2 R ids parts ->
  exists p : factors, map snd p = parts /\ NoDup (map fst p) /\
    (forall n x, In (n, x) p -> exists i, bound W b n i /\ In i ids /\ R i x) /\
    (forall i, In i ids -> exists n x, bound W b n i /\ In (n, x) p).
Proof.
  intros Nd B F. induction F as [|i x ids parts H F IH].
  - exists []. cbn. split; [easy|]. split; [constructor|]. split; [intros ? ? []|intros ? []].
  - inversion Nd as [|? ? N1 N2]; subst. destruct IH as (p & Em & Np & P & Q); [exact N2|intros j Hj; apply B; now right|].
    destruct (B i (or_introl eq_refl)) as (n & Hn). exists ((n, x) :: p). cbn [map fst snd]. split; [now rewrite Em|]. split; [|split].
    + constructor; [|exact Np]. intros C. apply in_map_iff in C. destruct C as ((n' & y) & En & Hy). cbn in En. subst n'.
      destruct (P n y Hy) as (j & Hj & Ij & _). apply N1. unfold bound in *. congruence.
    + intros n' y [[= <- <-]|Hy]; [exists i; split; [exact Hn|split; [now left|exact H]]|].
      destruct (P n' y Hy) as (j & H1 & H2 & H3). exists j. split; [exact H1|split; [now right|exact H3]].
    + intros j [<-|Hj]; [exists n, x; split; [exact Hn|now left]|]. destruct (Q j Hj) as (n' & y & H1 & H2). exists n', y. split; [exact H1|now right].
Qed.

Lemma name_log_probs (P : name -> w_dist W -> w_tensor W -> Prop) (l : list (name * w_val W)) :
  (forall n v, In (n, v) l -> exists d t, P n d t /\ v = w_log_prob W d t) ->
  exists q : factors, map fst q = map fst l /\ map (fun p => w_log_prob W (fst (snd p)) (snd (snd p))) q = map snd l /\
    forall n d t, In (n, (d, t)) q -> P n d t.
Proof.
  induction l as [|[n v] l IH]; intros H.
  - exists []. repeat split. intros ? ? ? [].
  - destruct IH as (q & Q1 & Q2 & Q3); [intros; apply H; now right|]. destruct (H n v (or_introl eq_refl)) as (d & t & Hp & ->).
    exists ((n, (d, t)) :: q). cbn. rewrite Q1, Q2. repeat split. intros n' d' t' [[= <- <- <-]|Hq]; [exact Hp|now apply Q3].
Qed.
Lemma ids_inj (d : list (name * noderef W)) n n' i :
  NoDup (flat_map (fun p => match snd p with RStoch _ i => [i] | RDet _ _ => [] end) d) ->
  In (n, RStoch W i) d -> In (n', RStoch W i) d -> n = n'.
Proof.
  induction d as [|[m x] d IH]; [intros _ []|]. cbn. intros N H H'.
  assert (Later : forall n0, In (n0, RStoch W i) d -> In i (flat_map (fun p => match snd p with RStoch _ i => [i] | RDet _ _ => [] end) d)).
  { intros n0 H0. apply in_flat_map. exists (n0, RStoch W i). split; [exact H0|now left]. }
  destruct H as [[= -> ->]|H], H' as [E'|H'].
  - now injection E' as ->.
  - cbn in N. inversion N as [|? ? N1 _]; subst. destruct N1. eapply Later; eauto.
  - injection E' as -> ->. cbn in N. inversion N as [|? ? N1 _]; subst. destruct N1. eapply Later; eauto.
  - apply IH; auto. destruct x; cbn in N; [now inversion N|exact N].
Qed.
Lemma at_own_draws (b : bn W) : at_draws W b (b_draws W b) = b.
Proof. destruct b; reflexivity. Qed.

(** From the two networks to the estimates. The variational network was built by
    ordinary calls, and so is the model's; passing a tensor as an observation keeps it.
    [q]: the factors of the variational network, its unobserved nodes each at its
    sample. [p]: the factors of the model, all its stochastic nodes, each at the
    observed value or at the sample of the variational node of the same name. Then every
    estimate ever obtained is that of log p and -log q at these values. *)
Theorem C52_end_to_end loc c obsq kq hq m kd ax obs k s0 a r h s rs :
  let bq := run W (new_bn W loc c obsq kq) hq in
  safe W (new_bn W loc c obsq kq) hq ->
  md_custom W m = CNone W -> (forall d k, safe W (fresh W m d k) (trace W (md_code W m) (fresh W m d k))) ->
  (forall d t t', w_convert W d (x_obs W X t) = Some t' -> t' = t) ->
  create W kd ax (TModel W m) obs None (Some (VNet W bq)) k = inr s0 -> NoDup (map fst obs) ->
  acts W X (a :: h) s0 = (s, r :: rs) -> is_estimate W r -> Forall (fun a => ~ adds_node W X a) (a :: h) ->
  exists (p q : factors) bp d k',
    (NoDup (map fst q) /\ (forall n, In n (map fst q) <-> exists i, bound W bq n i /\ is_observed W bq i = inr false) /\
     forall n d t, In (n, (d, t)) q -> exists i nd b, bound W bq n i /\ nth_error (b_objs W bq) i = Some nd /\ sn_dist W nd = d /\
       s_vnet W s0 = Some b /\ step W b (ReadTensor W i) = (b, OTensor W t)) /\
    observe W m d k' = (bp, None) /\
    (NoDup (map fst p) /\ (forall n, In n (map fst p) <-> exists i, bound W bp n i) /\
     forall n dist t, In (n, (dist, t)) p ->
       (exists i nd, bound W bp n i /\ nth_error (b_objs W bp) i = Some nd /\ sn_dist W nd = dist) /\
       (forall o, dict_get obs n = Some (Some o) -> w_convert W dist o = Some t) /\
       (dict_get obs n = None -> In n (map fst q) -> exists dq, In (n, (dq, t)) q)) /\
    forall j a' r', nth_error (a :: h) j = Some a' -> nth_error (r :: rs) j = Some r' -> is_estimate W r' ->
      estimate W X kd a' (log_density p) (match q with [] => None | _ => Some (x_neg W X (log_density q)) end) = Some r'.
Proof.
  intros bq Sq Cm Sm Cv C No A E Q. pose proof (created_inv _ _ _ _ _ _ _ _ C) as I0.
  destruct (C38_coverage W loc c obsq kq hq Sq) as (b' & o & Co & Nl & El & In_ & Lp & _). fold bq in Co, In_, Lp.
  assert (S0 : s0 = State W (Obj W kd (TModel W m) (o_inputs W o) (o_log_probs W o) obs None None None None) (Some b') obs (b_draws W b') 0 0 0 []).
  { unfold create in C. rewrite Co in C. destruct kd, ax; try discriminate; now injection C as <-. }
  (* q *)
  destruct (name_log_probs (fun n d t => exists i nd, bound W bq n i /\ nth_error (b_objs W bq) i = Some nd /\ sn_dist W nd = d /\
     step W b' (ReadTensor W i) = (b', OTensor W t)) (o_log_probs W o)) as (q & Q1 & Q2 & Q3).
  { intros n v H. destruct (Lp n v H) as (i & d & t & B & _ & (nd & N1 & N2) & R & ->). exists d, t. split; [|reflexivity]. exists i, nd. auto. }
  assert (Ent : entropy_of W X (s_obj W s0) = match q with [] => None | _ => Some (x_neg W X (log_density q)) end).
  { rewrite S0. unfold entropy_of, log_density, py_sum. cbn [ob_log_probs s_obj]. rewrite Q2. destruct q, (o_log_probs W o); cbn in Q1; try discriminate; reflexivity. }
  (* the first estimate *)
  cbn [acts] in A. destruct (act W X a s0) as [s1 r1] eqn:A1. destruct (acts W X h s1) as [s2 rs2] eqn:A2. injection A as <- <- <-.
  pose proof (Forall_inv Q) as Qa. pose proof (Forall_inv_tail Q) as Qh. cbn beta in Qa.
  destruct (first_estimate a s0 s1 r1) as (s' & lj & L & Lb & Lt); [rewrite S0; reflexivity|exact A1|exact E|].
  destruct (act_ok W X a s0 s1 r1 I0 Qa A1) as (Sm1 & F1 & I1 & R1).
  destruct (acts_ok h s1 s2 rs2 I1 Qh A2) as (Sm2 & F2 & _ & R2).
  assert (Fx : fixed W s1 = Some lj).
  { destruct (log_joint_term_ok W X s0 s' (inr lj) L) as (_ & _ & _ & _ & Fx). unfold fixed in *. rewrite Lb, Lt.
    destruct (ob_target W (s_obj W s')) eqn:T'; [exact Fx| |discriminate].
    exfalso. destruct Sm1 as (_ & T1 & _). rewrite S0 in T1. cbn in T1. congruence. }
  (* the model *)
  assert (G : exists bp, observe W m (merged W X s0) (s_draws W s0) = (bp, None) /\ snd (step W bp (LogJoint W)) = OVal W lj).
  { unfold log_joint_term in L. assert (T0 : ob_target W (s_obj W s0) = TModel W m) by now rewrite S0. rewrite T0 in L.
    unfold get_bn in L. assert (B0 : ob_bn W (s_obj W s0) = None) by now rewrite S0. rewrite B0 in L.
    destruct (observe W m (merged W X s0) (s_draws W s0)) as [bp [e|]]; [discriminate|]. exists bp. split; [reflexivity|]. cbn [s_draws] in L.
    rewrite at_own_draws in L. change (step W bp (LogJoint W)) with (log_joint W bp). destruct (log_joint W bp) as [b1 o1]. cbn.
    destruct o1; try discriminate. injection L as _ <-. reflexivity. }
  destruct G as (bp & Ob & Lj). pose proof (exec_run W _ _ _ Ob) as Run. set (d0 := merged W X s0) in *. set (k0 := s_draws W s0) in *.
  pose proof (Sm d0 k0) as Safe. set (tr := trace W (md_code W m) (fresh W m d0 k0)) in *.
  unfold fresh in Run, Safe. rewrite Cm in Run, Safe.
  destruct (C06_log_joint_is_sum W (Some (seen W d0)) (md_observed W m) k0 tr Safe) as (bp' & ids & parts & St & (Nid & Li) & (_ & _) & F).
  rewrite <- Run in St, Li, F. rewrite St in Lj. cbn in Lj. injection Lj as Lj.
  destruct (name_parts bp _ ids parts Nid (fun i Hi => proj1 (Li i) Hi) F) as (p & P1 & P2 & P3 & P4).
  assert (Ldp : log_density p = lj).
  { rewrite <- Lj. unfold log_density. f_equal. rewrite <- P1, map_map. reflexivity. }
  exists p, q, bp, d0, k0. split; [|split; [exact Ob|split]].
  - split; [now rewrite Q1|]. split.
    + intros n. rewrite Q1, El. split.
      * intros H. apply in_map_iff in H. destruct H as ((n' & x) & En & Hx). cbn in En. subst n'. apply In_ in Hx. destruct Hx as (i & _ & Hi). eauto.
      * intros (i & Hi). apply in_map_iff. exists (n, VNode W i). split; [reflexivity|]. apply In_. eauto.
    + intros n d t H. destruct (Q3 n d t H) as (i & nd & B1 & B2 & B3 & B4). exists i, nd, b'. rewrite S0. auto.
  - split; [exact P2|]. split.
    + intros n. split.
      * intros H. apply in_map_iff in H. destruct H as ((n' & x) & En & Hx). cbn in En. subst n'. destruct (P3 n x Hx) as (i & Hi & _). eauto.
      * intros (i & Hi). assert (Ii : In i ids) by (apply Li; eauto). destruct (P4 i Ii) as (n' & x & Bn & Hx).
        assert (n' = n); [|subst; apply in_map_iff; exists (n, x); auto].
        apply bound_iff in Hi, Bn. apply dict_get_in in Hi, Bn. eapply ids_inj; [|exact Bn|exact Hi].
        pose proof (inv_run W k0 tr _ (inv_new W k0 (Some (seen W d0)) (CNone W) (md_observed W m))) as Iv. rewrite <- Run in Iv. exact (proj1 (i_ids W k0 bp Iv)).
    + intros n dist t H. destruct (P3 n (dist, t) H) as (i & Bi & _ & (nd & Nd & Ed) & Rd). cbn [fst snd] in Ed, Rd.
      split; [exists i, nd; auto|].
      assert (An : answered W bp).
      { rewrite Run. apply answered_run; [exact Safe|]. intros n' i' H'. discriminate. }
      destruct (An n i (proj1 (bound_iff W bp n i) Bi)) as (nd' & Nd' & Rdy & Io). rewrite Nd in Nd'. injection Nd' as <-.
      assert (Go : get_observation W bp n = seen W d0 n).
      { unfold get_observation. destruct (run_local W tr (new_bn W (Some (seen W d0)) (CNone W) (md_observed W m) k0)) as [Hl _]. rewrite <- Run in Hl. now rewrite Hl. }
      rewrite Go in Io.
      assert (Val : forall x, seen W d0 n = Some x -> w_convert W dist x = Some t).
      { intros x Hx. rewrite Hx in Io. cbn in Io. rewrite Ed in Io. destruct (w_convert W dist x) as [t0|] eqn:Ct; [|discriminate]. injection Io as Io.
        destruct (step_evolves W bp (LogJoint W)) as [_ Ev]. rewrite St in Ev. cbn [fst] in Ev. destruct (Ev i nd Nd) as (y & Hy & Ey).
        cbn in Rd. unfold read_tensor in Rd. rewrite Hy, (ev_ready W _ _ Ey), Rdy, (ev_obs W _ _ Ey), <- Io in Rd. now injection Rd as <-. }
      pose proof (merged_seen s0 s0 obs (grows_refl W s0)) as Ms. rewrite S0 in Ms at 1. specialize (Ms eq_refl No).
      assert (Ni : NoDup (map fst (ob_inputs W (s_obj W s0)))) by (rewrite S0; cbn; now rewrite <- El).
      destruct (Ms Ni n) as (M1 & M2 & _). split.
      * intros x Hx. apply Val. now apply M1.
      * intros Hn Hq. rewrite Q1 in Hq. apply in_map_iff in Hq. destruct Hq as ((n' & v) & En & Hv). cbn in En. subst n'.
        assert (Hq : In n (map fst q)) by (rewrite Q1; apply in_map_iff; exists (n, v); auto).
        apply in_map_iff in Hq. destruct Hq as ((n' & (dq & t')) & En & Hq). cbn in En. subst n'. exists dq.
        destruct (Q3 n dq t' Hq) as (iq & ndq & B1 & B2 & B3 & B4).
        assert (Hi : In n (map fst (o_inputs W o))) by (rewrite <- El, <- Q1; apply in_map_iff; exists (n, (dq, t')); auto).
        apply in_map_iff in Hi. destruct Hi as ((n' & x) & En & Hx). cbn in En. subst n'.
        pose proof (proj1 (In_ n x) Hx) as (ix & -> & Bx & _). assert (ix = iq) by (unfold bound in *; congruence). subst ix.
        assert (Sn : seen W d0 n = Some (x_obs W X t')).
        { apply (M2 Hn (VNode W iq)); [rewrite S0; exact Hx|]. exists b'. rewrite S0. auto. }
        apply Val in Sn. apply Cv in Sn. now subst t'.
  - intros j a' r' Ha Hr Er. rewrite Ldp, <- Ent.
    assert (Kd : ob_kind W (s_obj W s0) = kd) by now rewrite S0.
    destruct j as [|j]; cbn in Ha, Hr.
    + injection Ha as <-. injection Hr as <-. destruct (R1 Er) as (l & Hl & Vl). rewrite Kd in Vl. assert (l = lj) by congruence. now subst l.
    + destruct (R2 j a' r' Ha Hr Er) as (l & Hl & Vl). pose proof (F2 lj Fx) as Hl2. assert (l = lj) by congruence. subst l.
      rewrite (same_ent W X _ _ Sm1) in Vl. destruct Sm1 as (Ks & _). rewrite Ks, Kd in Vl. exact Vl.
Qed.
End C52.

(** A concrete program. Values are integers; the log density of distribution [d] at [t]
    is d * t; a sample is its number plus the distribution. *)
Definition WZ : world := World nat nat nat Z (fun d _ k => d + k) (fun d t => Z.of_nat (d * t)) (fun _ o => Some o) 0%Z Z.add.
Definition XZ : ops WZ := Ops WZ (fun t => t) Z.opp Z.add (fun v => 2 * v)%Z (fun v => 3 * v)%Z
  (fun lj e b m => lj + 100 * e + match b with Some b => b | None => 0 end)%Z (fun lj e b => lj - b)%Z
  (fun lj e => if Z.ltb lj 0 then None else Some (lj + 7 * e)%Z) (fun lj e => lj * e)%Z bool (fun d _ => d).
Definition q_calls : list (call WZ) := [Stochastic WZ 7 3 None; Deterministic WZ 1 0; Stochastic WZ 8 4 None].
Definition q_net : bn WZ := run WZ (new_bn WZ None (CNone WZ) [] 10) q_calls.
Definition m_ex : model WZ := Model WZ
  (Do WZ (Stochastic WZ 7 2 None) (fun _ => Do WZ (Stochastic WZ 9 5 None) (fun o =>
     match o with OErr _ e => Raise WZ e | _ => Do WZ (Stochastic WZ 8 1 None) (fun _ => Return WZ) end))) (CNone WZ) [].
Definition s_ex (kd : kind) : exn + state WZ := create WZ kd true (TModel WZ m_ex) [(9, Some 6)] None (Some (VNet WZ q_net)) 20.
Definition h_ex : list (access WZ XZ) :=
  [Reinforce WZ XZ true (Some 4%Z) 0 false; Mutate WZ XZ 9 (Some 60); OnVariational WZ XZ (Stochastic WZ 5 5 None);
   OnVariational WZ XZ (ReadTensor WZ 2); ReadObjective WZ XZ; OnBn WZ XZ (ReadTensor WZ 0); Sgvb WZ XZ; Vimco WZ XZ;
   Reinforce WZ XZ true None 0 false; Reinforce WZ XZ true None 0 true; Convert WZ XZ (Some true) false; Convert WZ XZ (Some false) false].
Example C52_case : exists s0 s, s_ex Elbo = inr s0 /\
  (* q's samples are 13 and 15; log q = 3 * 13 + 4 * 15 = 99; log p = 2 * 13 + 5 * 6 + 1 * 15 = 71 *)
  acts WZ XZ h_ex s0 = (s, [RPair WZ (71 + 100 * -99 + 4) (71 - 4); RNone WZ; ROut WZ (ORef WZ (RStoch WZ 2%nat));
    ROut WZ (OTensor WZ 17%nat); RVal WZ (2 * (71 - 99)); ROut WZ (OTensor WZ 13%nat); RVal WZ (- (2 * (71 - 99)));
    RErr WZ (Py AttributeError); RErr WZ (Py ValueError); RVal WZ (71 + 100 * -99 + 0);
    RVal WZ (2 * (71 - 99)); RErr WZ (Py ValueError)])%Z /\
  s_built WZ s = 1 /\ Forall (fun a => ~ adds_node WZ XZ a) h_ex.
Proof.
  eexists. eexists. split; [reflexivity|]. split; [vm_compute; reflexivity|]. split; [vm_compute; reflexivity|].
  repeat constructor; cbn; auto.
Qed.
Example C52_end_to_end_case : safe WZ (new_bn WZ None (CNone WZ) [] 10) q_calls /\ md_custom WZ m_ex = CNone WZ /\
  (forall d k, safe WZ (fresh WZ m_ex d k) (trace WZ (md_code WZ m_ex) (fresh WZ m_ex d k))) /\
  (forall d t t', w_convert WZ d (x_obs WZ XZ t) = Some t' -> t' = t) /\ NoDup (map fst [(9, Some 6)]).
Proof.
  split; [cbn; repeat split; intros i; vm_compute; discriminate|]. split; [reflexivity|]. split; [|split].
  - intros d k. generalize (fresh WZ m_ex d k) as b. intros b. cbn [trace m_ex md_code].
    destruct (step WZ b _) as [b1 o1]. cbn [trace]. destruct (step WZ b1 _) as [b2 o2].
    destruct o2; cbn [trace]; try destruct (step WZ b2 _) as [b3 o3]; cbn [safe ok_call]; auto.
  - cbn. congruence.
  - repeat constructor; cbn; tauto.
Qed.

(** A log joint function that fails the first time. *)
Definition f_ex (d : dict_obs WZ) (n : nat) : exn + Z := match n with 0 => inl ValueError | _ => inr (Z.of_nat (length d)) end.
Example C52_retry_case : exists s0 s, create WZ Elbo false (TFun WZ f_ex) [(9, Some 6)] (Some [(7, (1, 5%Z))]) None 20 = inr s0 /\
  acts WZ XZ [ReadObjective WZ XZ; ReadObjective WZ XZ; ReadBn WZ XZ; ReadObjective WZ XZ] s0 =
    (s, [RErr WZ (Py ValueError); RVal WZ (2 * (2 - 5))%Z; RNone WZ; RVal WZ (2 * (2 - 5))%Z]) /\ s_calls WZ s = 2 /\ s_done WZ s = 1.
Proof. eexists. eexists. split; [reflexivity|]. vm_compute. auto. Qed.

(** C52_consistent needs its restriction: once the program adds a stochastic node to
    obj.bn, obj.tensor is still the old value while the estimators use the new joint. *)
Theorem C52_extended_bn_refuted : exists s0 s r1 r2,
  s_ex Elbo = inr s0 /\
  acts WZ XZ [ReadObjective WZ XZ; OnBn WZ XZ (Stochastic WZ 4 6 None); ReadObjective WZ XZ; Reinforce WZ XZ false None 0 false] s0 =
    (s, [RVal WZ r1; ROut WZ (ORef WZ (RStoch WZ 3)); RVal WZ r1; RVal WZ r2]) /\
  (forall lj, estimate WZ XZ Elbo (ReadObjective WZ XZ) lj (entropy_of WZ XZ (s_obj WZ s0)) = Some (RVal WZ r1) ->
     estimate WZ XZ Elbo (Reinforce WZ XZ false None 0 false) lj (entropy_of WZ XZ (s_obj WZ s0)) <> Some (RVal WZ r2)).
Proof.
  eexists. eexists. eexists. eexists. split; [reflexivity|]. split; [vm_compute; reflexivity|].
  intros lj. vm_compute entropy_of. unfold estimate, value, signal, option_map. cbn [x_mean x_add x_reinforce XZ].
  intros H H'. injection H as H. injection H' as H'. change (@eq Z (2 * (lj + -99))%Z (-56)%Z) in H. change (@eq Z (lj + 100 * -99 + 0)%Z (-9721)%Z) in H'. lia.
Qed.

Print Assumptions C52_create.
Print Assumptions C52_consistent.
Print Assumptions C52_once.
Print Assumptions C52_bn_values.
Print Assumptions C52_own_copy.
Print Assumptions C52_available.
Print Assumptions C52_klpq_no_value.
Print Assumptions C52_reinforce_again.
Print Assumptions C52_retry.
Print Assumptions C52_retry_function.
Print Assumptions C52_observations.
Print Assumptions C52_end_to_end.
Print Assumptions C52_extended_bn_refuted.
