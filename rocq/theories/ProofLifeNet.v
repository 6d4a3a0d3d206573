(** The networks of a variational objective only grow, and are built once. *)
From Coq Require Import List Arith Bool Lia.
From Verif Require Import ModelBN ModelDict ModelObjective ModelLife SpecBN SpecLife ProofBN ProofLife.
Import ListNotations.

Section Net.
Context (W : world) (X : ops W).

Definition counted (s : state W) : Prop :=
  s_built W s = (if ob_bn W (s_obj W s) then 1 else 0) /\ s_done W s = (if ob_log_joint W (s_obj W s) then 1 else 0).
Record grows (s s' : state W) : Prop := {
  gr_same : same W s s';
  gr_vnet : match s_vnet W s with Some b => exists b', s_vnet W s' = Some b' /\ evolves W b b' | None => s_vnet W s' = None end;
  gr_bn : forall b, ob_bn W (s_obj W s) = Some b -> exists b', ob_bn W (s_obj W s') = Some b' /\ evolves W b b';
  gr_count : counted s -> counted s';
  gr_means : incl (s_means W s) (s_means W s') }.

Lemma grows_refl s : grows s s.
Proof.
  split; auto using same_refl, incl_refl.
  - destruct (s_vnet W s) as [b|]; [|reflexivity]. exists b. split; [reflexivity|apply evolves_refl].
  - intros b H. exists b. split; [exact H|apply evolves_refl].
Qed.
Lemma grows_trans a b c : grows a b -> grows b c -> grows a c.
Proof.
  intros [A1 A2 A3 A4 A5] [B1 B2 B3 B4 B5]. split.
  - eapply same_trans; eauto.
  - destruct (s_vnet W a) as [x|].
    + destruct A2 as (y & Hy & E). rewrite Hy in B2. destruct B2 as (z & Hz & F). exists z. split; [exact Hz|eapply evolves_trans; eauto].
    + now rewrite A2 in B2.
  - intros x Hx. destruct (A3 x Hx) as (y & Hy & E). destruct (B3 y Hy) as (z & Hz & F). exists z. split; [exact Hz|eapply evolves_trans; eauto].
  - auto.
  - eapply incl_tran; eauto.
Qed.
Lemma at_draws_evolves b k : evolves W b (at_draws W b k).
Proof. now apply evolves_objs. Qed.

Lemma vnet_same (s s' : state W) : s_vnet W s' = s_vnet W s ->
  match s_vnet W s with Some b => exists b', s_vnet W s' = Some b' /\ evolves W b b' | None => s_vnet W s' = None end.
Proof. intros ->. destruct (s_vnet W s) as [b|]; [|reflexivity]. exists b. split; [reflexivity|apply evolves_refl]. Qed.

Lemma get_bn_grows m s s1 r : get_bn W X m s = (s1, r) -> grows s s1.
Proof.
  unfold get_bn. destruct (ob_bn W (s_obj W s)) as [b|] eqn:B; [intros [= <- <-]; apply grows_refl|].
  destruct (observe W m (merged W X s) (s_draws W s)) as [b [e|]]; intros [= <- <-].
  - split; cbn; auto using incl_refl; [repeat split|now apply vnet_same|]. intros x H. congruence.
  - split; cbn; auto using incl_refl; [repeat split|now apply vnet_same| |].
    + intros x H. congruence.
    + unfold counted. cbn. rewrite B. intros [-> ->]. auto.
Qed.
Lemma log_joint_evolves b : evolves W b (fst (log_joint W b)).
Proof. exact (step_evolves W b (LogJoint W)). Qed.
Lemma set_bn_grows s b b' k : ob_bn W (s_obj W s) = Some b -> evolves W b b' ->
  grows s (State W (with_bn W (s_obj W s) b') (s_vnet W s) (s_caller W s) k (s_built W s) (s_done W s) (s_calls W s) (s_means W s)).
Proof.
  intros B E. split; cbn; auto using incl_refl; [repeat split|now apply vnet_same| |].
  - intros x Hx. rewrite B in Hx. injection Hx as <-. exists b'. auto.
  - unfold counted. cbn. rewrite B. auto.
Qed.
Lemma log_joint_term_grows s s1 r : log_joint_term W X s = (s1, r) -> grows s s1.
Proof.
  unfold log_joint_term. destruct (ob_target W (s_obj W s)) as [m|f|] eqn:T.
  - destruct (get_bn W X m s) as [s0 r0] eqn:G. pose proof (get_bn_grows _ _ _ _ G) as R.
    destruct r0 as [e|b]; [intros [= <- <-]; exact R|].
    destruct (get_bn_ok W X m s s0 (inr b) T G) as (_ & _ & _ & _ & _ & B).
    pose proof (log_joint_evolves (at_draws W b (s_draws W s0))) as E.
    destruct (log_joint W (at_draws W b (s_draws W s0))) as [b' o]. cbn in E.
    assert (Q : grows s (State W (with_bn W (s_obj W s0) b') (s_vnet W s0) (s_caller W s0) (b_draws W b') (s_built W s0) (s_done W s0) (s_calls W s0) (s_means W s0))).
    { eapply grows_trans; [exact R|]. eapply set_bn_grows; [exact B|]. eapply evolves_trans; [apply at_draws_evolves|exact E]. }
    destruct o; intros [= <- <-]; exact Q.
  - destruct (ob_log_joint W (s_obj W s)) as [v|] eqn:J; [intros [= <- <-]; apply grows_refl|].
    destruct (f (merged W X s) (s_calls W s)); intros [= <- <-].
    + split; cbn; auto using incl_refl; [repeat split|now apply vnet_same|]. intros b H. exists b. split; [exact H|apply evolves_refl].
    + split; cbn; auto using incl_refl; [repeat split|now apply vnet_same| |].
      * intros b H. exists b. split; [exact H|apply evolves_refl].
      * unfold counted. cbn. rewrite J. intros [-> ->]. auto.
  - intros [= <- <-]. apply grows_refl.
Qed.
Lemma entropy_term_grows s s1 r : entropy_term W X s = (s1, r) -> grows s s1.
Proof.
  unfold entropy_term. destruct (ob_entropy W (s_obj W s)) as [v|]; intros [= <- <-]; [apply grows_refl|].
  split; cbn; auto using incl_refl; [repeat split|now apply vnet_same|]. intros b H. exists b. split; [exact H|apply evolves_refl].
Qed.
Lemma both_grows s s1 r : both W X s = (s1, r) -> grows s s1.
Proof.
  unfold both. destruct (log_joint_term W X s) as [s0 [e|lj]] eqn:L; pose proof (log_joint_term_grows _ _ _ L) as G;
    [intros [= <- <-]; exact G|].
  destruct (entropy_term W X s0) as [s2 ent] eqn:E. pose proof (entropy_term_grows _ _ _ E) as G2. intros [= <- <-].
  eapply grows_trans; eauto.
Qed.
Lemma objective_grows s s1 r : objective_ W X s = (s1, r) -> grows s s1.
Proof.
  unfold objective_. destruct (ob_kind W (s_obj W s)).
  - destruct (both W X s) as [s0 [e|[lj [e|]]]] eqn:B; intros [= <- <-]; exact (both_grows _ _ _ B).
  - destruct (both W X s) as [s0 [e|[lj [e|]]]] eqn:B; intros [= <- <-]; exact (both_grows _ _ _ B).
  - intros [= <- <-]. apply grows_refl.
Qed.
Lemma tensor_grows s s1 r : tensor_ W X s = (s1, r) -> grows s s1.
Proof.
  unfold tensor_. destruct (ob_tensor W (s_obj W s)); [intros [= <- <-]; apply grows_refl|].
  destruct (objective_ W X s) as [s0 [e|v]] eqn:O; pose proof (objective_grows _ _ _ O) as G; intros [= <- <-]; [exact G|].
  eapply grows_trans; [exact G|]. split; cbn; auto using incl_refl; [repeat split|now apply vnet_same|].
  intros b H. exists b. split; [exact H|apply evolves_refl].
Qed.
Lemma act_grows a s s1 r : act W X a s = (s1, r) -> grows s s1.
Proof.
  destruct a as [| |dtype as_ref| |vr bl scope reuse| | |c|c|n o]; cbn [act].
  - destruct (ob_target W (s_obj W s)) as [m|f|]; [|intros [= <- <-]; apply grows_refl..].
    destruct (get_bn W X m s) as [s0 [e|b]] eqn:G; intros [= <- <-]; exact (get_bn_grows _ _ _ _ G).
  - destruct (tensor_ W X s) as [s0 r0] eqn:T. intros [= <- <-]. exact (tensor_grows _ _ _ T).
  - destruct (tensor_ W X s) as [s0 [e|v]] eqn:T; pose proof (tensor_grows _ _ _ T) as G; [intros [= <- <-]; exact G|].
    destruct (match dtype with Some d => _ | None => _ end); [intros [= <- <-]; exact G|]. destruct as_ref; intros [= <- <-]; exact G.
  - destruct (ob_kind W (s_obj W s)); [| |intros [= <- <-]; apply grows_refl];
      (destruct (tensor_ W X s) as [s0 [e|v]] eqn:T; intros [= <- <-]; exact (tensor_grows _ _ _ T)).
  - destruct (ob_kind W (s_obj W s)); [|intros [= <- <-]; apply grows_refl..].
    destruct (both W X s) as [s0 [e|[lj [e|]]]] eqn:B; pose proof (both_grows _ _ _ B) as G;
      [intros [= <- <-]; exact G| |intros [= <- <-]; exact G].
    destruct vr; [|intros [= <- <-]; exact G].
    destruct (get_mean scope reuse (s_means W s0)) as [means|] eqn:M; [|intros [= <- <-]; exact G].
    assert (Q : grows s (State W (s_obj W s0) (s_vnet W s0) (s_caller W s0) (s_draws W s0) (s_built W s0) (s_done W s0) (s_calls W s0) means)).
    { eapply grows_trans; [exact G|]. split; cbn; auto; [repeat split|now apply vnet_same| |].
      - intros b H. exists b. split; [exact H|apply evolves_refl].
      - unfold get_mean in M. destruct (existsb _ _), reuse; try discriminate; injection M as <-; [apply incl_refl|apply incl_tl, incl_refl]. }
    destruct bl; intros [= <- <-]; exact Q.
  - destruct (ob_kind W (s_obj W s)); [intros [= <- <-]; apply grows_refl| |intros [= <- <-]; apply grows_refl].
    destruct (both W X s) as [s0 [e|[lj [e|]]]] eqn:B; pose proof (both_grows _ _ _ B) as G;
      [intros [= <- <-]; exact G| |intros [= <- <-]; exact G].
    destruct (x_vimco W X lj e); intros [= <- <-]; exact G.
  - destruct (ob_kind W (s_obj W s)); [intros [= <- <-]; apply grows_refl..|].
    destruct (both W X s) as [s0 [e|[lj [e|]]]] eqn:B; pose proof (both_grows _ _ _ B) as G; intros [= <- <-]; exact G.
  - destruct (ob_target W (s_obj W s)) as [m|f|] eqn:T; [|intros [= <- <-]; apply grows_refl..].
    destruct (get_bn W X m s) as [s0 [e|b]] eqn:G; pose proof (get_bn_grows _ _ _ _ G) as R; [intros [= <- <-]; exact R|].
    destruct (get_bn_ok W X m s s0 (inr b) T G) as (_ & _ & _ & _ & _ & B).
    pose proof (step_evolves W (at_draws W b (s_draws W s0)) c) as E. fold (step_at W b (s_draws W s0) c) in E.
    destruct (step_at W b (s_draws W s0) c) as [b' o]. cbn in E. intros [= <- <-].
    eapply grows_trans; [exact R|]. eapply set_bn_grows; [exact B|]. eapply evolves_trans; [apply at_draws_evolves|exact E].
  - destruct (s_vnet W s) as [b|] eqn:V; [|intros [= <- <-]; apply grows_refl].
    pose proof (step_evolves W (at_draws W b (s_draws W s)) c) as E. fold (step_at W b (s_draws W s) c) in E.
    destruct (step_at W b (s_draws W s) c) as [b' o]. cbn in E. intros [= <- <-].
    split; cbn; auto using incl_refl; [repeat split| |].
    + rewrite V. exists b'. split; [reflexivity|]. eapply evolves_trans; [apply at_draws_evolves|exact E].
    + intros x H. exists x. split; [exact H|apply evolves_refl].
  - intros [= <- <-]. split; cbn; auto using incl_refl; [repeat split|now apply vnet_same|].
    intros b H. exists b. split; [exact H|apply evolves_refl].
Qed.
Lemma acts_grows h : forall s s1 rs, acts W X h s = (s1, rs) -> grows s s1.
Proof.
  induction h as [|a h IH]; intros s s1 rs; cbn; [intros [= <- <-]; apply grows_refl|].
  destruct (act W X a s) as [s0 r] eqn:A. destruct (acts W X h s0) as [s2 rs2] eqn:B. intros [= <- <-].
  eapply grows_trans; [exact (act_grows _ _ _ _ A)|exact (IH _ _ _ B)].
Qed.

(** Reading a node whose value is held. *)
Lemma read_evolved b b' i t k : evolves W b b' -> step W b (ReadTensor W i) = (b, OTensor W t) ->
  read_tensor W (at_draws W b' k) i = (at_draws W b' k, inr t).
Proof.
  intros E R. destruct (read_result W b i t) as (nd & N & V); [now rewrite R|]. rewrite R in N. cbn in N.
  destruct (proj2 E _ _ N) as (y & Y & Ev). pose proof (evolves_value W _ _ _ Ev V) as Vy.
  assert (Hh : step W (at_draws W b' k) (ReadTensor W i) = (at_draws W b' k, OTensor W t)) by (eapply read_held; [exact Y|exact Vy]).
  rewrite step_ReadTensor in Hh. destruct (read_tensor W (at_draws W b' k) i) as [c [e|x]]; cbn in Hh; congruence.
Qed.

(** The caller's dictionary is not read. *)
Definition put (d : dict_obs W) (s : state W) : state W :=
  State W (s_obj W s) (s_vnet W s) d (s_draws W s) (s_built W s) (s_done W s) (s_calls W s) (s_means W s).
Lemma get_bn_put m d s : get_bn W X m (put d s) = (put d (fst (get_bn W X m s)), snd (get_bn W X m s)).
Proof.
  unfold get_bn. change (s_obj W (put d s)) with (s_obj W s). change (s_draws W (put d s)) with (s_draws W s). destruct (ob_bn W (s_obj W s)); [reflexivity|].
  change (merged W X (put d s)) with (merged W X s). destruct (observe W m (merged W X s) (s_draws W s)) as [b [e|]]; reflexivity.
Qed.
Lemma log_joint_term_put d s : log_joint_term W X (put d s) = (put d (fst (log_joint_term W X s)), snd (log_joint_term W X s)).
Proof.
  unfold log_joint_term. change (s_obj W (put d s)) with (s_obj W s). destruct (ob_target W (s_obj W s)) as [m|f|]; [|..].
  - rewrite get_bn_put. destruct (get_bn W X m s) as [s0 [e|b]]; [reflexivity|]. cbn [fst snd put s_draws].
    destruct (log_joint W (at_draws W b (s_draws W s0))) as [b' o]. destruct o; reflexivity.
  - destruct (ob_log_joint W (s_obj W s)); [reflexivity|]. change (merged W X (put d s)) with (merged W X s). change (s_calls W (put d s)) with (s_calls W s). destruct (f (merged W X s) (s_calls W s)); reflexivity.
  - reflexivity.
Qed.
Lemma entropy_term_put d s : entropy_term W X (put d s) = (put d (fst (entropy_term W X s)), snd (entropy_term W X s)).
Proof. unfold entropy_term. change (s_obj W (put d s)) with (s_obj W s). destruct (ob_entropy W (s_obj W s)); reflexivity. Qed.
Lemma both_put d s : both W X (put d s) = (put d (fst (both W X s)), snd (both W X s)).
Proof.
  unfold both. rewrite log_joint_term_put. destruct (log_joint_term W X s) as [s0 [e|lj]]; [reflexivity|]. cbn [fst snd].
  rewrite entropy_term_put. destruct (entropy_term W X s0); reflexivity.
Qed.
Lemma objective_put d s : objective_ W X (put d s) = (put d (fst (objective_ W X s)), snd (objective_ W X s)).
Proof.
  unfold objective_. change (s_obj W (put d s)) with (s_obj W s).
  destruct (ob_kind W (s_obj W s)); [rewrite both_put; destruct (both W X s) as [s0 [e|[lj [e|]]]]; reflexivity..|reflexivity].
Qed.
Lemma tensor_put d s : tensor_ W X (put d s) = (put d (fst (tensor_ W X s)), snd (tensor_ W X s)).
Proof.
  unfold tensor_. change (s_obj W (put d s)) with (s_obj W s).
  destruct (ob_tensor W (s_obj W s)); [reflexivity|]. rewrite objective_put. destruct (objective_ W X s) as [s0 [e|v]]; reflexivity.
Qed.
Lemma act_put a d s : mutates W X a = false -> act W X a (put d s) = (put d (fst (act W X a s)), snd (act W X a s)).
Proof.
  destruct a as [| |dtype as_ref| |vr bl scope reuse| | |c|c|n o]; cbn [act mutates]; intros M; try discriminate; change (s_obj W (put d s)) with (s_obj W s); change (s_vnet W (put d s)) with (s_vnet W s).
  - destruct (ob_target W (s_obj W s)) as [m|f|]; [|reflexivity..]. rewrite get_bn_put. destruct (get_bn W X m s) as [s0 [e|b]]; reflexivity.
  - rewrite tensor_put. destruct (tensor_ W X s) as [s0 [e|v]]; reflexivity.
  - rewrite tensor_put. destruct (tensor_ W X s) as [s0 [e|v]]; [reflexivity|]. cbn.
    destruct (match dtype with Some d0 => _ | None => _ end); [reflexivity|]. destruct as_ref; reflexivity.
  - destruct (ob_kind W (s_obj W s)); [rewrite tensor_put; destruct (tensor_ W X s) as [s0 [e|v]]; reflexivity..|reflexivity].
  - destruct (ob_kind W (s_obj W s)); [|reflexivity..]. rewrite both_put. destruct (both W X s) as [s0 [e|[lj [e|]]]]; [reflexivity| |reflexivity].
    cbn. destruct vr; [|reflexivity]. destruct (get_mean scope reuse (s_means W s0)); [|reflexivity]. destruct bl; reflexivity.
  - destruct (ob_kind W (s_obj W s)); [reflexivity| |reflexivity]. rewrite both_put. destruct (both W X s) as [s0 [e|[lj [e|]]]]; [reflexivity| |reflexivity].
    cbn. destruct (x_vimco W X lj e); reflexivity.
  - destruct (ob_kind W (s_obj W s)); [reflexivity..|]. rewrite both_put. destruct (both W X s) as [s0 [e|[lj [e|]]]]; reflexivity.
  - destruct (ob_target W (s_obj W s)) as [m|f|]; [|reflexivity..]. rewrite get_bn_put. destruct (get_bn W X m s) as [s0 [e|b]]; [reflexivity|].
    cbn [fst snd put s_draws]. destruct (step_at W b (s_draws W s0) c); reflexivity.
  - destruct (s_vnet W s) as [b|]; [|reflexivity]. cbn [put s_draws]. destruct (step_at W b (s_draws W s) c); reflexivity.
Qed.

(** A model function is the sequence of the calls it makes. *)
Lemma exec_run p : forall b b' , exec W p b = (b', None) -> b' = run W b (trace W p b).
Proof.
  induction p as [|e|c k IH]; intros b b'; cbn; [now intros [= <-]|discriminate|].
  destruct (step W b c) as [b1 o] eqn:S. intros H. apply IH in H. rewrite H. cbn. now rewrite S.
Qed.

(** Every stochastic node of a network built by ordinary calls holds the observation its
    name calls for. *)
Definition answered (b : bn W) : Prop := forall n i, dict_get (b_nodes W b) n = Some (RStoch W i) ->
  exists nd, nth_error (b_objs W b) i = Some nd /\ sn_ready W nd = true /\
    init_observation W b n (sn_dist W nd) (get_observation W b n) = inr (sn_obs W nd).
Lemma frame_local b c : b_local W (fst (step W b c)) = b_local W b /\ b_observed W (fst (step W b c)) = b_observed W b.
Proof.
  set (P := fun b' : bn W => b_local W b' = b_local W b /\ b_observed W b' = b_observed W b).
  assert (Prt : forall b' i, P b' -> P (fst (read_tensor W b' i))).
  { intros b' i [H1 H2]. destruct (read_tensor_reads W b' i) as (_ & (A & _ & B & _) & _). split; congruence. }
  assert (Pcl : forall b' i, P b' -> P (fst (cond_log_p W b' i))).
  { intros b' i [H1 H2]. destruct (cond_log_p_reads W b' i) as (_ & (A & _ & B & _) & _). split; congruence. }
  change (P (fst (step W b c))). assert (P0 : P b) by (split; reflexivity).
  destruct c; try exact P0.
  - cbn. unfold stochastic. destruct (dict_get _ _); [exact P0|]. destruct (init_observation _ _ _ _ _); exact P0.
  - cbn. unfold legacy. destruct (init_observation _ _ _ _ _); exact P0.
  - rewrite step_ReadTensor. now apply Prt.
  - rewrite step_CondLogP. now apply Pcl.
  - now apply (get_pres W P).
  - now apply (cond_log_prob_pres W P Pcl).
  - now apply (outputs_pres W P Prt).
  - apply (log_joint_pres W P Pcl); [intros b' v H; exact H|exact P0].
Qed.
Lemma init_local b b' n d o : b_observed W b' = b_observed W b -> init_observation W b' n d o = init_observation W b n d o.
Proof. intros H. unfold init_observation. now rewrite H. Qed.
Lemma answered_step b c : ok_call W b c -> answered b -> answered (fst (step W b c)).
Proof.
  intros O A n i. destruct (frame_local b c) as [L1 L2].
  assert (Old : dict_get (b_nodes W b) n = Some (RStoch W i) -> exists nd, nth_error (b_objs W (fst (step W b c))) i = Some nd /\ sn_ready W nd = true /\
     init_observation W (fst (step W b c)) n (sn_dist W nd) (get_observation W (fst (step W b c)) n) = inr (sn_obs W nd)).
  { intros H. destruct (A n i H) as (nd & N & R & I). destruct (step_evolves W b c) as [_ E]. destruct (E i nd N) as (y & Y & Ev).
    exists y. split; [exact Y|]. split; [rewrite (ev_ready W _ _ Ev); exact R|]. rewrite (init_local b) by exact L2.
    unfold get_observation in *. rewrite L1, (ev_dist W _ _ Ev), (ev_obs W _ _ Ev). exact I. }
  pose proof (frame_step W b c) as Fr.
  destruct c; try (rewrite (proj1 (Fr Logic.I)); exact Old); clear Fr; cbn in O; try contradiction.
  - cbn [step] in *. unfold stochastic in *. destruct (dict_get (b_nodes W b) n0) eqn:D; [exact Old|].
    destruct (init_observation W (set_cache W b None) n0 d (get_observation W (set_cache W b None) n0)) as [e|ob] eqn:I; [exact Old|].
    cbn [fst set_nodes set_objs set_cache b_nodes b_objs] in *.
    destruct (Nat.eq_dec n n0) as [->|Ne].
    + rewrite dict_get_set_eq. intros [= <-]. eexists. split; [rewrite nth_error_app2, Nat.sub_diag by lia; reflexivity|].
      split; [reflexivity|]. cbn [sn_dist sn_obs]. exact I.
    + rewrite dict_get_set_neq by exact Ne. exact Old.
  - cbn [step] in *. unfold deterministic in *. cbn [fst set_nodes b_nodes b_objs] in *.
    destruct (Nat.eq_dec n n0) as [->|Ne]; [rewrite dict_get_set_eq; discriminate|].
    rewrite dict_get_set_neq by exact Ne. exact Old.
Qed.
Lemma answered_run h : forall b, safe W b h -> answered b -> answered (run W b h).
Proof.
  induction h as [|c h IH]; intros b S A; [exact A|]. destruct S as [O S]. cbn. apply IH; [exact S|]. now apply answered_step.
Qed.
Lemma run_local h : forall b, b_local W (run W b h) = b_local W b /\ b_observed W (run W b h) = b_observed W b.
Proof.
  induction h as [|c h IH]; intros b; [auto|]. change (run W b (c :: h)) with (run W (fst (step W b c)) h). destruct (IH (fst (step W b c))) as [-> ->]. apply frame_local.
Qed.
End Net.
