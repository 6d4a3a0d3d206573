(** C56 and C57: one HMC iteration under every order of execution, and stopped anywhere. *)
From Coq Require Import List Arith Lia Bool Reals Lra ZArith FunctionalExtensionality.
From Verif Require Import ModelShape SpecShape ModelExt ModelHMC ModelExec ModelHMCExec SpecExec ProofExec SpecHMC ProofHMC ProofHMCExec PropMetropolis.
Import ListNotations.
Local Open Scope R_scope.

Section HMC.
Variable c : config.
Variable chain : shape.
Variables (initial_stepsize gamma t0 kappa delta decay : R) (mass_collect_iters : Z).
Variable momentum : nat -> (index -> ext) -> index -> R.
Variable find_step : (nat -> index -> ext) -> state -> state -> R -> R.
Variable trajectory : (nat -> index -> ext) -> R -> state -> state -> state * state.
Variable energy0 : (nat -> index -> ext) -> state -> state -> index -> ext.
Variable rates : (nat -> index -> ext) -> (index -> ext) -> state * state -> index -> ext.
Variable mean_rate : (index -> ext) -> R.
Variable u01 : index -> R.
(** HMC(...) and sample accept the arguments: there is a latent variable, and adapt_mass
    comes with adapt_step_size. *)
Hypothesis some_latent : (0 < latents c)%nat.
Hypothesis accepted : given_mass c = true -> given_step c = true.
Notation order l := (schedule (hmc_graph c) Done l).
Notation after l s := (hmc_run c chain initial_stepsize gamma t0 kappa delta decay mass_collect_iters momentum find_step trajectory energy0 rates mean_rate u01 l s).
Notation in_sequence m e := (seq_result (latents c) (given_step c) (given_mass c) (step_on c) (mass_on c) chain initial_stepsize gamma t0 kappa delta decay mass_collect_iters
  momentum find_step trajectory energy0 rates mean_rate u01 m e).
Notation rate_in_sequence m e := (seq_rate (latents c) (given_step c) (given_mass c) (step_on c) (mass_on c) chain initial_stepsize gamma t0 kappa delta decay mass_collect_iters
  momentum find_step trajectory energy0 rates m e).
Notation q_in_sequence m e := (seq_q (latents c) (given_step c) (given_mass c) (step_on c) (mass_on c) chain initial_stepsize gamma t0 kappa delta decay mass_collect_iters
  momentum find_step trajectory energy0 rates u01 m e).

Lemma accepts : hmc_accepts (given_step c) (given_mass c) = true.
Proof. unfold hmc_accepts. destruct (given_mass c), (given_step c); auto. Qed.

(** Unless step size adaptation is given but switched off, every order of execution ends
    with the contents that the program order gives, and reports its rate and samples. *)
Theorem C56_iteration l s : order l -> given_step c = false \/ step_on c = true ->
  let m := mem s in let e := num (m VEps) in
  in_sequence m e (mem (after l s)) /\
  out (after l s) Rate = Ext (rate_in_sequence m e) /\
  forall k, (k < latents c)%nat -> out (after l s) (NewQ k) = Arr (q_in_sequence m e k).
Proof.
  intros O F m e. assert (E : num (seen (after l s) Used VEps) = e).
  { destruct (taken_step_size c some_latent accepts chain initial_stepsize gamma t0 kappa delta decay mass_collect_iters momentum find_step trajectory energy0 rates mean_rate u01 l s O) as [E|(G & On & _)]; [exact E|].
    destruct F; congruence. }
  rewrite <- E. split; [now apply result; try apply accepts|]. split; [now apply out_rate; try apply accepts|]. intros k H. apply out_newq; auto using accepts.
Qed.
(** With adaptation given and switched off, the iteration is that of the program order
    with the content of step_size taken before or after its assignment. *)
Theorem C56_frozen l s : order l -> given_step c = true -> step_on c = false ->
  let m := mem s in
  exists e, (e = num (m VEps) \/ e = exp (num (m VLbar))) /\
  in_sequence m e (mem (after l s)) /\
  out (after l s) Rate = Ext (rate_in_sequence m e) /\
  forall k, (k < latents c)%nat -> out (after l s) (NewQ k) = Arr (q_in_sequence m e k).
Proof.
  intros O G On m. exists (num (seen (after l s) Used VEps)). split.
  { destruct (taken_step_size c some_latent accepts chain initial_stepsize gamma t0 kappa delta decay mass_collect_iters momentum find_step trajectory energy0 rates mean_rate u01 l s O) as [E|(_ & _ & E)]; auto. }
  split; [now apply result; try apply accepts|]. split; [now apply out_rate; try apply accepts|]. intros k H. apply out_newq; auto using accepts.
Qed.
(** The two coincide from the second such iteration on. *)
Theorem C56_settled l s : order l -> given_step c = true -> step_on c = false ->
  num (mem (after l s) VEps) = exp (num (mem (after l s) VLbar)) /\
  (num (mem s VEps) = exp (num (mem s VLbar)) -> in_sequence (mem s) (num (mem s VEps)) (mem (after l s))).
Proof.
  intros O G On. destruct (C56_frozen l s O G On) as (e & He & R & _). split.
  - destruct R as (_ & _ & R1 & _ & _ & R2 & _). rewrite R1, R2. unfold seq_state, seq_adapt, hmc_iter, adapt_iter. rewrite G, On. reflexivity.
  - intros E. rewrite <- E in He. destruct He as [He|He]; rewrite <- He; exact R.
Qed.
(** There is such an order. *)
Theorem C56_exists : exists l, order l.
Proof. eexists. apply (program_schedule c some_latent accepts). Qed.

(** C57: a run that is stopped at any point. *)
Theorem C57_stopped l l1 l2 s x : order l -> l = l1 ++ l2 ->
  mem (after l1 s) x = mem s x \/ mem (after l1 s) x = mem (after l s) x.
Proof.
  intros O E. destruct (stopped var_eq node_eq (hmc_graph c) (hmc_kernel c chain initial_stepsize gamma t0 kappa delta decay mass_collect_iters momentum find_step trajectory energy0 rates mean_rate u01)
    (one_writer c) Done l l1 l2 s O E x) as [(H & _)|(w & _ & _ & H)]; [now left|now right].
Qed.
(** The samples are not touched before the acceptance rates are computed, nor is the step
    size or the state of its tuner but for the iteration counter if adaptation is on. *)
Theorem C57_before_decision l l1 l2 s : order l -> l = l1 ++ l2 -> ~ In (Run Rate) l1 ->
  (forall k, mem (after l1 s) (VQ k) = mem s (VQ k)) /\
  (given_step c = false \/ step_on c = true ->
   mem (after l1 s) VEps = mem s VEps /\ mem (after l1 s) VHbar = mem s VHbar /\ mem (after l1 s) VLbar = mem s VLbar).
Proof.
  intros O E N.
  assert (K : forall w x, hmc_writes w = Some x -> needed (hmc_graph c) w Rate -> mem (after l1 s) x = mem s x).
  { intros w x W D. destruct (stopped var_eq node_eq (hmc_graph c) (hmc_kernel c chain initial_stepsize gamma t0 kappa delta decay mass_collect_iters momentum find_step trajectory energy0 rates mean_rate u01)
      (one_writer c) Done l l1 l2 s O E x) as [(H & _)|(w' & W' & I & _)]; [exact H|]. exfalso. apply N.
    rewrite (one_writer c w' w x W' W) in I. apply in_split in I as (a & b & ->). rewrite <- app_assoc in E.
    apply in_or_app. left. apply (ancestor_first node_eq (hmc_graph c) Done l O w Rate) with (b := b ++ l2); [|exact D| |exact E].
    - apply O. rewrite E. apply in_or_app. right. now left.
    - intros <-. discriminate W. }
  split.
  - intros k. apply (K (SetQ k)); [reflexivity|]. apply setq_rate.
  - intros [G|On].
    + assert (U : forall x, x = VEps \/ x = VHbar \/ x = VLbar -> mem (after l1 s) x = mem s x).
      { intros x Hx. destruct (stopped var_eq node_eq (hmc_graph c) (hmc_kernel c chain initial_stepsize gamma t0 kappa delta decay mass_collect_iters momentum find_step trajectory energy0 rates mean_rate u01)
          (one_writer c) Done l l1 l2 s O E x) as [(H & _)|(w & W & I & _)]; [exact H|]. exfalso.
        assert (Hw : needed (hmc_graph c) Done w) by (apply O; rewrite E; apply in_or_app; now left).
        apply (needed_in_run c accepts) in Hw. destruct Hx as [->|[->| ->]]; destruct w; cbn in W, Hw; try discriminate; try congruence; destruct Hw; congruence. }
      split; [apply U; tauto|]. split; apply U; tauto.
    + split; [|split].
      * apply (K SetEps); [reflexivity|]. now apply seteps_rate.
      * apply (K NewH); [reflexivity|]. apply newh_rate.
      * apply (K NewL); [reflexivity|]. apply (needed_trans c _ LogEps); [apply newl_logeps|]. apply (needed_trans c _ NewH); [apply logeps_newh|apply newh_rate].
Qed.
End HMC.
Print Assumptions C56_iteration.
Print Assumptions C56_frozen.
Print Assumptions C56_settled.
Print Assumptions C56_exists.
Print Assumptions C57_stopped.
Print Assumptions C57_before_decision.

(** ** The transition of ModelHMC *)
Section Transition.
Variable c : config.
Variables (chain : shape) (data : list shape) (log_post : state -> index -> ext) (grad : state -> state) (n_leapfrogs : Z) (noise : state).
Variables (initial_stepsize gamma t0 kappa delta decay : R) (mass_collect_iters : Z).
Variable find_step : (nat -> index -> ext) -> state -> state -> R -> R.
Variable mean_rate : (index -> ext) -> R.
Variable u01 : index -> R.
Hypothesis some_latent : (0 < latents c)%nat.
Hypothesis accepted : given_mass c = true -> given_step c = true.
Hypothesis data_latents : length data = latents c.
Hypothesis noise_latents : forall x, (latents c <= fst x)%nat -> noise x = 0.
Notation after l s := (hmc_run c chain initial_stepsize gamma t0 kappa delta decay mass_collect_iters (draw_momentum chain noise) find_step
  (run_leapfrog chain grad n_leapfrogs) (old_energy data log_post) (accept_rates data log_post) mean_rate u01 l s).
Notation masses m := (mass0 (latents c) (given_mass c) (mass_on c) chain decay mass_collect_iters m).
Notation step_size m e := (seq_step_size (latents c) (given_step c) (given_mass c) (step_on c) (mass_on c) chain initial_stepsize gamma t0 kappa delta decay mass_collect_iters
  (draw_momentum chain noise) find_step m e).
(** With the masses of this iteration finite, the samples and the rates are those of the
    transition of C25 and C26 from the current position with these masses and with the
    step size of this iteration. *)
Theorem C56_transition l s : schedule (hmc_graph c) Done l -> given_step c = false \/ step_on c = true ->
  let m := mem s in let e := num (m VEps) in
  (forall k d, exists x, masses m k d = Fi x) ->
  let i := sample_step chain data log_post grad (fun k d => finite (masses m k d)) n_leapfrogs (step_size m e)
             (fun x => if (fst x <? latents c)%nat then arr (m (VQ (fst x))) (snd x) else 0) noise u01 in
  forall ch, valid chain ch ->
  exts (out (after l s) Rate) ch = t_at (i_rate i) ch /\
  forall k ds d, nth_error data k = Some ds -> valid ds d ->
  exists t, nth_error (i_samples i) k = Some (Some t) /\ arr (mem (after l s) (VQ k)) (ch ++ d) = t_at t (ch ++ d).
Proof.
  intros O F m e Fin i ch Vc.
  destruct (C56_iteration c chain initial_stepsize gamma t0 kappa delta decay mass_collect_iters (draw_momentum chain noise) find_step
    (run_leapfrog chain grad n_leapfrogs) (old_energy data log_post) (accept_rates data log_post) mean_rate u01 some_latent accepted l s O F) as ((Q & _) & R & _).
  set (M := fun k d => finite (masses m k d)) in *.
  pose proof (C26_one_decision_per_chain chain data log_post grad M n_leapfrogs (step_size m e)
    (fun x => if (fst x <? latents c)%nat then arr (m (VQ (fst x))) (snd x) else 0) noise u01 i eq_refl) as D.
  assert (P : momentum0 (latents c) (given_mass c) (mass_on c) chain decay mass_collect_iters (draw_momentum chain noise) m = random_momentum chain M noise).
  { unfold momentum0, random_momentum. apply functional_extensionality. intros [k x]. cbn [fst snd]. destruct (Nat.ltb_spec k (latents c)) as [L|L].
    - reflexivity.
    - rewrite noise_latents by exact L. ring. }
  assert (T : end0 (latents c) (given_step c) (given_mass c) (step_on c) (mass_on c) chain initial_stepsize gamma t0 kappa delta decay mass_collect_iters
      (draw_momentum chain noise) find_step (run_leapfrog chain grad n_leapfrogs) m e =
    leapfrog grad (full_mass chain M) n_leapfrogs (step_size m e) (fun x => if (fst x <? latents c)%nat then arr (m (VQ (fst x))) (snd x) else 0) (random_momentum chain M noise)).
  { unfold end0. rewrite P. reflexivity. }
  destruct (leapfrog grad (full_mass chain M) n_leapfrogs (step_size m e) _ (random_momentum chain M noise)) as [q' p'].
  destruct (D ch Vc) as (oh & nh & o & nl & a & G & Ra & _ & b & B & K).
  assert (SR : seq_rate (latents c) (given_step c) (given_mass c) (step_on c) (mass_on c) chain initial_stepsize gamma t0 kappa delta decay mass_collect_iters
      (draw_momentum chain noise) find_step (run_leapfrog chain grad n_leapfrogs) (old_energy data log_post) (accept_rates data log_post) m e ch = Fi a).
  { unfold seq_rate. rewrite T, P. apply (f_equal snd) in G. cbn [snd] in G. rewrite <- G. unfold accept_rates, get_acceptance_rate, old_energy. cbn [fst snd].
    change (real_mass (masses m)) with M. change (position0 (latents c) m) with (fun x : position => if (fst x <? latents c)%nat then arr (m (VQ (fst x))) (snd x) else 0).
    destruct (hamiltonian _ (momenta data M (random_momentum chain M noise) ch)) as [h1 l1]. destruct (hamiltonian _ (momenta data M p' ch)) as [h2 l2]. reflexivity. }
  fold m in R, Q. fold e in R, Q. split; [rewrite R; cbn [exts]; now rewrite Ra|].
  intros k ds d Hk Vd. destruct (K k ds Hk) as (t & Et & _ & At). exists t. split; [exact Et|]. rewrite (At d Vd).
  assert (Lk : (k < latents c)%nat) by (rewrite <- data_latents; apply nth_error_Some; congruence).
  rewrite Q by exact Lk. unfold seq_q.
  assert (Fc : firstn (length chain) (ch ++ d) = ch).
  { destruct Vc as [L _]. rewrite <- L, firstn_app, Nat.sub_diag, firstn_all. cbn. apply app_nil_r. }
  rewrite Fc, SR, T. cbn [fst snd eltb].
  destruct b, (Rlt_dec (u01 ch) a); try reflexivity; try (exfalso; intuition congruence).
  - destruct (Nat.ltb_spec k (latents c)); [reflexivity|lia].
Qed.
End Transition.
Print Assumptions C56_transition.

(** ** Findings *)

(** A flat target, chains of no axes, scalar latents at 0, momenta 1, one leapfrog step. *)
Definition flat_run (c : config) (l : list (event var node)) (s : machine var node value) : machine var node value :=
  hmc_run c [] 1 (1/20) 100 (3/4) (4/5) (99/100) 10 (draw_momentum [] (fun x => if (fst x <? latents c)%nat then 1 else 0)) (fun _ _ _ e => e)
    (run_leapfrog [] (fun _ _ => 0) 1) (old_energy (repeat [] (latents c)) (fun _ _ => Fi 0)) (accept_rates (repeat [] (latents c)) (fun _ _ => Fi 0)) (fun _ => 1) (fun _ => 1/2) l s.
Definition flat_start : machine var node value :=
  Machine (fun x => match x with VT => Cnt 5 | VEps => Num 2 | VQ _ => Arr (fun _ => 0) | _ => Num 0 end) (fun _ _ => Num 0) (fun _ => Num 0).
Definition flat_q (c : config) (k : nat) (e : R) : R :=
  seq_q (latents c) (given_step c) (given_mass c) (step_on c) (mass_on c) [] 1 (1/20) 100 (3/4) (4/5) (99/100) 10
    (draw_momentum [] (fun x => if (fst x <? latents c)%nat then 1 else 0)) (fun _ _ _ e => e)
    (run_leapfrog [] (fun _ _ => 0) 1) (old_energy (repeat [] (latents c)) (fun _ _ => Fi 0)) (accept_rates (repeat [] (latents c)) (fun _ _ => Fi 0)) (fun _ => 1/2) (mem flat_start) e k [].
Definition frozen1 : config := Config 1 true false false false.
Definition plain2 : config := Config 2 false false false false.

Lemma flat_leapfrog M e q p : run_leapfrog [] (fun _ _ => 0) 1 M e q p = (fun x => q x + e * (p x / full_mass [] (real_mass M) x), p).
Proof.
  unfold run_leapfrog, leapfrog. change (Z.to_nat (1 + 1)) with 2%nat. cbn [leapfrog_loop Z.ltb Z.add Z.compare Pos.compare Pos.compare_cont Pos.add Pos.succ fst snd].
  unfold leapfrog_body, leapfrog_integrator, velocity. cbn. f_equal; apply functional_extensionality; intros x; lra.
Qed.
Lemma flat_rate data M e q p ch : (forall k d, 0 < real_mass M k d) ->
  accept_rates data (fun _ _ => Fi 0) M (old_energy data (fun _ _ => Fi 0) M q p) (run_leapfrog [] (fun _ _ => 0) 1 M e q p) ch = Fi 1.
Proof.
  intros Mp. rewrite flat_leapfrog. unfold accept_rates, old_energy. cbn [fst snd].
  assert (F : momenta data (real_mass M) p ch = finite_pairs (map (fun x => (p (fst x, ch ++ snd x), real_mass M (fst x) (snd x))) (entries data))).
  { unfold momenta, finite_pairs. now rewrite map_map. }
  rewrite F, hamiltonian_finite by (unfold positive_masses; rewrite Forall_map; apply Forall_forall; intros; apply Mp).
  set (h := energy _ _). cbn [fst eneg eadd emin]. replace (Rmin (- h + h) 0) with 0 by (rewrite Rplus_opp_l; unfold Rmin; destruct Rle_dec; reflexivity).
  cbn. now rewrite exp_0.
Qed.
Lemma flat_moves c k e : given_mass c = false -> (k < latents c)%nat -> flat_q c k e = e.
Proof.
  intros G Hk. unfold flat_q, seq_q. cbn [length firstn]. unfold seq_rate, end0.
  assert (M1 : forall k d, mass0 (latents c) (given_mass c) (mass_on c) [] (99 / 100) 10 (mem flat_start) k d = Fi 1).
  { intros j d. unfold mass0, seq_mass, hmc_mass. rewrite G. now destruct (_ <? _)%nat. }
  rewrite flat_rate by (intros; unfold real_mass; rewrite M1; cbn; lra). cbn [eltb].
  destruct (Rlt_dec (1 / 2) 1) as [_|N]; [|lra]. rewrite flat_leapfrog. cbn [fst].
  unfold full_mass, real_mass, momentum0, draw_momentum, position0. cbn [fst snd]. rewrite !M1. cbn [finite arr mem flat_start].
  apply Nat.ltb_lt in Hk. rewrite !Hk, sqrt_1. unfold seq_step_size, seq_adapt, hmc_iter, adapt_iter. rewrite G.
  destruct (given_step c); cbn; [|field]. destruct (tune _ _ _ _ _ _ _ _ _). cbn. field.
Qed.
(** With adaptation given and switched off, the samples depend on the order of execution:
    the assignment of step_size is not ordered after the leapfrog's use of it. *)
Definition eager_order : list node := [TuneOut; SetEps; NewT; CMass 0; Mom 0; Used; Leap; OldH; Rate; Accept; NewQ 0; SetQ 0; Done].
Lemma eager_schedule : schedule (hmc_graph frozen1) Done (flat_map (steps (hmc_graph frozen1)) eager_order).
Proof.
  apply sequential_schedule.
  - repeat constructor; cbn; intuition discriminate.
  - intros n. transitivity (in_run frozen1 n); [|split; [exact (in_run_needed frozen1 (Nat.lt_0_succ 0) eq_refl n)|exact (needed_in_run frozen1 eq_refl n)]].
    unfold eager_order. cbn [In]. destruct n; cbn; intuition (try discriminate; try lia).
    all: first [match goal with E : _ _ = _ _ |- _ => injection E as <-; lia end|replace k with 0%nat by lia; tauto].
  - intros o1 n o2 E m Hm. cbn in Hm. unfold eager_order in E.
    do 13 (destruct o1 as [|? o1]; cbn in E; [injection E as <- <-; cbn in Hm; intuition (subst; cbn; auto 20)|injection E as <- E]).
    destruct o1; discriminate.
  - intros n x w. apply refs_in_deps; reflexivity.
Qed.
Theorem C56_order_refuted : exists l l', schedule (hmc_graph frozen1) Done l /\ schedule (hmc_graph frozen1) Done l' /\
  arr (mem (flat_run frozen1 l flat_start) (VQ 0)) [] = 2 /\ arr (mem (flat_run frozen1 l' flat_start) (VQ 0)) [] = 1.
Proof.
  exists (flat_map (steps (hmc_graph frozen1)) (program_order frozen1)), (flat_map (steps (hmc_graph frozen1)) eager_order).
  assert (S1 := program_schedule frozen1 (Nat.lt_0_succ 0) eq_refl). assert (S2 := eager_schedule). split; [exact S1|]. split; [exact S2|].
  assert (R : forall l, schedule (hmc_graph frozen1) Done l -> arr (mem (flat_run frozen1 l flat_start) (VQ 0)) [] = num (seen (flat_run frozen1 l flat_start) Used VEps)).
  { intros l S. etransitivity; [unfold flat_run; refine (proj1 (result _ _ _ _ _ _ _ _ _ _ _ _ _ _ _ _ _ _ _ _ S) 0%nat [] _); cbn; auto|].
    exact (flat_moves frozen1 0 _ eq_refl (Nat.lt_0_succ 0)). }
  rewrite !R by assumption. split; [reflexivity|]. transitivity (exp 0); [reflexivity|apply exp_0].
Qed.
Print Assumptions C56_order_refuted.

(** A run stopped between the assignments of two latent variables leaves the new values of
    one and the old values of the other. *)
Theorem C57_torn_refuted : exists l l1 l2, schedule (hmc_graph plain2) Done l /\ l = l1 ++ l2 /\
  arr (mem (flat_run plain2 l1 flat_start) (VQ 0)) [] = 2 /\ arr (mem (flat_run plain2 l flat_start) (VQ 0)) [] = 2 /\
  arr (mem (flat_run plain2 l1 flat_start) (VQ 1)) [] = 0 /\ arr (mem (flat_run plain2 l flat_start) (VQ 1)) [] = 2.
Proof.
  pose (o1 := [CMass 0; CMass 1; Mom 0; Mom 1; Used; Leap; OldH; Rate; Accept; NewQ 0; NewQ 1; SetQ 0]).
  pose (l := flat_map (steps (hmc_graph plain2)) (program_order plain2)). pose (l1 := flat_map (steps (hmc_graph plain2)) o1).
  assert (S1 : schedule (hmc_graph plain2) Done l) by exact (program_schedule plain2 (Nat.lt_0_succ 1) eq_refl).
  assert (Sp : l = l1 ++ flat_map (steps (hmc_graph plain2)) [SetQ 1; Done]) by reflexivity.
  assert (E : num (seen (flat_run plain2 l flat_start) Used VEps) = 2) by reflexivity.
  assert (I1 : forall n, In (Run n) l1 <-> In n o1) by (intros n; apply run_in).
  clearbody l l1. exists l, l1, (flat_map (steps (hmc_graph plain2)) [SetQ 1; Done]). split; [exact S1|]. split; [exact Sp|].
  assert (R : forall k, (k < 2)%nat -> arr (mem (flat_run plain2 l flat_start) (VQ k)) [] = 2).
  { intros k Hk. etransitivity; [|exact E]. etransitivity; [unfold flat_run; refine (proj1 (result _ _ _ _ _ _ _ _ _ _ _ _ _ _ _ _ _ _ _ _ S1) k [] _); cbn; auto|].
    exact (flat_moves plain2 k _ eq_refl Hk). }
  assert (St : forall x, (mem (flat_run plain2 l1 flat_start) x = mem flat_start x /\ forall w, hmc_writes w = Some x -> ~ In (Run w) l1) \/
     (exists w, hmc_writes w = Some x /\ In (Run w) l1 /\ mem (flat_run plain2 l1 flat_start) x = mem (flat_run plain2 l flat_start) x)).
  { intros x. unfold flat_run, hmc_run. eapply stopped; [exact (one_writer plain2)|exact S1|exact Sp]. }
  split; [|split; [apply R; lia|split; [|apply R; lia]]].
  - destruct (St (VQ 0)) as [(_ & H)|(w & _ & _ & ->)]; [|apply R; lia]. exfalso. apply (H (SetQ 0) eq_refl). apply I1. unfold o1. cbn. tauto.
  - destruct (St (VQ 1)) as [(-> & _)|(w & W & I & _)]; [reflexivity|]. exfalso. apply I1 in I. destruct w; cbn in W; try discriminate. injection W as ->.
    unfold o1 in I. cbn in I. intuition discriminate.
Qed.
Print Assumptions C57_torn_refuted.

(** A first run that stops before its decision but after advancing the iteration counter
    leaves the next run without the step size search that a first run makes. *)
Section Retry.
Variable c : config.
Variable chain : shape.
Variables (initial_stepsize gamma t0 kappa delta decay : R) (mass_collect_iters : Z).
Variable momentum : nat -> (index -> ext) -> index -> R.
Variable find_step : (nat -> index -> ext) -> state -> state -> R -> R.
Variable trajectory : (nat -> index -> ext) -> R -> state -> state -> state * state.
Variable energy0 : (nat -> index -> ext) -> state -> state -> index -> ext.
Variable rates : (nat -> index -> ext) -> (index -> ext) -> state * state -> index -> ext.
Variable mean_rate : (index -> ext) -> R.
Variable u01 : index -> R.
Hypothesis some_latent : (0 < latents c)%nat.
Hypothesis accepted : given_mass c = true -> given_step c = true.
Notation after l s := (hmc_run c chain initial_stepsize gamma t0 kappa delta decay mass_collect_iters momentum find_step trajectory energy0 rates mean_rate u01 l s).
Notation step_size m e := (seq_step_size (latents c) (given_step c) (given_mass c) (step_on c) (mass_on c) chain initial_stepsize gamma t0 kappa delta decay mass_collect_iters momentum find_step m e).
Notation search m e := (find_step (mass0 (latents c) (given_mass c) (mass_on c) chain decay mass_collect_iters m) (position0 (latents c) m)
  (momentum0 (latents c) (given_mass c) (mass_on c) chain decay mass_collect_iters momentum m) e).
Theorem C57_retry_skips_search l l1 l2 s e : schedule (hmc_graph c) Done l -> l = l1 ++ l2 -> In (Run NewT) l1 ->
  given_step c = true -> cnt (mem s VT) = 0%nat -> (given_mass c = true -> mass_collect_iters <> 2%Z) ->
  step_size (mem s) e = search (mem s) e /\ step_size (mem (after l1 s)) e = e.
Proof.
  intros O E I G T Mc. split.
  - unfold seq_step_size, seq_adapt, hmc_iter, adapt_iter. rewrite G. cbn [ad_t adaptation1 ad_step_size]. rewrite T. cbn. destruct (tune _ _ _ _ _ _ _ _ _). reflexivity.
  - assert (T1 : cnt (mem (after l1 s) VT) = 1%nat).
    { destruct (stopped var_eq node_eq (hmc_graph c) (hmc_kernel c chain initial_stepsize gamma t0 kappa delta decay mass_collect_iters momentum find_step trajectory energy0 rates mean_rate u01)
        (one_writer c) Done l l1 l2 s O E VT) as [(_ & H)|(w & _ & _ & H)]; [exfalso; exact (H NewT eq_refl I)|].
      change (mem (after l1 s) VT = mem (after l s) VT) in H. rewrite H. clear H.
      assert (A := accepts c accepted).
      rewrite (mem_written c some_latent A chain initial_stepsize gamma t0 kappa delta decay mass_collect_iters momentum find_step trajectory energy0 rates mean_rate u01 l s O VT NewT G eq_refl).
      rewrite (out_newt c some_latent A chain initial_stepsize gamma t0 kappa delta decay mass_collect_iters momentum find_step trajectory energy0 rates mean_rate u01 l s O G). cbn. now rewrite T. }
    unfold seq_step_size, seq_adapt, hmc_iter, adapt_iter. rewrite G. cbn [ad_t adaptation1 ad_step_size]. rewrite T1.
    replace (if_initialize_step_size (effective_collect (given_mass c) mass_collect_iters) 2) with false.
    + destruct (tune _ _ _ _ _ _ _ _ _). reflexivity.
    + symmetry. unfold if_initialize_step_size, effective_collect. destruct (given_mass c); [|reflexivity]. apply orb_false_intro; [reflexivity|]. apply Z.eqb_neq. specialize (Mc eq_refl). lia.
Qed.
End Retry.
Print Assumptions C57_retry_skips_search.

(** Two latents with both adaptations on satisfy the hypotheses; the program order, stopped
    after the momenta, has advanced the counter and not reached the decision. *)
Example C56_case :
  let c := Config 2 true true true true in
  (0 < latents c)%nat /\ (given_mass c = true -> given_step c = true) /\ (given_step c = false \/ step_on c = true) /\
  exists l l1 l2, schedule (hmc_graph c) Done l /\ l = l1 ++ l2 /\ In (Run NewT) l1 /\ ~ In (Run Rate) l1.
Proof.
  intros c. split; [cbn; lia|]. split; [auto|]. split; [now right|].
  pose (o1 := [NewT; NewET; Incr 0; Incr 1; UMean 0; UMean 1; NVar 0; NVar 1; UVar 0; UVar 1; Prec 0; Prec 1; CMass 0; CMass 1; Mom 0; Mom 1]).
  exists (flat_map (steps (hmc_graph c)) (program_order c)), (flat_map (steps (hmc_graph c)) o1), (flat_map (steps (hmc_graph c)) (skipn 16 (program_order c))).
  split; [exact (program_schedule c (Nat.lt_0_succ 1) eq_refl)|]. split; [reflexivity|]. rewrite !run_in. cbn. split; [tauto|]. intuition discriminate.
Qed.
