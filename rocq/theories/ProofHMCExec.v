(** An HMC iteration in any order of execution (C56). *)
From Coq Require Import List Arith Bool Reals ZArith Lia FunctionalExtensionality.
From Verif Require Import ModelShape ModelExt ModelHMC ModelExec ModelHMCExec SpecExec ProofExec ProofHMC SpecShape.
Import ListNotations.
Local Open Scope R_scope.

Section HMC.
Variable c : config.
Notation g := (hmc_graph c).
Hypothesis some_latent : (0 < latents c)%nat.
Hypothesis accepted : hmc_accepts (given_step c) (given_mass c) = true.

Lemma mass_needs_step : given_mass c = true -> given_step c = true.
Proof. clear - accepted. unfold hmc_accepts in accepted. destruct (given_mass c), (given_step c); cbn in *; congruence. Qed.
Lemma in_each f k : (k < latents c)%nat -> In (f k) (each c f).
Proof. clear some_latent accepted. intros H. apply in_map, in_seq. lia. Qed.
Lemma in_all_q k : (k < latents c)%nat -> In (VQ k) (all_q c).
Proof. clear some_latent accepted. intros H. apply in_map, in_seq. lia. Qed.
Lemma each_in f n : In n (each c f) -> exists k, (k < latents c)%nat /\ n = f k.
Proof. clear some_latent accepted. intros H. apply in_map_iff in H as (k & <- & H). apply in_seq in H. exists k. split; [lia|reflexivity]. Qed.
Lemma all_q_in x : In x (all_q c) -> exists k, (k < latents c)%nat /\ x = VQ k.
Proof. clear some_latent accepted. intros H. apply in_map_iff in H as (k & <- & H). apply in_seq in H. exists k. split; [lia|reflexivity]. Qed.


(** The operations a run executes. *)
Definition in_run (n : node) : Prop :=
  match n with
  | NewT => given_step c = true
  | NewET => adapting_mass c = true
  | Incr k | UMean k | NVar k | UVar k => adapting_mass c = true /\ (k < latents c)%nat
  | Prec k => given_mass c = true /\ (k < latents c)%nat
  | CMass k | Mom k | NewQ k | SetQ k => (k < latents c)%nat
  | Used | Leap | OldH | Rate | Accept | Done => True
  | NewStep | NewH | LogEps | NewL => given_step c = true /\ step_on c = true
  | TuneOut | SetEps => given_step c = true
  end.
Ltac inlist H :=
  repeat match type of H with
  | In _ (if ?b then _ else _) => let E := fresh "E" in destruct b eqn:E
  | In _ (_ ++ _) => apply in_app_or in H as [H|H]
  | In _ (each c _) => apply each_in in H as (? & ? & H)
  | In _ (_ :: _) => destruct H as [H|H]
  | In _ [] => destruct H
  end.
Lemma needed_in_run n : needed g Done n -> in_run n.
Proof.
  induction 1 as [|n m Hn IH H]; [exact I|]. cbn [deps hmc_graph] in H.
  destruct n; cbn [hmc_deps in_run] in *; inlist H; subst m; cbn [in_run]; unfold adapting_mass in *; try tauto; try (split; tauto); auto using mass_needs_step.
Qed.
Lemma needed_trans (a b n : node) : needed g a b -> needed g b n -> needed g a n.
Proof. intros A. induction 1; [exact A|]. eapply needed_dep; eassumption. Qed.
Lemma needs (a b : node) : In b (hmc_deps c a) -> needed g a b.
Proof. intros H. eapply needed_dep; [apply needed_self|exact H]. Qed.
Ltac step b := apply (needed_trans _ b); [|apply needs; cbn [hmc_deps]].
Lemma setq_newq k : needed g (SetQ k) (NewQ k). Proof. apply needs. now left. Qed.
Lemma setq_leap k : needed g (SetQ k) Leap. Proof. step (NewQ k); [apply setq_newq|]. right. now left. Qed.
Lemma setq_rate k : needed g (SetQ k) Rate. Proof. step Accept; [step (NewQ k); [apply setq_newq|now left]|now left]. Qed.
Lemma leap_used : needed g Leap Used. Proof. apply needs. now left. Qed.
Lemma leap_mass k : (k < latents c)%nat -> needed g Leap (CMass k).
Proof. intros H. apply needs. cbn [hmc_deps]. right. apply in_or_app. left. now apply in_each. Qed.
Lemma leap_mom k : (k < latents c)%nat -> needed g Leap (Mom k).
Proof. intros H. apply needs. cbn [hmc_deps]. right. apply in_or_app. right. now apply in_each. Qed.
Lemma rate_leap : needed g Rate Leap. Proof. apply needs. right. now left. Qed.
Lemma rate_oldh : needed g Rate OldH. Proof. apply needs. now left. Qed.
Lemma mass_prec j k : given_mass c = true -> (k < latents c)%nat -> needed g (CMass j) (Prec k).
Proof. intros G H. apply needs. cbn [hmc_deps]. rewrite G. right. now apply in_each. Qed.
Lemma mass_t j : given_mass c = true -> needed g (CMass j) NewT.
Proof. intros G. apply needs. cbn [hmc_deps]. rewrite G. now left. Qed.
Lemma prec_uvar k : adapting_mass c = true -> needed g (Prec k) (UVar k).
Proof. intros G. apply needs. cbn [hmc_deps]. rewrite G. now left. Qed.
Lemma uvar_nvar k : needed g (UVar k) (NVar k). Proof. apply needs. now left. Qed.
Lemma nvar_umean k : needed g (NVar k) (UMean k). Proof. apply needs. right. right. now left. Qed.
Lemma nvar_incr k : needed g (NVar k) (Incr k). Proof. apply needs. right. now left. Qed.
Lemma umean_incr k : needed g (UMean k) (Incr k). Proof. apply needs. now left. Qed.
Lemma incr_et k : needed g (Incr k) NewET. Proof. apply needs. now left. Qed.
Lemma adapting_given : adapting_mass c = true -> given_mass c = true.
Proof. unfold adapting_mass. now intros ?%andb_prop. Qed.
Lemma done_setq k : (k < latents c)%nat -> needed g Done (SetQ k).
Proof. intros H. apply needs. cbn [hmc_deps]. destruct (given_step c); [right|]; now apply in_each. Qed.
Lemma done_seteps : given_step c = true -> needed g Done SetEps.
Proof. intros H. apply needs. cbn [hmc_deps]. rewrite H. now left. Qed.
Lemma seteps_out : needed g SetEps TuneOut. Proof. apply needs. now left. Qed.
Lemma out_newl : step_on c = true -> needed g TuneOut NewL.
Proof. intros H. apply needs. cbn [hmc_deps]. rewrite H. right. now left. Qed.
Lemma newl_logeps : needed g NewL LogEps. Proof. apply needs. right. right. now left. Qed.
Lemma logeps_newh : needed g LogEps NewH. Proof. apply needs. right. now left. Qed.
Lemma logeps_step : needed g LogEps NewStep. Proof. apply needs. now left. Qed.
Lemma newh_rate : needed g NewH Rate. Proof. apply needs. right. right. now left. Qed.
Lemma newh_step : needed g NewH NewStep. Proof. apply needs. right. now left. Qed.
Lemma step_t : needed g NewStep NewT. Proof. apply needs. now left. Qed.
Lemma used_t : given_step c = true -> needed g Used NewT.
Proof. intros H. apply needs. cbn [hmc_deps]. rewrite H. now left. Qed.
#[local] Hint Resolve setq_newq setq_leap setq_rate leap_used leap_mass leap_mom rate_leap rate_oldh mass_prec mass_t prec_uvar
  uvar_nvar nvar_umean nvar_incr umean_incr incr_et adapting_given done_setq done_seteps seteps_out out_newl newl_logeps logeps_newh
  logeps_step newh_rate newh_step step_t used_t needed_self : hmc.
Ltac via b := apply (needed_trans _ b); [eauto with hmc|eauto with hmc].
Lemma setq_cmass k j : (j < latents c)%nat -> needed g (SetQ k) (CMass j).
Proof. intros H. via Leap. Qed.
Lemma setq_mom k j : (j < latents c)%nat -> needed g (SetQ k) (Mom j).
Proof. intros H. via Leap. Qed.
Lemma setq_prec k j : given_mass c = true -> (j < latents c)%nat -> needed g (SetQ k) (Prec j).
Proof. intros G H. apply (needed_trans _ (CMass j)); [now apply setq_cmass|now apply mass_prec]. Qed.
Lemma setq_uvar k j : adapting_mass c = true -> (j < latents c)%nat -> needed g (SetQ k) (UVar j).
Proof. intros G H. apply (needed_trans _ (Prec j)); [apply setq_prec; auto with hmc|now apply prec_uvar]. Qed.
Lemma setq_nvar k j : adapting_mass c = true -> (j < latents c)%nat -> needed g (SetQ k) (NVar j).
Proof. intros G H. apply (needed_trans _ (UVar j)); [now apply setq_uvar|apply uvar_nvar]. Qed.
Lemma setq_incr k j : adapting_mass c = true -> (j < latents c)%nat -> needed g (SetQ k) (Incr j).
Proof. intros G H. apply (needed_trans _ (NVar j)); [now apply setq_nvar|apply nvar_incr]. Qed.
Lemma setq_used k : needed g (SetQ k) Used.
Proof. via Leap. Qed.
Lemma setq_oldh k : needed g (SetQ k) OldH.
Proof. via Rate. Qed.
Lemma seteps_rate : step_on c = true -> needed g SetEps Rate.
Proof. intros H. apply (needed_trans _ TuneOut); [apply seteps_out|]. apply (needed_trans _ NewL); [now apply out_newl|]. apply (needed_trans _ LogEps); [apply newl_logeps|].
  apply (needed_trans _ NewH); [apply logeps_newh|apply newh_rate]. Qed.
Lemma seteps_used : step_on c = true -> needed g SetEps Used.
Proof. intros H. apply (needed_trans _ Rate); [now apply seteps_rate|]. via Leap. Qed.
Lemma in_run_needed n : in_run n -> needed g Done n.
Proof.
  pose proof (done_setq 0 some_latent) as Q.
  assert (T : given_step c = true -> needed g Done TuneOut) by (intros H; via SetEps).
  assert (L : given_step c = true -> step_on c = true -> needed g Done NewL) by (intros H1 H2; apply (needed_trans _ TuneOut); auto with hmc).
  assert (LE : given_step c = true -> step_on c = true -> needed g Done LogEps) by (intros H1 H2; apply (needed_trans _ NewL); auto with hmc).
  assert (Z : forall x, needed g (SetQ 0) x -> needed g Done x) by (intros x; apply needed_trans; exact Q).
  destruct n; cbn [in_run]; intros H.
  - apply Z. apply (needed_trans _ Used); [apply setq_used|now apply used_t].
  - apply Z. apply (needed_trans _ (Incr 0)); [now apply setq_incr|apply incr_et].
  - apply Z. now apply setq_incr.
  - apply Z. apply (needed_trans _ (NVar k)); [now apply setq_nvar|apply nvar_umean].
  - apply Z. now apply setq_nvar.
  - apply Z. now apply setq_uvar.
  - apply Z. now apply setq_prec.
  - apply Z. now apply setq_cmass.
  - apply Z. now apply setq_mom.
  - apply Z, setq_used.
  - apply Z, setq_leap.
  - apply Z, setq_oldh.
  - apply Z, setq_rate.
  - apply Z. apply (needed_trans _ (NewQ 0)); [apply setq_newq|]. apply needs. now left.
  - apply (needed_trans _ (SetQ k)); auto with hmc.
  - now apply done_setq.
  - apply (needed_trans _ LogEps); [now apply LE|apply logeps_step].
  - apply (needed_trans _ LogEps); [now apply LE|apply logeps_newh].
  - now apply LE.
  - now apply L.
  - now apply T.
  - now apply done_seteps.
  - apply needed_self.
Qed.
Lemma one_writer w w' x : writes g w = Some x -> writes g w' = Some x -> w = w'.
Proof. destruct w; cbn; try discriminate; intros <-; destruct w'; cbn; intros [=]; congruence. Qed.

Variable chain : shape.
Variables (initial_stepsize gamma t0 kappa delta decay : R) (mass_collect_iters : Z).
Variable momentum : nat -> (index -> ext) -> index -> R.
Variable find_step : (nat -> index -> ext) -> state -> state -> R -> R.
Variable trajectory : (nat -> index -> ext) -> R -> state -> state -> state * state.
Variable energy0 : (nat -> index -> ext) -> state -> state -> index -> ext.
Variable rates : (nat -> index -> ext) -> (index -> ext) -> state * state -> index -> ext.
Variable mean_rate : (index -> ext) -> R.
Variable u01 : index -> R.
Notation kernel := (hmc_kernel c chain initial_stepsize gamma t0 kappa delta decay mass_collect_iters momentum find_step trajectory energy0 rates mean_rate u01).
Lemma kernel_local n : needed g Done n -> forall o o' v v', (forall m, In m (deps g n) -> o m = o' m) ->
  (forall x, In x (reads g n) \/ In x (refs g n) -> v x = v' x) -> kernel n o v = kernel n o' v'.
Proof.
  intros Hn o o' v v' D V. apply needed_in_run in Hn. cbn [deps reads refs hmc_graph] in D, V.
  assert (Q : (forall k, (k < latents c)%nat -> v (VQ k) = v' (VQ k)) -> latent_values c v = latent_values c v').
  { intros H. unfold latent_values. apply functional_extensionality. intros [k i]. cbn [fst snd]. destruct (Nat.ltb_spec k (latents c)) as [L|L]; [now rewrite (H k L)|reflexivity]. }
  assert (P : (forall k, (k < latents c)%nat -> o (Mom k) = o' (Mom k)) -> momenta_of c o = momenta_of c o').
  { intros H. unfold momenta_of. apply functional_extensionality. intros [k i]. cbn [fst snd]. destruct (Nat.ltb_spec k (latents c)) as [L|L]; [now rewrite (H k L)|reflexivity]. }
  assert (M : (forall k, (k < latents c)%nat -> o (CMass k) = o' (CMass k)) -> masses c o = masses c o').
  { intros H. unfold masses. apply functional_extensionality. intros k. apply functional_extensionality. intros i. destruct (Nat.ltb_spec k (latents c)) as [L|L]; [now rewrite (H k L)|reflexivity]. }
  destruct n; cbn [hmc_deps hmc_reads hmc_refs in_run] in D, V, Hn; cbn [hmc_kernel].
  - now rewrite (V VT) by (cbn; auto).
  - now rewrite (V VET) by (cbn; auto).
  - now rewrite (V VET), (V (VQ k)), (V (VMean k)) by (cbn; auto).
  - now rewrite (V (VMean k)), (D (Incr k)) by (cbn; auto).
  - now rewrite (V VET), (V (VQ k)), (V (VMean k)), (V (VVar k)), (D (Incr k)) by (cbn; auto).
  - now rewrite (D (NVar k)) by (cbn; auto).
  - destruct (adapting_mass c); now rewrite (V (VVar k)) by (cbn; auto).
  - destruct (given_mass c); [|reflexivity]. rewrite (V VT) by (cbn; auto). destruct (_ <? _)%Z; [reflexivity|].
    rewrite (D (Prec k)); [reflexivity|]. right. now apply in_each.
  - now rewrite (D (CMass k)) by (cbn; auto).
  - destruct (given_step c); [|now rewrite (V VEps) by (cbn; auto)]. rewrite (V VT), (V VEps) by (cbn; auto). rewrite Q, P, M; [reflexivity| | |].
    + intros k H. apply D. right. apply in_or_app. left. now apply in_each.
    + intros k H. apply D. right. apply in_or_app. right. now apply in_each.
    + intros k H. apply V. left. right. now apply in_all_q.
  - rewrite (D Used) by (cbn; auto). rewrite Q, P, M; [reflexivity| | |].
    + intros k H. apply D. right. apply in_or_app. left. now apply in_each.
    + intros k H. apply D. right. apply in_or_app. right. now apply in_each.
    + intros k H. apply V. left. now apply in_all_q.
  - rewrite Q, P, M; [reflexivity| | |].
    + intros k H. apply D. apply in_or_app. left. now apply in_each.
    + intros k H. apply D. apply in_or_app. right. now apply in_each.
    + intros k H. apply V. left. now apply in_all_q.
  - rewrite (D OldH), (D Leap) by (cbn; auto). rewrite M; [reflexivity|]. intros k H. apply D. right. right. now apply in_each.
  - now rewrite (D Rate) by (cbn; auto).
  - now rewrite (D Accept), (D Leap), (V (VQ k)) by (cbn; auto).
  - now rewrite (D (NewQ k)) by (cbn; auto).
  - now rewrite (V VT), (V VStep) by (cbn; auto).
  - now rewrite (V VT), (V VStep), (V VHbar), (D Rate) by (cbn; auto).
  - now rewrite (V VStep), (V VHbar) by (cbn; auto).
  - now rewrite (V VT), (V VStep), (V VLbar), (D LogEps) by (cbn; auto).
  - destruct (step_on c); [now rewrite (D LogEps) by (cbn; auto)|now rewrite (V VLbar) by (cbn; auto)].
  - now rewrite (D TuneOut) by (cbn; auto).
  - reflexivity.
Qed.

Section Run.
Variables (l : list (event var node)) (s0 : machine var node value).
Hypothesis S : schedule g Done l.
Notation fin := (hmc_run c chain initial_stepsize gamma t0 kappa delta decay mass_collect_iters momentum find_step trajectory energy0 rates mean_rate u01 l s0).
Notation m := (mem s0).
Notation T := (Datatypes.S (cnt (m VT))).

Lemma out_eq n : in_run n -> out fin n = kernel n (out fin) (seen fin n).
Proof. intros H. apply (exec_out var_eq node_eq g kernel Done l s0 (kernel_local) S). now apply in_run_needed. Qed.
Lemma seen_before n x : in_run n -> In x (hmc_reads c n) \/ In x (hmc_refs c n) ->
  (forall w, in_run w -> hmc_writes w = Some x -> needed g w n) -> seen fin n x = m x.
Proof.
  intros H I B. apply (exec_seen_before var_eq node_eq g kernel Done l s0 S); [now apply in_run_needed|exact I|].
  intros w Hw. apply B. now apply needed_in_run.
Qed.
Lemma seen_after n x w : in_run n -> In x (hmc_refs c n) -> in_run w -> hmc_writes w = Some x -> seen fin n x = out fin w.
Proof. intros H I Hw W. apply (exec_seen_after var_eq node_eq g kernel one_writer Done l s0 S); auto using in_run_needed. Qed.
Lemma mem_written x w : in_run w -> hmc_writes w = Some x -> mem fin x = out fin w.
Proof. intros H W. apply (exec_mem var_eq node_eq g kernel one_writer Done l s0 S); [now apply in_run_needed|exact W]. Qed.
Lemma mem_kept x : (forall w, in_run w -> hmc_writes w <> Some x) -> mem fin x = m x.
Proof. intros H. apply (exec_mem var_eq node_eq g kernel one_writer Done l s0 S). intros w Hw. apply H. now apply needed_in_run. Qed.
Ltac before := apply seen_before; [cbn [in_run]; auto|cbn [hmc_reads hmc_refs]; auto with datatypes|].

Lemma out_newt : given_step c = true -> out fin NewT = Cnt T.
Proof.
  intros G. rewrite out_eq by exact G. cbn [hmc_kernel]. do 2 f_equal. f_equal. before.
  intros w _ W. destruct w; cbn in W; try discriminate. apply needed_self.
Qed.
Lemma out_newet : adapting_mass c = true -> out fin NewET = Cnt (Datatypes.S (cnt (m VET))).
Proof.
  intros G. rewrite out_eq by exact G. cbn [hmc_kernel]. do 2 f_equal. f_equal. before.
  intros w _ W. destruct w; cbn in W; try discriminate. apply needed_self.
Qed.
(** A latent variable is read before it is assigned. *)
Lemma seen_q n k : in_run n -> In (VQ k) (hmc_reads c n) -> (k < latents c)%nat -> needed g (SetQ k) n -> seen fin n (VQ k) = m (VQ k).
Proof.
  intros H I Hk B. apply seen_before; [exact H|now left|]. intros w Hw W. destruct w; cbn in W; try discriminate. now injection W as ->.
Qed.
Lemma out_incr k : adapting_mass c = true -> (k < latents c)%nat -> out fin (Incr k) =
  Arr (fun i => weight decay (Datatypes.S (cnt (m VET))) * (arr (m (VQ k)) i - arr (m (VMean k)) (data_of chain i))).
Proof.
  intros G H. rewrite out_eq by (split; assumption). cbn [hmc_kernel].
  rewrite (seen_after (Incr k) VET NewET), out_newet, seen_q; cbn; auto.
  - rewrite (seen_before (Incr k) (VMean k)); cbn; auto. intros w _ W. destruct w; cbn in W; try discriminate. injection W as <-. apply umean_incr.
  - now apply setq_incr.
Qed.
Lemma out_umean k : adapting_mass c = true -> (k < latents c)%nat -> out fin (UMean k) =
  Arr (fun d => arr (m (VMean k)) d + avg (map (fun ch => arr (out fin (Incr k)) (ch ++ d)) (indices chain))).
Proof.
  intros G H. rewrite out_eq by (split; assumption). cbn [hmc_kernel].
  rewrite (seen_before (UMean k) (VMean k)); cbn; auto. intros w _ W. destruct w; cbn in W; try discriminate. injection W as <-. apply needed_self.
Qed.
Lemma out_nvar k : adapting_mass c = true -> (k < latents c)%nat -> out fin (NVar k) =
  Arr (fun d => (1 - weight decay (Datatypes.S (cnt (m VET)))) * arr (m (VVar k)) d +
    avg (map (fun ch => arr (out fin (Incr k)) (ch ++ d) * (arr (m (VQ k)) (ch ++ d) - arr (out fin (UMean k)) d)) (indices chain))).
Proof.
  intros G H. rewrite out_eq by (split; assumption). cbn [hmc_kernel].
  rewrite (seen_after (NVar k) VET NewET), out_newet, seen_q, (seen_after (NVar k) (VMean k) (UMean k)); cbn; auto.
  - rewrite (seen_before (NVar k) (VVar k)); cbn; auto. intros w _ W. destruct w; cbn in W; try discriminate. injection W as <-. apply uvar_nvar.
  - now apply setq_nvar.
Qed.
Lemma out_uvar k : adapting_mass c = true -> (k < latents c)%nat -> out fin (UVar k) = Arr (arr (out fin (NVar k))).
Proof. intros G H. rewrite out_eq by (split; assumption). reflexivity. Qed.

Notation seq_mass := (seq_mass (given_mass c) (mass_on c) chain decay mass_collect_iters m).
Lemma data_app ch d : In ch (indices chain) -> data_of chain (ch ++ d) = d.
Proof. intros H. apply ProofHMC.indices_valid in H as [L _]. unfold data_of. rewrite <- L, skipn_app, skipn_all, Nat.sub_diag. reflexivity. Qed.
(** The moving variance is updated as in program order. *)
Lemma combine_map {A B C} (f : A -> B) (h : A -> C) (k : list A) : combine (map f k) (map h k) = map (fun a => (f a, h a)) k.
Proof. induction k as [|a k IH]; [reflexivity|]. cbn. now rewrite IH. Qed.
Lemma stat_updated k d : adapting_mass c = true -> (k < latents c)%nat ->
  Ewmv (cnt (out fin NewET)) (arr (out fin (UMean k)) d) (arr (out fin (UVar k)) d) = fst (seq_mass k d).
Proof.
  intros G H. pose proof (adapting_given G) as G'. assert (On : mass_on c = true) by (unfold adapting_mass in G; now apply andb_prop in G).
  unfold SpecExec.seq_mass, hmc_mass, adapt_mass, ewmv_update. rewrite G', On. cbn [fst ew_t ew_mean ew_var].
  rewrite out_uvar, out_nvar by assumption. cbn [arr]. rewrite out_umean by assumption. cbn [arr]. rewrite out_incr, out_newet by assumption. cbn [arr cnt].
  rewrite !map_map, combine_map, map_map. unfold weight. cbn [fst snd].
  assert (E : map (fun ch : list nat => (1 - decay) / (1 - decay ^ Datatypes.S (cnt (m VET))) * (arr (m (VQ k)) (ch ++ d) - arr (m (VMean k)) (data_of chain (ch ++ d)))) (indices chain) =
    map (fun ch : list nat => (1 - decay) / (1 - decay ^ Datatypes.S (cnt (m VET))) * (arr (m (VQ k)) (ch ++ d) - arr (m (VMean k)) d)) (indices chain)).
  { apply map_ext_in. intros ch I. now rewrite data_app. }
  rewrite E. f_equal. f_equal. f_equal. apply map_ext_in. intros ch I. now rewrite data_app.
Qed.
Lemma out_mass k d : (k < latents c)%nat -> exts (out fin (CMass k)) d = snd (seq_mass k d).
Proof.
  intros H. rewrite out_eq by exact H. cbn [hmc_kernel]. unfold SpecExec.seq_mass, hmc_mass. assert (CG : given_mass c = true \/ given_mass c = false) by (destruct (given_mass c); auto).
  destruct CG as [G|G]; rewrite G; [|reflexivity].
  pose proof (mass_needs_step G) as G'.
  rewrite (seen_after (CMass k) VT NewT), out_newt; [|assumption|exact H|cbn [hmc_refs]; rewrite G; now left|exact G'|reflexivity]. cbn [cnt]. unfold adapt_mass. cbn [snd].
  destruct (_ <? _)%Z; [reflexivity|]. cbn [exts]. rewrite out_eq by (split; assumption). cbn [hmc_kernel exts]. unfold precision.
  destruct (adapting_mass c) eqn:A.
  - assert (On : mass_on c = true) by (unfold adapting_mass in A; now apply andb_prop in A). rewrite On.
    rewrite (seen_after (Prec k) (VVar k) (UVar k)); cbn [in_run hmc_refs]; rewrite ?A; auto with datatypes.
    pose proof (stat_updated k d A H) as E. unfold SpecExec.seq_mass, hmc_mass, adapt_mass in E. rewrite G, On in E. cbn [fst] in E.
    now rewrite <- E.
  - assert (On : mass_on c = false) by (unfold adapting_mass in A; rewrite G in A; exact A). rewrite On. cbn [ew_var].
    rewrite (seen_before (Prec k) (VVar k)); cbn [in_run hmc_reads]; rewrite ?A; auto with datatypes.
    intros w Hw W. destruct w; cbn in W; try discriminate. destruct Hw as [Hw _]. congruence.
Qed.
Notation position0 := (position0 (latents c) m).
Notation mass0 := (mass0 (latents c) (given_mass c) (mass_on c) chain decay mass_collect_iters m).
Notation momentum0 := (momentum0 (latents c) (given_mass c) (mass_on c) chain decay mass_collect_iters momentum m).
Lemma masses_eq : masses c (out fin) = mass0.
Proof.
  unfold masses, SpecExec.mass0. apply functional_extensionality. intros k. apply functional_extensionality. intros d.
  destruct (Nat.ltb_spec k (latents c)); [now apply out_mass|reflexivity].
Qed.
Lemma out_mom k : (k < latents c)%nat -> out fin (Mom k) = Arr (momentum k (mass0 k)).
Proof.
  intros H. rewrite out_eq by exact H. cbn [hmc_kernel]. do 2 f_equal. apply functional_extensionality. intros d. rewrite out_mass by exact H.
  unfold SpecExec.mass0. destruct (Nat.ltb_spec k (latents c)); [reflexivity|lia].
Qed.
Lemma momenta_eq : momenta_of c (out fin) = momentum0.
Proof.
  unfold momenta_of, SpecExec.momentum0. apply functional_extensionality. intros [k d]. cbn [fst snd].
  destruct (Nat.ltb_spec k (latents c)); [now rewrite out_mom|reflexivity].
Qed.
Lemma position_eq n : in_run n -> (forall k, (k < latents c)%nat -> In (VQ k) (hmc_reads c n)) -> (forall j, (j < latents c)%nat -> needed g (SetQ j) n) ->
  latent_values c (seen fin n) = position0.
Proof.
  intros H I B. unfold latent_values, SpecExec.position0. apply functional_extensionality. intros [k d]. cbn [fst snd].
  destruct (Nat.ltb_spec k (latents c)); [|reflexivity]. rewrite seen_q; auto.
Qed.
(** What the run takes as the content of step_size. *)
Notation e := (num (seen fin Used VEps)).
Lemma taken_step_size : e = num (m VEps) \/ given_step c = true /\ step_on c = false /\ e = exp (num (m VLbar)).
Proof.
  destruct (exec_seen var_eq node_eq g kernel Done l s0 S Used VEps) as [E|(w & Hw & W & E)].
  - now apply in_run_needed.
  - left. cbn. destruct (given_step c); now left.
  - left. exact (f_equal num E).
  - apply needed_in_run in Hw. destruct w; cbn in W; try discriminate. destruct (step_on c) eqn:On.
    + left. apply (f_equal num). apply seen_before; [exact I|left; cbn; destruct (given_step c); now left|].
      intros w _ W'. destruct w; cbn in W'; try discriminate. now apply seteps_used.
    + right. split; [exact Hw|]. split; [reflexivity|]. apply (f_equal num) in E. etransitivity; [exact E|].
      change (num (out fin SetEps) = exp (num (m VLbar))). rewrite out_eq by exact Hw. cbn [hmc_kernel num]. rewrite out_eq by exact Hw. cbn [hmc_kernel num]. rewrite On.
      rewrite (seen_before TuneOut VLbar); [reflexivity|exact Hw|left; cbn; rewrite On; now left|]. intros w Hw' W'. destruct w; cbn in W'; try discriminate. destruct Hw'. congruence.
Qed.

Notation seq_step_size := (seq_step_size (latents c) (given_step c) (given_mass c) (step_on c) (mass_on c) chain initial_stepsize gamma t0 kappa delta decay mass_collect_iters momentum find_step m).
Notation end0 := (end0 (latents c) (given_step c) (given_mass c) (step_on c) (mass_on c) chain initial_stepsize gamma t0 kappa delta decay mass_collect_iters momentum find_step trajectory m).
Notation seq_rate := (seq_rate (latents c) (given_step c) (given_mass c) (step_on c) (mass_on c) chain initial_stepsize gamma t0 kappa delta decay mass_collect_iters momentum find_step trajectory energy0 rates m).
Notation seq_q := (seq_q (latents c) (given_step c) (given_mass c) (step_on c) (mass_on c) chain initial_stepsize gamma t0 kappa delta decay mass_collect_iters momentum find_step trajectory energy0 rates u01 m).
Notation seq_result := (seq_result (latents c) (given_step c) (given_mass c) (step_on c) (mass_on c) chain initial_stepsize gamma t0 kappa delta decay mass_collect_iters momentum find_step trajectory energy0 rates mean_rate u01 m).

Lemma out_used : out fin Used = Num (seq_step_size e).
Proof.
  rewrite out_eq by exact I. cbn [hmc_kernel]. unfold SpecExec.seq_step_size, seq_adapt, hmc_iter.
  assert (CG : given_step c = true \/ given_step c = false) by (destruct (given_step c); auto). destruct CG as [G|G]; rewrite G; [|reflexivity].
  rewrite masses_eq, momenta_eq. rewrite (position_eq Used); [|exact I| |intros; apply setq_used].
  2: { intros k H. cbn [hmc_reads]. rewrite G. right. now apply in_all_q. }
  assert (TT : seen fin Used VT = out fin NewT) by (apply seen_after; cbn [in_run hmc_refs hmc_writes]; rewrite ?G; auto with datatypes).
  rewrite TT, out_newt by exact G. unfold adapt_iter. cbn [ad_t adaptation1 ad_step_size cnt]. destruct (tune _ _ _ _ _ _ _ _ _). cbn [snd]. reflexivity.
Qed.
Lemma out_leap : out fin Leap = Traj (fst (end0 e)) (snd (end0 e)).
Proof.
  rewrite out_eq by exact I. cbn [hmc_kernel]. rewrite masses_eq, momenta_eq, out_used. rewrite (position_eq Leap); [|exact I|intros k H; now apply in_all_q|intros; apply setq_leap].
  cbn [num]. unfold SpecExec.end0. now destruct (trajectory _ _ _ _).
Qed.
Lemma out_rate : out fin Rate = Ext (seq_rate e).
Proof.
  rewrite out_eq by exact I. cbn [hmc_kernel]. rewrite masses_eq, out_leap. rewrite out_eq by exact I. cbn [hmc_kernel exts traj].
  rewrite masses_eq, momenta_eq, (position_eq OldH); [|exact I|intros k H; now apply in_all_q|intros; apply setq_oldh].
  unfold SpecExec.seq_rate. now rewrite <- surjective_pairing.
Qed.
Lemma out_newq k : (k < latents c)%nat -> out fin (NewQ k) = Arr (seq_q e k).
Proof.
  intros H. rewrite out_eq by exact H. cbn [hmc_kernel]. rewrite out_leap. rewrite out_eq by exact I. cbn [hmc_kernel bits traj fst]. rewrite out_rate. cbn [exts].
  rewrite seen_q; [reflexivity|exact H|now left|exact H|apply setq_newq].
Qed.
(** The tuner. *)
Notation tuner1 := (Tuner (num (m VStep)) (num (m VLbar)) (num (m VHbar))).
Notation init := (initialize c mass_collect_iters T).
Lemma tuner_out : given_step c = true -> step_on c = true -> 
  (Tuner (num (out fin NewStep)) (num (out fin NewL)) (num (out fin NewH)), exp (num (out fin LogEps))) =
  tune initial_stepsize gamma t0 kappa delta tuner1 true (mean_rate (seq_rate e)) init.
Proof.
  intros G On.
  assert (V1 : in_run NewStep) by (split; assumption). assert (V2 : in_run NewH) by (split; assumption).
  assert (V3 : in_run LogEps) by (split; assumption). assert (V4 : in_run NewL) by (split; assumption).
  assert (TT : forall n, in_run n -> In VT (hmc_refs c n) -> cnt (seen fin n VT) = T).
  { intros n Hn I. rewrite (seen_after n VT NewT Hn I G eq_refl), out_newt by exact G. reflexivity. }
  assert (TS : forall n, in_run n -> In VStep (hmc_refs c n) -> seen fin n VStep = out fin NewStep) by (intros n Hn I; now apply seen_after).
  assert (E1 : out fin NewStep = Num ((1 - fresh c mass_collect_iters T) * num (m VStep) + 1)).
  { rewrite out_eq by exact V1. cbn [hmc_kernel]. rewrite TT by (auto; now left). rewrite (seen_before NewStep VStep); [reflexivity|exact V1|left; now left|].
    intros w _ W. destruct w; cbn in W; try discriminate. apply needed_self. }
  assert (E2 : out fin NewH = Num ((1 - fresh c mass_collect_iters T) * (1 - 1 / (num (out fin NewStep) + t0)) * num (m VHbar)
                + 1 / (num (out fin NewStep) + t0) * (delta - mean_rate (seq_rate e)))).
  { rewrite out_eq by exact V2. cbn [hmc_kernel]. rewrite TT by (auto; now left). rewrite TS by (auto; right; now left). rewrite out_rate. cbn [exts].
    rewrite (seen_before NewH VHbar); [reflexivity|exact V2|left; now left|]. intros w _ W. destruct w; cbn in W; try discriminate. apply needed_self. }
  assert (E3 : out fin LogEps = Num (mu initial_stepsize - sqrt (num (out fin NewStep)) / gamma * num (out fin NewH))).
  { rewrite out_eq by exact V3. cbn [hmc_kernel]. rewrite TS by (auto; now left). rewrite (seen_after LogEps VHbar NewH); [reflexivity|exact V3|right; now left|exact V2|reflexivity]. }
  assert (E4 : out fin NewL = Num (Rpower (num (out fin NewStep)) (- kappa) * num (out fin LogEps)
                + (1 - fresh c mass_collect_iters T) * (1 - Rpower (num (out fin NewStep)) (- kappa)) * num (m VLbar))).
  { rewrite out_eq by exact V4. cbn [hmc_kernel]. rewrite TT by (auto; now left). rewrite TS by (auto; right; now left).
    rewrite (seen_before NewL VLbar); [reflexivity|exact V4|left; now left|]. intros w _ W. destruct w; cbn in W; try discriminate. apply needed_self. }
  rewrite E4, E3, E2, E1. cbn [num]. unfold tune, fresh. cbn [tn_step tn_h_bar tn_log_epsilon_bar]. reflexivity.
Qed.
Lemma result : seq_result e (mem fin).
Proof.
  unfold SpecExec.seq_result, seq_state, seq_adapt, hmc_iter, adapt_iter.
  pose proof tuner_out as TO. set (rr := mean_rate (seq_rate e)) in *. clearbody rr.
  split. { intros k i H. rewrite (mem_written (VQ k) (SetQ k)) by (cbn; auto). rewrite out_eq by exact H. cbn [hmc_kernel]. now rewrite out_newq. }
  assert (CG : given_step c = true \/ given_step c = false) by (destruct (given_step c); auto).
  assert (CO : step_on c = true \/ step_on c = false) by (destruct (step_on c); auto).
  assert (Last : forall k d, (k < latents c)%nat ->
     cnt (mem fin VET) = ew_t (fst (seq_mass k d)) /\ arr (mem fin (VMean k)) d = ew_mean (fst (seq_mass k d)) /\ arr (mem fin (VVar k)) d = ew_var (fst (seq_mass k d))).
  { intros k d H. assert (CA : adapting_mass c = true \/ adapting_mass c = false) by (destruct (adapting_mass c); auto). destruct CA as [A|A].
    - rewrite (mem_written VET NewET), (mem_written (VMean k) (UMean k)), (mem_written (VVar k) (UVar k)) by (cbn; auto). rewrite <- (stat_updated k d A H). auto.
    - rewrite !mem_kept; try (intros w Hw W; destruct w; cbn in W, Hw; try discriminate; destruct Hw; congruence); try (intros w Hw W; destruct w; cbn in W, Hw; try discriminate; congruence).
      unfold SpecExec.seq_mass, hmc_mass, adapt_mass. unfold adapting_mass in A. destruct (given_mass c); [|auto]. cbn in A. rewrite A. auto. }
  destruct CG as [G|G].
  - rewrite G. cbn [ad_t adaptation1 ad_tuner]. rewrite (mem_written VT NewT), out_newt by (cbn; auto).
    rewrite (mem_written VEps SetEps) by (cbn; auto). rewrite out_eq by exact G. cbn [hmc_kernel]. rewrite out_eq by exact G. cbn [hmc_kernel].
    destruct CO as [On|On].
    + rewrite (mem_written VStep NewStep), (mem_written VHbar NewH), (mem_written VLbar NewL) by (cbn; auto).
      specialize (TO G On). rewrite On. unfold initialize in TO. rewrite <- TO. cbn. repeat split; auto; apply Last; auto.
    + rewrite On. unfold tune. cbn [fst ad_t ad_step_size ad_tuner tn_step tn_h_bar tn_log_epsilon_bar num cnt].
      rewrite (seen_before TuneOut VLbar); [|exact G|left; cbn; rewrite On; now left|intros w Hw W; destruct w; cbn in W, Hw; try discriminate; destruct Hw; congruence].
      rewrite (mem_kept VStep), (mem_kept VHbar), (mem_kept VLbar); try (intros w Hw W; destruct w; cbn in W, Hw; try discriminate; destruct Hw; congruence).
      repeat split; auto; apply Last; auto.
  - rewrite G. cbn [fst ad_t ad_step_size ad_tuner adaptation1 tn_step tn_h_bar tn_log_epsilon_bar].
    rewrite (mem_kept VT), (mem_kept VEps), (mem_kept VStep), (mem_kept VHbar), (mem_kept VLbar); try (intros w Hw W; destruct w; cbn in W, Hw; try discriminate; first [congruence|destruct Hw; congruence]).
    repeat split; auto; try apply Last; auto.
    destruct taken_step_size as [E|(G' & _)]; congruence.
Qed.
Lemma info_momentum k : (k < latents c)%nat -> out fin (Mom k) = Arr (fun i => momentum0 (k, i)).
Proof. intros H. rewrite out_mom by exact H. f_equal. apply functional_extensionality. intros i. unfold SpecExec.momentum0. cbn [fst snd]. destruct (Nat.ltb_spec k (latents c)); [reflexivity|lia]. Qed.
End Run.
End HMC.

(** The program order is an order of execution. *)
From Coq Require Import Sorting.Sorted.
Section ProgramOrder.
Variable c : config.
Hypothesis some_latent : (0 < latents c)%nat.
Hypothesis accepted : hmc_accepts (given_step c) (given_mass c) = true.
Definition rank (n : node) : nat :=
  match n with
  | NewT => 0 | NewET => 1 | Incr _ => 2 | UMean _ => 3 | NVar _ => 4 | UVar _ => 5 | Prec _ => 6 | CMass _ => 7 | Mom _ => 8
  | Used => 9 | Leap => 10 | OldH => 11 | Rate => 12 | Accept => 13 | NewQ _ => 14 | NewStep => 15 | NewH => 16 | LogEps => 17 | NewL => 18
  | TuneOut => 19 | SetEps => 20 | SetQ _ => 21 | Done => 22
  end%nat.
Definition only (b : bool) (k : list node) : list node := if b then k else [].
Definition program_order : list node :=
  only (given_step c) [NewT] ++ only (adapting_mass c) [NewET] ++ only (adapting_mass c) (each c Incr) ++ only (adapting_mass c) (each c UMean)
  ++ only (adapting_mass c) (each c NVar) ++ only (adapting_mass c) (each c UVar) ++ only (given_mass c) (each c Prec) ++ each c CMass ++ each c Mom
  ++ [Used] ++ [Leap] ++ [OldH] ++ [Rate] ++ [Accept] ++ each c NewQ
  ++ only (given_step c && step_on c) [NewStep] ++ only (given_step c && step_on c) [NewH] ++ only (given_step c && step_on c) [LogEps] ++ only (given_step c && step_on c) [NewL]
  ++ only (given_step c) [TuneOut] ++ only (given_step c) [SetEps] ++ each c SetQ ++ [Done].
(** A list of operations of ranks at least [a], each once, sorted by rank. *)
Definition staged (a : nat) (k : list node) : Prop := NoDup k /\ StronglySorted (fun x y => (rank x <= rank y)%nat) k /\ Forall (fun x => (a <= rank x)%nat) k.
Lemma staged_app a k k' : (NoDup k /\ Forall (fun x => rank x = a) k) -> staged (S a) k' -> staged a (k ++ k').
Proof.
  intros (N & F) (N' & S' & F'). unfold staged. rewrite Forall_forall in *. split; [|split].
  - clear S'. induction N as [|x k Nx N IH]; [exact N'|]. cbn. constructor.
    + intros I. apply in_app_or in I as [I|I]; [contradiction|]. apply F' in I. rewrite (F x (or_introl eq_refl)) in I. lia.
    + apply IH. intros y Hy. apply F. now right.
  - clear N N'. induction k as [|x k IH]; [exact S'|]. cbn. constructor.
    + apply IH. intros y Hy. apply F. now right.
    + apply Forall_forall. intros y I. rewrite (F x (or_introl eq_refl)). apply in_app_or in I as [I|I]; [rewrite (F y (or_intror I)); lia|]. apply F' in I. lia.
  - intros y I. apply in_app_or in I as [I|I]; [now rewrite (F y I)|apply F' in I; lia].
Qed.
Lemma stage_one n : NoDup [n] /\ Forall (fun x => rank x = rank n) [n].
Proof. split; constructor; auto. constructor. Qed.
Lemma stage_only b k a : NoDup k /\ Forall (fun x => rank x = a) k -> NoDup (only b k) /\ Forall (fun x => rank x = a) (only b k).
Proof. intros H. destruct b; [exact H|]. split; constructor. Qed.
Lemma stage_each f a : (forall i j, f i = f j -> i = j) -> (forall k, rank (f k) = a) -> NoDup (each c f) /\ Forall (fun x => rank x = a) (each c f).
Proof. intros J H. split; [apply FinFun.Injective_map_NoDup; [exact J|apply seq_NoDup]|]. unfold each. rewrite Forall_map. apply Forall_forall. intros k _. apply H. Qed.
Lemma program_staged : staged 0 program_order.
Proof.
  unfold program_order. repeat (apply staged_app; [try apply stage_only; try apply stage_one; try (apply stage_each; [intros i j E; now injection E|reflexivity])|]).
  apply (staged_app 22 [Done] []); [apply stage_one|]. split; [constructor|]. split; constructor.
Qed.
Lemma each_iff f n : In n (each c f) <-> exists k, (k < latents c)%nat /\ n = f k.
Proof. split; [apply each_in|]. intros (k & H & ->). now apply in_each. Qed.
Lemma only_iff b k n : In n (only b k) <-> b = true /\ In n k.
Proof. destruct b; cbn; intuition discriminate. Qed.
Lemma program_all n : In n program_order <-> needed (hmc_graph c) Done n.
Proof.
  assert (E : In n program_order <-> in_run c n).
  { unfold program_order. rewrite !in_app_iff, !only_iff, !each_iff. cbn [In].
    destruct n; cbn [in_run]; split; intros H;
      repeat match goal with
      | H : _ \/ _ |- _ => destruct H as [H|H]
      | H : _ /\ _ |- _ => destruct H as [? H]
      | H : exists _, _ |- _ => destruct H as [? H]
      | H : False |- _ => destruct H
      | H : andb _ _ = true |- _ => apply andb_prop in H as [? ?]
      end; try discriminate; try congruence; try tauto;
      try (match goal with H : ?f _ = ?f _ |- _ => injection H as -> end); auto;
      try (rewrite ?andb_true_iff; do 30 (first [left; solve [eauto 6] | right]); eauto 6; fail).
    all: rewrite ?andb_true_iff; tauto || eauto 30. }
  rewrite E. split; intros H; [now apply in_run_needed|now apply needed_in_run].
Qed.
Lemma deps_rank n m : In m (hmc_deps c n) -> (rank m < rank n)%nat.
Proof.
  destruct n; cbn [hmc_deps]; intros H; repeat match type of H with
  | In _ (if ?b then _ else _) => destruct b
  | In _ (_ ++ _) => apply in_app_or in H as [H|H]
  | In _ (each c _) => apply each_in in H as (? & ? & H)
  | In _ (_ :: _) => destruct H as [H|H]
  | In _ [] => destruct H
  end; subst m; cbn; lia.
Qed.
Lemma refs_in_deps n x w : In x (hmc_refs c n) -> hmc_writes w = Some x -> In w (hmc_deps c n).
Proof.
  destruct n; cbn [hmc_refs hmc_deps]; intros H W; repeat match type of H with
  | In _ (if ?b then _ else _) => destruct b
  | In _ (_ :: _) => destruct H as [H|H]
  | In _ [] => destruct H
  end; subst x; destruct w; cbn in W; try discriminate; try injection W as ->; cbn; auto.
Qed.
Lemma sorted_deps (k : list node) o1 n o2 : staged 0 k -> (forall m, In m (hmc_deps c n) -> In m k) -> k = o1 ++ n :: o2 -> incl (hmc_deps c n) o1.
Proof.
  intros (N & So & _) D E m Hm. pose proof (D m Hm) as I. rewrite E in I. apply in_app_or in I as [I|[->|I]]; [exact I| |]; apply deps_rank in Hm; [lia|].
  exfalso. rewrite E in So. clear - So I Hm. induction o1 as [|a o1 IH]; cbn in So; inversion So as [|? ? S' F]; subst; [|now apply IH].
  rewrite Forall_forall in F. apply F in I. lia.
Qed.
Lemma program_schedule : schedule (hmc_graph c) Done (flat_map (steps (hmc_graph c)) program_order).
Proof.
  apply sequential_schedule.
  - apply program_staged.
  - apply program_all.
  - intros o1 n o2 E. apply (sorted_deps program_order o1 n o2 program_staged); [|exact E].
    intros m Hm. apply program_all. eapply needed_dep; [|exact Hm]. apply program_all. rewrite E. apply in_or_app. right. now left.
  - apply refs_in_deps.
Qed.
End ProgramOrder.
