(** C27, C28 and C29: adaptation of the HMC step size and mass, and the initial step
    size search. *)
From Coq Require Import List Arith Lia Bool Reals Lra ZArith Permutation.
From Verif Require Import ModelShape SpecShape ModelTensor SpecTensor ModelExt ModelHMC SpecDist SpecChol ProofDiscrete ProofChol
  SpecHMC ProofHMC PropMetropolis SpecAdapt ProofAdapt.
Import ListNotations.
Local Open Scope R_scope.

(** ** C27: step size *)
Section Tuning.
Variables (initial_stepsize gamma t0 kappa delta : R).
Hypothesis t0_nonneg : 0 <= t0.
Notation tune := (tune initial_stepsize gamma t0 kappa delta).

(** The tuner after a history of calls. *)
Definition tuner_after (h : list event) (s : tuner) : tuner :=
  fold_left (fun s e => fst (tune s (ev_adapt e) (ev_rate e) (ev_fresh e))) h s.

Let expected (l : list R) : tuner :=
  Tuner (INR (length l)) (averaged (10 * initial_stepsize) gamma t0 kappa delta l (length l)) (shortfall t0 delta l (length l)).
Lemma expected_nil : expected [] = tuner0.
Proof. unfold expected, averaged, shortfall. cbn. unfold Rdiv. now rewrite Rmult_0_l. Qed.
Lemma tune_continue l a : tune (expected l) true a false =
  (expected (l ++ [a]), exp (log_proposal (10 * initial_stepsize) gamma t0 delta (l ++ [a]) (S (length l)))).
Proof.
  assert (L : length (l ++ [a]) = S (length l)) by (rewrite app_length; cbn; lia).
  unfold ModelHMC.tune, expected. cbn [tn_step tn_log_epsilon_bar tn_h_bar]. rewrite L.
  replace ((1 - 0) * INR (length l) + 1) with (INR (S (length l))) by (rewrite S_INR; ring).
  assert (H : (1 - 0) * (1 - 1 / (INR (S (length l)) + t0)) * shortfall t0 delta l (length l) +
              1 / (INR (S (length l)) + t0) * (delta - a) = shortfall t0 delta (l ++ [a]) (S (length l))).
  { rewrite short_snoc by assumption. rewrite S_INR. ring. }
  rewrite H. unfold mu.
  change (10 * initial_stepsize - sqrt (INR (S (length l))) / gamma * shortfall t0 delta (l ++ [a]) (S (length l)))
    with (log_proposal (10 * initial_stepsize) gamma t0 delta (l ++ [a]) (S (length l))).
  f_equal. f_equal. rewrite aver_snoc. ring.
Qed.
Lemma tune_restart s a : tune s true a true = tune (expected []) true a false.
Proof.
  rewrite expected_nil. unfold ModelHMC.tune, tuner0. cbn [tn_step tn_log_epsilon_bar tn_h_bar].
  replace ((1 - 1) * tn_step s + 1) with 1 by ring. replace ((1 - 0) * 0 + 1) with 1 by ring. cbv zeta.
  replace ((1 - 1) * (1 - 1 / (1 + t0)) * tn_h_bar s) with ((1 - 0) * (1 - 1 / (1 + t0)) * 0) by ring.
  replace ((1 - 1) * (1 - Rpower 1 (- kappa)) * tn_log_epsilon_bar s) with ((1 - 0) * (1 - Rpower 1 (- kappa)) * 0) by ring.
  reflexivity.
Qed.
Lemma after_segment h seg : last_segment h seg -> tuner_after h tuner0 = expected (tuned_rates seg).
Proof.
  assert (C : forall post l, Forall (fun e => ~ restarts e) post -> tuner_after post (expected l) = expected (l ++ tuned_rates post)).
  { induction post as [|e post IH] using rev_ind; intros l F; [cbn; now rewrite app_nil_r|].
    apply Forall_app in F. destruct F as [F Fe]. inversion Fe as [|? ? N _]. subst.
    unfold tuner_after. rewrite fold_left_app. fold (tuner_after post (expected l)). rewrite IH by assumption.
    cbn [fold_left]. rewrite tuned_snoc. unfold restarts in N. destruct (ev_adapt e).
    - destruct (ev_fresh e); [exfalso; apply N; auto|]. rewrite tune_continue. cbn [fst]. now rewrite app_assoc.
    - cbn. now rewrite app_nil_r. }
  intros [pre [-> [[-> F]|[e [post [-> [[R1 R2] F]]]]]]].
  - cbn [app]. rewrite <- expected_nil. rewrite C by assumption. reflexivity.
  - unfold tuner_after. rewrite fold_left_app. cbn [fold_left]. rewrite R1, R2, tune_restart, tune_continue. cbn [fst app].
    fold (tuner_after post (expected [ev_rate e])). rewrite C by assumption. unfold tuned_rates. cbn [filter]. rewrite R1. reflexivity.
Qed.

(** The tuner's state is, for every history, the dual averaging state of the rates
    seen by the iterations that adapted since the last restart. *)
Theorem C27_state h seg : last_segment h seg ->
  let l := tuned_rates seg in
  tn_step (tuner_after h tuner0) = INR (length l) /\
  tn_h_bar (tuner_after h tuner0) = shortfall t0 delta l (length l) /\
  tn_log_epsilon_bar (tuner_after h tuner0) = averaged (10 * initial_stepsize) gamma t0 kappa delta l (length l).
Proof. intros H l. rewrite (after_segment h seg H). repeat split. Qed.
(** Every history has a last segment. *)
Theorem C27_segment_exists h : exists seg, last_segment h seg.
Proof. apply last_segment_exists. Qed.

(** The step size returned by an iteration that adapts. *)
Theorem C27_tuned_step_size h e seg : ev_adapt e = true -> last_segment (h ++ [e]) seg ->
  snd (tune (tuner_after h tuner0) true (ev_rate e) (ev_fresh e)) =
  exp (log_proposal (10 * initial_stepsize) gamma t0 delta (tuned_rates seg) (length (tuned_rates seg))).
Proof.
  intros A [pre [E H]].
  assert (L : exists seg', seg = seg' ++ [e] /\ h = pre ++ seg').
  { destruct seg as [|x s _] using rev_ind.
    - destruct H as [[-> _]|[? [? [? _]]]]; [|discriminate]. rewrite app_nil_r in E. destruct h; discriminate.
    - rewrite app_assoc in E. apply app_inj_tail in E. destruct E as [-> ->]. eauto. }
  destruct L as [seg' [-> ->]]. rewrite tuned_snoc, A.
  destruct (ev_fresh e) eqn:Fr.
  - rewrite tune_restart, tune_continue. cbn [snd length app].
    assert (seg' = []) as ->.
    { destruct H as [[_ F]|[e' [post [X [_ F]]]]].
      - apply Forall_app in F. destruct F as [_ F]. inversion F as [|? ? N _]. exfalso. apply N. split; assumption.
      - destruct seg' as [|y seg']; [reflexivity|]. injection X as -> <-. apply Forall_app in F. destruct F as [_ F].
        inversion F as [|? ? N _]. exfalso. apply N. split; assumption. }
    reflexivity.
  - assert (S' : last_segment (pre ++ seg') seg').
    { exists pre. split; [reflexivity|]. destruct H as [[-> F]|[e' [post [X [R F]]]]]; [left|right].
      - split; [reflexivity|]. apply Forall_app in F. apply F.
      - destruct seg' as [|y seg'].
        + injection X as -> _. destruct R as [_ R]. congruence.
        + injection X as -> <-. exists e', seg'. split; [reflexivity|]. split; [assumption|]. apply Forall_app in F. apply F. }
    rewrite (after_segment _ _ S'), tune_continue. cbn [snd]. rewrite app_length. cbn [length]. now rewrite Nat.add_1_r.
Qed.

(** The averaged log step size is a weighted average of the proposed ones. *)
Theorem C27_weights_average n : 0 <= kappa ->
  (forall i, 0 <= da_weight kappa (S n) (S i)) /\ rsum (S n) (fun i => da_weight kappa (S n) (S i)) = 1.
Proof. intros K. split; [intros; now apply da_weight_nonneg|apply da_weight_sum]. Qed.

(** The returned step size is positive. *)
Theorem C27_step_size_positive s adapt a fresh : 0 < snd (tune s adapt a fresh).
Proof. unfold ModelHMC.tune. destruct adapt; cbn [snd]; apply exp_pos. Qed.

(** While adaptation is off nothing changes and the averaged step size is returned. *)
Theorem C27_frozen s h a fresh : Forall (fun e => ev_adapt e = false) h ->
  tuner_after h s = s /\ snd (tune (tuner_after h s) false a fresh) = exp (tn_log_epsilon_bar s).
Proof.
  intros F. assert (E : tuner_after h s = s); [|rewrite E; split; reflexivity].
  induction F as [|e h N _ IH]; [reflexivity|]. cbn. rewrite N. exact IH.
Qed.

(** Off from the start: the configured step size is replaced by 1. *)
Theorem C27_off_from_start_refuted h a fresh : Forall (fun e => ev_adapt e = false) h ->
  snd (tune (tuner_after h tuner0) false a fresh) = 1.
Proof. intros F. rewrite (proj2 (C27_frozen tuner0 h a fresh F)). cbn. apply exp_0. Qed.

(** The step size the averaging shrinks to is exp(10 * step_size), not the
    10 * step_size of the algorithm: with acceptance always on target this is what
    every iteration proposes. *)
Theorem C27_shrinkage_point_refuted h e seg : ev_adapt e = true -> last_segment (h ++ [e]) seg ->
  Forall (fun x => x = delta) (tuned_rates seg) ->
  snd (tune (tuner_after h tuner0) true (ev_rate e) (ev_fresh e)) = exp (10 * initial_stepsize).
Proof.
  intros A L F. rewrite (C27_tuned_step_size h e seg A L). f_equal. unfold log_proposal, shortfall.
  rewrite rsum_zero; [unfold Rdiv; ring|]. intros k Hk. rewrite Forall_forall in F.
  rewrite (F (nth k (tuned_rates seg) 0)) by (apply nth_In; lia). ring.
Qed.
End Tuning.
Print Assumptions C27_state.
Print Assumptions C27_segment_exists.
Print Assumptions C27_tuned_step_size.
Print Assumptions C27_weights_average.
Print Assumptions C27_step_size_positive.
Print Assumptions C27_frozen.
Print Assumptions C27_off_from_start_refuted.
Print Assumptions C27_shrinkage_point_refuted.

(** A history with a restart in the middle and adaptation switched off at its end. *)
Example history_case : let h := [Event true (1/2) true; Event true (1/4) false; Event true (3/4) true;
                                 Event true 1 false; Event false 0 true] in
  exists seg, last_segment h seg /\ tuned_rates seg = [3/4; 1].
Proof.
  exists [Event true (3/4) true; Event true 1 false; Event false 0 true]. split; [|reflexivity].
  exists [Event true (1/2) true; Event true (1/4) false]. split; [reflexivity|]. right.
  do 2 eexists. split; [reflexivity|]. split; [split; reflexivity|].
  repeat constructor; unfold restarts; cbn; intuition congruence.
Qed.

(** Over a whole run: the tuner restarts and the search result is used exactly at
    iteration 1 and iteration mass_collect_iters; at every other iteration the step
    size used is the one the tuner returned at the previous iteration. *)
Definition iteration := (bool * R * R)%type.  (* adapt flag, search result, mean acceptance *)
Section Runs.
Variables (initial_stepsize gamma t0 kappa delta : R) (collect : Z).
Definition iterate (s : adaptation) (x : iteration) : adaptation :=
  fst (adapt_iter initial_stepsize gamma t0 kappa delta collect s (fst (fst x)) (snd (fst x)) (snd x)).
Definition run_events (h : list iteration) : list event :=
  map (fun k => let '(a, _, r) := nth k h (false, 0, 0) in
                Event a r (Nat.eqb (S k) 1 || (Z.of_nat (S k) =? collect)%Z)) (seq 0 (length h)).
Lemma run_events_snoc h x : run_events (h ++ [x]) =
  run_events h ++ [Event (fst (fst x)) (snd x) (Nat.eqb (S (length h)) 1 || (Z.of_nat (S (length h)) =? collect)%Z)].
Proof.
  unfold run_events. rewrite app_length. cbn [length]. rewrite Nat.add_1_r, seq_S, map_app. cbn [map Nat.add].
  f_equal.
  - apply map_ext_in. intros k Hk. apply in_seq in Hk. rewrite app_nth1 by lia. reflexivity.
  - rewrite app_nth2, Nat.sub_diag by lia. cbn [nth]. destruct x as [[a f] r]. reflexivity.
Qed.
Theorem C27_run h : let s := fold_left iterate h (adaptation0 initial_stepsize) in
  ad_t s = length h /\ ad_tuner s = tuner_after initial_stepsize gamma t0 kappa delta (run_events h) tuner0.
Proof.
  induction h as [|x h IH] using rev_ind; intros s; [split; reflexivity|]. subst s.
  rewrite fold_left_app. cbn [fold_left]. cbv zeta in IH. destruct IH as [T E].
  set (s := fold_left iterate h (adaptation0 initial_stepsize)) in *.
  rewrite run_events_snoc. unfold tuner_after. rewrite fold_left_app.
  fold (tuner_after initial_stepsize gamma t0 kappa delta (run_events h) tuner0).
  rewrite <- E. unfold iterate, adapt_iter, if_initialize_step_size. rewrite T. cbn [fold_left ev_adapt ev_rate ev_fresh].
  destruct (tune _ _ _ _ _ _ _ _ _). cbn [fst ad_t ad_tuner]. split; [|reflexivity].
  rewrite app_length. cbn [length]. lia.
Qed.
Theorem C27_used_step_size h x : let s := fold_left iterate h (adaptation0 initial_stepsize) in
  let used := snd (adapt_iter initial_stepsize gamma t0 kappa delta collect s (fst (fst x)) (snd (fst x)) (snd x)) in
  (length h = 0%nat \/ Z.of_nat (S (length h)) = collect -> used = snd (fst x)) /\
  (forall h' y, h = h' ++ [y] -> Z.of_nat (S (length h)) <> collect ->
     let e := Event (fst (fst y)) (snd y) (Nat.eqb (S (length h')) 1 || (Z.of_nat (S (length h')) =? collect)%Z) in
     used = snd (tune initial_stepsize gamma t0 kappa delta
                   (tuner_after initial_stepsize gamma t0 kappa delta (run_events h') tuner0)
                   (ev_adapt e) (ev_rate e) (ev_fresh e))).
Proof.
  intros s used. destruct (C27_run h) as [T E]. subst used. unfold adapt_iter, if_initialize_step_size.
  subst s. rewrite T. split.
  - intros H. destruct (tune _ _ _ _ _ _ _ _ _). cbn [snd].
    assert (Nat.eqb (S (length h)) 1 || (Z.of_nat (S (length h)) =? collect)%Z = true) as ->; [|reflexivity].
    apply orb_true_iff. rewrite Nat.eqb_eq, Z.eqb_eq. lia.
  - intros h' y Eh N. destruct (tune _ _ _ _ _ (ad_tuner _) _ _ _). cbn [snd].
    assert (Nat.eqb (S (length h)) 1 || (Z.of_nat (S (length h)) =? collect)%Z = false) as ->.
    { apply orb_false_iff. rewrite Nat.eqb_neq, Z.eqb_neq. split; [|exact N]. rewrite Eh, app_length. cbn. lia. }
    rewrite Eh, fold_left_app. cbn [fold_left]. destruct (C27_run h') as [T' E'].
    set (s' := fold_left iterate h' (adaptation0 initial_stepsize)) in *. unfold iterate, adapt_iter, if_initialize_step_size. rewrite T', E'. cbn [ev_adapt ev_rate ev_fresh].
    destruct (tune _ _ _ _ _ _ _ _ _). reflexivity.
Qed.
End Runs.
Print Assumptions C27_run.
Print Assumptions C27_used_step_size.

(** What HMC(...) is given decides: without adapt_step_size the configured step size is
    used at every iteration of every run; with it, the search runs at iteration 1 only,
    or also at iteration mass_collect_iters if adapt_mass is given; adapt_mass alone is
    refused. *)
Theorem C27_not_adapted initial_stepsize gamma t0 kappa delta m collect h x :
  let next s (y : iteration) := hmc_iter false m initial_stepsize gamma t0 kappa delta collect s (fst (fst y)) (snd (fst y)) (snd y) in
  let s := fold_left (fun s y => fst (next s y)) h (adaptation0 initial_stepsize) in
  snd (next s x) = initial_stepsize /\ ad_step_size (fst (next s x)) = initial_stepsize.
Proof.
  intros next s. assert (E : ad_step_size s = initial_stepsize); [|split; exact E].
  subst s. induction h as [|y h IH] using rev_ind; [reflexivity|]. now rewrite fold_left_app.
Qed.
Theorem C27_search_iterations initial_stepsize gamma t0 kappa delta m collect h adapt rate :
  let next s (y : iteration) := hmc_iter true m initial_stepsize gamma t0 kappa delta collect s (fst (fst y)) (snd (fst y)) (snd y) in
  let s := fold_left (fun s y => fst (next s y)) h (adaptation0 initial_stepsize) in
  let t := S (length h) in
  (t = 1%nat \/ m = true /\ Z.of_nat t = collect -> forall found, snd (next s (adapt, found, rate)) = found) /\
  (~ (t = 1%nat \/ m = true /\ Z.of_nat t = collect) -> forall found, snd (next s (adapt, found, rate)) = ad_step_size s).
Proof.
  intros next s t.
  assert (T : ad_t s = length h).
  { subst s. induction h as [|y h IH] using rev_ind; [reflexivity|]. rewrite fold_left_app, app_length, Nat.add_1_r. cbn [fold_left].
    unfold next at 1, hmc_iter, adapt_iter. rewrite IH. destruct (tune _ _ _ _ _ _ _ _ _). reflexivity. }
  unfold next, hmc_iter, adapt_iter. rewrite T. fold t. destruct (if_initialize_step_size _ t) eqn:E.
  - split; intros H found; [now destruct (tune _ _ _ _ _ _ _ _ _)|]. exfalso. apply H.
    apply orb_true_iff in E. rewrite Nat.eqb_eq, Z.eqb_eq in E. destruct E as [E|E]; [now left|]. right.
    unfold effective_collect in E. destruct m; [auto|]. subst t. lia.
  - split; intros H found; [|now destruct (tune _ _ _ _ _ _ _ _ _)]. exfalso.
    apply orb_false_iff in E. rewrite Nat.eqb_neq, Z.eqb_neq in E. destruct E as [E1 E2].
    destruct H as [H|[-> H]]; [contradiction|]. now apply E2.
Qed.
Theorem C28_needs_adapt_step_size s m : hmc_accepts s m = false <-> m = true /\ s = false.
Proof. destruct s, m; cbn; intuition congruence. Qed.
Print Assumptions C27_not_adapted.
Print Assumptions C27_search_iterations.
Print Assumptions C28_needs_adapt_step_size.

(** ** C28: mass *)
Section Mass.
Variable decay : R.
Hypothesis decay_range : 0 < decay < 1.
Notation update := (ewmv_update decay).

(** After any number of updates with batches of chain values, none empty. *)
Theorem C28_exact_moments bs : bs <> [] -> Forall (fun x => x <> []) bs ->
  let s := fold_left update bs ewmv0 in
  ew_mean s = ew_mean_ref decay bs /\ ew_var s = ew_var_ref decay bs.
Proof.
  intros N F s. destruct (ewmv_moments decay bs decay_range F) as [_ [M V]]. fold s in M, V.
  pose proof (ew_weights_pos decay bs (proj1 decay_range) N) as W.
  assert (EM : ew_mean s = ew_mean_ref decay bs).
  { unfold ew_mean_ref, ew_average. rewrite <- M. field. lra. }
  split; [exact EM|]. unfold ew_var_ref, ew_average. rewrite <- EM.
  rewrite (ew_total_ext decay _ (fun x => 1 * second_moment x + 1 * ((-2 * ew_mean s) * mean_of x + ew_mean s ^ 2 * 1))).
  - rewrite !ew_total_lin, <- M, <- V. field. lra.
  - intros x Hx. rewrite Forall_forall in F. rewrite mean_centred by auto. ring.
Qed.

Theorem C28_variance_nonneg bs : Forall (fun x => x <> []) bs -> 0 <= ew_var (fold_left update bs ewmv0).
Proof.
  intros F. destruct bs as [|b bs]; [cbn; lra|].
  destruct (C28_exact_moments (b :: bs)) as [_ ->]; [discriminate|assumption|].
  unfold ew_var_ref, ew_average. apply Rmult_le_pos.
  - apply ew_total_nonneg; [lra|]. intros x _. rewrite mean_map. apply Rmult_le_pos.
    + induction x; cbn [total]; [lra|]. apply Rplus_le_le_0_compat; [|assumption]. apply pow2_ge_0.
    + destruct x; [cbn; rewrite Rinv_0; lra|]. apply Rlt_le, Rinv_0_lt_compat, lt_0_INR. cbn; lia.
  - apply Rlt_le, Rinv_0_lt_compat, ew_weights_pos; [lra|discriminate].
Qed.

(** The variance vanishes exactly when all values seen are equal. *)
Theorem C28_variance_zero_iff bs : bs <> [] -> Forall (fun x => x <> []) bs ->
  (ew_var (fold_left update bs ewmv0) = 0 <-> exists m, forall x v, In x bs -> In v x -> v = m).
Proof.
  intros N F. destruct (C28_exact_moments bs N F) as [EM EV].
  pose proof (ew_weights_pos decay bs (proj1 decay_range) N) as W.
  assert (NN : forall x m, 0 <= mean_of (map (fun v => (v - m) ^ 2) x)).
  { intros x m. rewrite mean_map. destruct x as [|a x]; [cbn; lra|]. apply Rmult_le_pos.
    - generalize (a :: x). intros l. induction l; cbn [total]; [lra|]. apply Rplus_le_le_0_compat; [|assumption]. apply pow2_ge_0.
    - apply Rlt_le, Rinv_0_lt_compat, lt_0_INR. cbn; lia. }
  split.
  - intros Z. exists (ew_mean_ref decay bs). intros x v Hx Hv. rewrite EV in Z.
    destruct (Req_dec v (ew_mean_ref decay bs)) as [|D]; [assumption|exfalso].
    assert (P : 0 < ew_total decay (fun x => mean_of (map (fun v => (v - ew_mean_ref decay bs) ^ 2) x)) bs).
    { apply (ew_total_pos decay _ bs x); [lra|intros; apply NN|assumption|].
      rewrite mean_map. apply Rmult_lt_0_compat.
      - clear Hx. induction x as [|a x IH]; [destruct Hv|]. cbn [total]. destruct Hv as [->|Hv].
        + apply Rplus_lt_le_0_compat; [rewrite <- Rsqr_pow2; apply Rsqr_pos_lt; lra|].
          clear. induction x; cbn [total]; [lra|]. apply Rplus_le_le_0_compat; [apply pow2_ge_0|assumption].
        + apply Rplus_le_lt_0_compat; [apply pow2_ge_0|auto].
      - apply Rinv_0_lt_compat, lt_0_INR. destruct x; [destruct Hv|cbn; lia]. }
    unfold ew_var_ref, ew_average in Z. apply Rmult_integral in Z.
    destruct Z as [Z|Z]; [lra|]. pose proof (Rinv_0_lt_compat _ W). lra.
  - intros [m Hm]. rewrite EV.
    assert (Em : ew_mean_ref decay bs = m).
    { unfold ew_mean_ref, ew_average. rewrite (ew_total_ext decay mean_of (fun x => m * 1 + 0 * 0)).
      - rewrite ew_total_lin. field. lra.
      - intros x Hx. unfold mean_of. rewrite Forall_forall in F. specialize (F x Hx). specialize (Hm x).
        assert (E : total (fun v => v) x = m * INR (length x)).
        { clear F. assert (G : forall v, In v x -> v = m) by auto. clear Hm Hx. induction x as [|a x IH]; cbn [total length]; [cbn; ring|].
          rewrite IH by (intros; apply G; now right). rewrite (G a) by now left. rewrite S_INR. ring. }
        rewrite E. field. apply not_0_INR. now destruct x. }
    unfold ew_var_ref, ew_average. rewrite Em. rewrite (ew_total_ext decay _ (fun x => 0 * 0 + 0 * 0)).
    + rewrite ew_total_lin. unfold Rdiv. ring.
    + intros x Hx. rewrite mean_map. rewrite (total_ext _ (fun _ => 0)).
      * replace (total (fun _ => 0) x) with 0; [unfold Rdiv; ring|]. clear. induction x; cbn [total]; lra.
      * intros v Hv. rewrite (Hm x v Hx Hv). ring.
Qed.

(** The mass: one until mass_collect_iters, then the inverse of that variance; batches
    seen while adapt_mass is off are ignored. *)
Definition mass_state (h : list (bool * list R)) : ewmv :=
  fold_left (fun s x => fst (adapt_mass decay 0 s (fst x) 0 (snd x))) h ewmv0.
Theorem C28_mass collect h adapt t x :
  let seen := map snd (filter fst (h ++ [(adapt, x)])) in
  seen <> [] -> Forall (fun b => b <> []) seen ->
  snd (hmc_mass true decay collect (mass_state h) adapt t x) =
    (if (Z.of_nat t <? collect)%Z then Fi 1 else
     if Req_EM_T (ew_var_ref decay seen) 0 then PInf else Fi (1 / ew_var_ref decay seen)).
Proof.
  intros seen N F. unfold hmc_mass, adapt_mass. cbn [snd].
  assert (E : forall h, mass_state h = fold_left update (map snd (filter fst h)) ewmv0).
  { clear. intros h. unfold mass_state. generalize ewmv0. induction h as [|[a y] h IH]; intros s; [reflexivity|].
    cbn [fold_left filter fst]. rewrite IH. destruct a; reflexivity. }
  assert (Es : (if adapt then update (mass_state h) x else mass_state h) = fold_left update seen ewmv0).
  { subst seen. rewrite filter_app, map_app, fold_left_app, <- E. destruct adapt; reflexivity. }
  rewrite Es. unfold precision. destruct (C28_exact_moments seen N F) as [_ ->].
  destruct (Z.ltb _ _); [reflexivity|]. cbn [ediv]. destruct Req_EM_T; [|reflexivity].
  destruct (Rlt_dec 0 1); [reflexivity|lra].
Qed.
(** Without adapt_mass the mass is one throughout; with it, it is the above. *)
Theorem C28_not_adapted collect s adapt t x : snd (hmc_mass false decay collect s adapt t x) = Fi 1.
Proof. reflexivity. Qed.
Theorem C28_unit_mass_before_collection collect s adapt t x : (Z.of_nat t < collect)%Z ->
  snd (adapt_mass decay collect s adapt t x) = Fi 1.
Proof. intros H. unfold adapt_mass. cbn [snd]. apply Z.ltb_lt in H. now rewrite H. Qed.
(** Mass adaptation off from the start: the mass becomes infinite. *)
Theorem C28_off_from_start_refuted collect h t x : Forall (fun b => fst b = false) h -> (collect <= Z.of_nat t)%Z ->
  snd (adapt_mass decay collect (mass_state h) false t x) = PInf.
Proof.
  intros F C. assert (E : mass_state h = ewmv0).
  { unfold mass_state. induction F as [|[a y] h N _ IH]; [reflexivity|]. cbn in N. subst. exact IH. }
  rewrite E. unfold adapt_mass. cbn [snd]. apply Z.ltb_ge in C. rewrite C. unfold precision, ewmv0. cbn [ew_var ediv].
  destruct (Req_EM_T 0 0); [|lra]. destruct (Rlt_dec 0 1); [reflexivity|lra].
Qed.
End Mass.
Print Assumptions C28_exact_moments.
Print Assumptions C28_variance_nonneg.
Print Assumptions C28_variance_zero_iff.
Print Assumptions C28_mass.
Print Assumptions C28_not_adapted.
Print Assumptions C28_unit_mass_before_collection.
Print Assumptions C28_off_from_start_refuted.

(** Two batches from two chains. *)
Example mass_case : let bs := [[0; 1]; [2; 3]] in
  bs <> [] /\ Forall (fun x => x <> []) bs /\ ew_mean_ref (1/2) bs = 11 / 6.
Proof.
  split; [discriminate|]. split; [repeat constructor; discriminate|].
  unfold ew_mean_ref, ew_average, ew_total, rsum, mean_of. cbn. field.
Qed.

(** ** C29: the initial step size search *)
Section InitialSearch.
Variables (acc : R -> R) (target : R).
Notation result := (init_step_size acc target).

(** At most one result. *)
Theorem C29_deterministic e r r' : result e r -> result e r' -> r = r'.
Proof. intros [f H] [f' H']. exact (search_det _ _ _ _ _ _ _ _ _ H H'). Qed.

(** It is the initial step size times a power of 1.5. *)
Theorem C29_power e r : result e r -> exists k, r = e * powerRZ (3/2) k.
Proof.
  intros [f H]. revert H. generalize true 1. revert e. induction f; intros e c l H.
  - destruct c; [discriminate|]. rewrite search_stop in H. injection H as <-. exists 0%Z. cbn. ring.
  - destruct c; [|rewrite search_stop in H; injection H as <-; exists 0%Z; cbn; ring].
    rewrite search_unfold in H. apply IHf in H. destruct H as [k Hk]. destruct (lessb (acc e) target).
    + exists (k - 1)%Z. unfold Z.sub. rewrite powerRZ_add by lra. rewrite Hk.
      change (powerRZ (3/2) (- (1))) with (/ ((3/2) ^ 1)). generalize (powerRZ (3/2) k). intros. field.
    + exists (k + 1)%Z. rewrite powerRZ_add by lra. rewrite Hk.
      change (powerRZ (3/2) 1) with ((3/2) ^ 1). generalize (powerRZ (3/2) k). intros. field.
Qed.

Hypothesis target_le_1 : target <= 1.
Lemma grow n : forall e l, target <= l -> (forall j, (j < n)%nat -> target <= acc (e * (3/2) ^ j)) ->
  forall f, search acc target (n + f) e l true =
            search acc target f (e * (3/2) ^ n) (match n with O => l | S m => acc (e * (3/2) ^ m) end) true.
Proof.
  induction n as [|n IH]; intros e l Hl H f; [cbn; now rewrite Rmult_1_r|].
  cbn [Nat.add]. rewrite search_unfold.
  assert (A : target <= acc e) by (specialize (H 0%nat ltac:(lia)); now rewrite Rmult_1_r in H).
  rewrite (proj2 (lessb_false _ _) A), (proj2 (lessb_false _ _) Hl). cbn [xorb negb].
  rewrite IH; [|assumption|].
  - cbn [pow]. rewrite <- Rmult_assoc. destruct n; [cbn; now rewrite !Rmult_1_r|]. cbn [pow]. now rewrite !Rmult_assoc.
  - intros j Hj. specialize (H (S j) ltac:(lia)). cbn [pow] in H. now rewrite <- Rmult_assoc in H.
Qed.

(** An acceptable first trial: the step size grows to the first one below target, and
    the last acceptable one is returned. *)
Theorem C29_grows_to_crossing e n : (forall j, (j <= n)%nat -> target <= acc (e * (3/2) ^ j)) ->
  acc (e * (3/2) ^ S n) < target -> result e (e * (3/2) ^ n).
Proof.
  intros H L. exists (S n + 1)%nat. rewrite grow; [|assumption|intros; apply H; lia].
  rewrite search_unfold. rewrite (proj2 (lessb_true _ _) L), (proj2 (lessb_false _ _) (H n (le_n n))).
  cbn [xorb negb]. rewrite search_stop. f_equal. cbn [pow]. field.
Qed.
Theorem C29_terminates_iff e : target <= acc e -> ((exists r, result e r) <-> exists n, acc (e * (3/2) ^ n) < target).
Proof.
  intros A. split.
  - intros [r [f H]].
    destruct (Classical_Prop.classic (exists n, acc (e * (3/2) ^ n) < target)) as [|N]; [assumption|exfalso].
    assert (Hall : forall j, target <= acc (e * (3/2) ^ j)).
    { intros j. destruct (Rlt_le_dec (acc (e * (3/2) ^ j)) target); [exfalso; eauto|assumption]. }
    pose proof (grow f e 1 target_le_1 (fun j _ => Hall j) 0) as G. rewrite Nat.add_0_r in G. rewrite G in H. discriminate.
  - intros [n L].
    assert (M : exists m, (forall j, (j <= m)%nat -> target <= acc (e * (3/2) ^ j)) /\ acc (e * (3/2) ^ S m) < target).
    { revert L. induction n as [|n IH]; intros L; [rewrite Rmult_1_r in L; lra|].
      destruct (Classical_Prop.classic (exists j, (j <= n)%nat /\ acc (e * (3/2) ^ j) < target)) as [[j [Lj Hj]]|N].
      - clear IH L. induction j as [j IHj] using lt_wf_ind.
        destruct (Classical_Prop.classic (exists i, (i < j)%nat /\ acc (e * (3/2) ^ i) < target)) as [[i [Li Hi]]|Ni].
        + apply (IHj i); [assumption|lia|assumption].
        + destruct j as [|j]; [rewrite Rmult_1_r in Hj; lra|]. exists j. split; [|assumption].
          intros i Hi. destruct (Rlt_le_dec (acc (e * (3/2) ^ i)) target); [|assumption]. exfalso. apply Ni. exists i. split; [lia|assumption].
      - exists n. split; [|assumption]. intros j Hj. destruct (Rlt_le_dec (acc (e * (3/2) ^ j)) target); [|assumption].
        exfalso. apply N. eauto. }
    destruct M as [m [Hm Lm]]. exists (e * (3/2) ^ m). now apply C29_grows_to_crossing.
Qed.
(** A first trial below target: one reduction, whatever the acceptance there. *)
Theorem C29_single_reduction_refuted e : acc e < target -> result e (e / (3/2)).
Proof.
  intros L. exists 1%nat. rewrite search_unfold. rewrite (proj2 (lessb_true _ _) L), (proj2 (lessb_false _ _) target_le_1).
  cbn [xorb negb]. rewrite search_stop. f_equal. field.
Qed.
End InitialSearch.
(** With a target above one the search never ends. *)
Theorem C29_target_above_one acc target e r : (forall x, acc x <= 1) -> 1 < target -> ~ init_step_size acc target e r.
Proof.
  intros A T [f H]. assert (G : forall f e l, l <= 1 -> search acc target f e l true = None).
  { clear - A T. induction f; intros e l Hl; [reflexivity|]. rewrite search_unfold.
    rewrite (proj2 (lessb_true l target)), (proj2 (lessb_true (acc e) target)) by (try specialize (A e); lra).
    cbn [xorb negb]. apply IHf, A. }
  rewrite G in H; [discriminate|lra].
Qed.
Print Assumptions C29_deterministic.
Print Assumptions C29_power.
Print Assumptions C29_grows_to_crossing.
Print Assumptions C29_terminates_iff.
Print Assumptions C29_single_reduction_refuted.
Print Assumptions C29_target_above_one.

(** The acceptance the search looks at: the mean over chains of the acceptance rate of
    one kick-drift-kick step, a number between 0 and 1. *)
Theorem C29_trial_is_one_leapfrog {I} (grad : (I -> R) -> I -> R) mass eps q p :
  trial_step grad mass eps q p = leapfrog grad mass 1 eps q p.
Proof. reflexivity. Qed.
Theorem C29_trial_acceptance chain data log_post grad mass q p eps :
  indices chain <> [] ->
  exists a, trial_acceptance chain data log_post grad mass q p eps = Fi a /\ 0 <= a <= 1.
Proof.
  intros N. unfold trial_acceptance. destruct (trial_step _ _ _ _ _) as [q' p'].
  set (rate := fun c => snd (chain_rate data log_post mass q p q' p' c)).
  assert (R : forall c, In c (indices chain) -> exists a, rate c = Fi a /\ 0 <= a <= 1).
  { intros c I. unfold rate, chain_rate.
    destruct (get_acceptance_rate _ _ _ _) as [[[[? ?] ?] ?] a] eqn:G.
    apply C25_rate_range in G. destruct G as [r [-> Hr]]. cbn. eauto. }
  assert (S : exists x, reduce_sum (map rate (indices chain)) = Fi x /\ 0 <= x <= INR (length (indices chain))).
  { clear N. induction (indices chain) as [|c l IH].
    - exists 0. split; [reflexivity|]. cbn. lra.
    - destruct IH as [x [E B]]; [intros; apply R; now right|]. destruct (R c) as [a [Ea Ba]]; [now left|].
      exists (a + x). cbn [map length]. unfold reduce_sum. cbn [fold_right]. fold (reduce_sum (map rate l)). rewrite E, Ea.
      split; [reflexivity|]. rewrite S_INR. lra. }
  destruct S as [x [E B]]. unfold reduce_mean. rewrite E, map_length. cbn [ediv].
  assert (P : 0 < INR (length (indices chain))) by (destruct (indices chain); [congruence|apply lt_0_INR; cbn; lia]).
  destruct Req_EM_T; [lra|]. eexists. split; [reflexivity|]. split.
  - apply Rmult_le_pos; [lra|]. apply Rlt_le, Rinv_0_lt_compat, P.
  - apply Rmult_le_reg_r with (INR (length (indices chain))); [assumption|]. field_simplify; lra.
Qed.
(** Where the log-densities before and after are finite, it is the average over the
    chains of min(1, exp(H_old - H_new)), H_new being the energy one leapfrog step away. *)
Theorem C29_trial_rate chain data log_post grad mass q p eps Cs L (l l' : index -> R) :
  lists_entries data L -> (forall k d, In (k, d) L -> 0 < mass k d) ->
  NoDup Cs -> (forall c, In c Cs <-> valid chain c) -> Cs <> [] ->
  let M : state := fun x => mass (fst x) (skipn (length chain) (snd x)) in
  let q' := fst (leapfrog grad M 1 eps q p) in
  let p' := snd (leapfrog grad M 1 eps q p) in
  (forall c, valid chain c -> log_post q c = Fi (l c) /\ log_post q' c = Fi (l' c)) ->
  let H := fun v (r : state) c => energy v (map (fun x => (r (fst x, c ++ snd x), mass (fst x) (snd x))) L) in
  trial_acceptance chain data log_post grad mass q p eps =
  Fi (fold_right Rplus 0 (map (fun c => Rmin 1 (exp (H (l c) p c - H (l' c) p' c))) Cs) / INR (length Cs)).
Proof.
  intros [N In_L] Mp Nc Ic Ne M q' p' Fl H. unfold trial_acceptance.
  change (full_mass chain mass) with M. rewrite C29_trial_is_one_leapfrog. unfold q', p' in *.
  destruct (leapfrog grad M 1 eps q p) as [q1 p1]. cbn [fst snd] in *.
  assert (P : Permutation (entries data) L).
  { apply NoDup_Permutation; [apply (entries_listed chain data mass)|exact N|]. intros [k d]. rewrite In_L. apply (entries_listed chain data mass). }
  assert (Pc : Permutation (indices chain) Cs).
  { apply NoDup_Permutation; [apply nodup_indices|exact Nc|]. intros c. rewrite Ic. apply indices_valid. }
  assert (F : forall (s : state) c, momenta data mass s c =
              finite_pairs (map (fun x => (s (fst x, c ++ snd x), mass (fst x) (snd x))) (entries data))).
  { intros s c. unfold momenta, finite_pairs. rewrite map_map. reflexivity. }
  assert (Pm : forall (s : state) c, positive_masses (map (fun x => (s (fst x, c ++ snd x), mass (fst x) (snd x))) (entries data))).
  { intros s c. unfold positive_masses. rewrite Forall_map. apply Forall_forall. intros [k d] I. cbn [fst snd]. apply Mp.
    eapply Permutation_in; eassumption. }
  set (a := fun c => Rmin 1 (exp (H (l c) p c - H (l' c) p1 c))).
  assert (E : map (fun c => snd (chain_rate data log_post mass q p q1 p1 c)) (indices chain) =
              map (fun c => Fi (a c)) (indices chain)).
  { apply map_ext_in. intros c I. destruct (Fl c (proj1 (indices_valid _ _) I)) as [E E']. unfold chain_rate.
    rewrite E, E', !F, C25_rate_formula by apply Pm. unfold a, H. now rewrite !(energy_permutation _ _ _ _ P). }
  rewrite E. unfold reduce_mean. rewrite map_length.
  assert (S : forall x, reduce_sum (map (fun c => Fi (a c)) x) = Fi (fold_right Rplus 0 (map a x))).
  { induction x as [|c x IH]; [reflexivity|]. unfold reduce_sum in *. cbn [map fold_right]. rewrite IH. reflexivity. }
  rewrite S. rewrite (Permutation_length Pc). cbn [ediv].
  assert (Q : 0 < INR (length Cs)) by (destruct Cs; [congruence|apply lt_0_INR; cbn; lia]).
  destruct Req_EM_T; [lra|]. do 2 f_equal. clear - Pc. induction Pc; cbn; lra.
Qed.
Print Assumptions C29_trial_rate.
(** Two chains of a scalar latent, standard normal target. *)
Example trial_rate_case :
  let data := [[]] in let chain := [2%nat] in
  let Cs := [[0%nat]; [1%nat]] in let L := [(0%nat, [])] in
  let lp := fun (s : state) (c : index) => Fi (- s (0%nat, c) ^ 2 / 2) in
  lists_entries data L /\ NoDup Cs /\ (forall c, In c Cs <-> valid chain c) /\ Cs <> [] /\
  forall (grad : state -> state) q p eps, exists a,
    trial_acceptance chain data lp grad (fun _ _ => 1) q p eps = Fi (a / 2).
Proof.
  intros data chain Cs L lp.
  assert (A1 : lists_entries data L).
  { split; [repeat constructor; intros []|]. intros k d. unfold L, data. split.
    - intros [E|[]]. injection E as <- <-. exists []. split; [reflexivity|]. split; [reflexivity|]. cbn. intros; lia.
    - intros [ds [Hk V]]. destruct k as [|[|k]]; try discriminate. injection Hk as <-.
      destruct d as [|x d]; [now left|]. destruct V; discriminate. }
  assert (A2 : NoDup Cs) by (repeat constructor; cbn; intuition discriminate).
  assert (A3 : forall c, In c Cs <-> valid chain c).
  { intros c. rewrite <- indices_valid. reflexivity. }
  split; [exact A1|]. split; [exact A2|]. split; [exact A3|]. split; [discriminate|].
  intros grad q p eps. rewrite (C29_trial_rate chain data lp grad (fun _ _ => 1) q p eps Cs L
    (fun c => - q (0%nat, c) ^ 2 / 2) (fun c => - fst (leapfrog grad (fun _ => 1) 1 eps q p) (0%nat, c) ^ 2 / 2)); auto.
  - cbn [length]. replace (INR 2) with 2 by (cbn; lra). eexists. reflexivity.
  - intros. lra.
  - discriminate.
Qed.
Print Assumptions C29_trial_is_one_leapfrog.
Print Assumptions C29_trial_acceptance.

(** Acceptance 1/(1+eps), target 0.3, from step size 1: 27/8 is the first trial below
    target, so the search returns 9/4. *)
Example search_case : let acc := fun eps => 1 / (1 + eps) in
  (forall j, (j <= 2)%nat -> 3/10 <= acc (1 * (3/2) ^ j)) /\ acc (1 * (3/2) ^ 3) < 3/10.
Proof.
  split.
  - intros j Hj. destruct j as [|[|[|j]]]; [| | |lia]; cbn; field_simplify; lra.
  - cbn. field_simplify. lra.
Qed.
