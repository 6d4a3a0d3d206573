(** C72: AIS with many chains. *)
From Coq Require Import Reals Lra List Arith Lia FunctionalExtensionality.
From Coquelicot Require Import Coquelicot.
From Verif Require Import ModelDist ModelAIS ModelVI SpecDist SpecVI SpecAIS SpecChance SpecAISLaw ProofDiscrete ProofVI ProofAIS ProofAISLaw ProofChance PropAIS PropELBO PropIW PropChance.
Import ListNotations.
Local Open Scope R_scope.

Section Chains.
Context {X : Type} (Xs : list X) (log_prior log_joint : X -> R) (kernel : R -> X -> X -> R) (n n_adapt : nat).
Hypothesis prior : distribution (fun x => exp (log_prior x)) Xs.
Hypothesis temperatures : (0 < n)%nat.
Hypothesis transitions : forall k, (1 <= k <= n)%nat -> transition Xs (kernel (schedule_t n (INR k))).
Let weights (K : nat) (s : list X) : E (list R) :=
  ais_log_weights e_ret e_bind (draw_prior Xs log_prior K) (move Xs log_prior log_joint kernel) (report log_prior log_joint) n n_adapt s.
Let run (K : nat) (s : list X) : E R :=
  ais_run e_ret e_bind (draw_prior Xs log_prior K) (move Xs log_prior log_joint kernel) (report log_prior log_joint) n n_adapt s.
Let Z := total (fun x => exp (log_joint x)) Xs.
Let one : E R := fun f => expect (fun x => exp (log_prior x)) Xs (fun x => chain Xs log_prior log_joint kernel n n 0 x (- log_fn log_prior log_joint 0 x) f).

Lemma combine_self {A B C} (c : A -> B -> C) (h : A -> B) K : forall xs, length xs = K -> map (fun p => c (fst p) (snd p)) (combine xs (map h xs)) = map (fun p => fst p (snd p)) (combine (repeat (fun x => c x (h x)) K) xs).
Proof. induction K as [|K IH]; intros [|x xs] L; try discriminate; [reflexivity|]. cbn [map combine repeat fst snd]. f_equal. apply IH. now injection L. Qed.
Lemma phase_total K s : sized Xs K s -> expectation (sized Xs K) (adapt e_ret e_bind (move Xs log_prior log_joint kernel) n_adapt (schedule_t n (if (1 <? n)%nat then 2 else 1)) s).
Proof.
  assert (exists k, (1 <= k <= n)%nat /\ (if (1 <? n)%nat then 2 else 1) = INR k) as (k & Hk & ->) by (destruct (Nat.ltb_spec 1 n); [exists 2%nat|exists 1%nat]; (split; [lia|]); cbn; ring).
  now apply (expectation_adapt Xs _ _ kernel K n).
Qed.
Lemma weights_each K s F : weights K s F = each (repeat one K) F.
Proof.
  assert (Body : forall s2, draw_prior Xs log_prior K s2 (fun s3 => report log_prior log_joint 0 s3 (fun l => anneal e_ret e_bind (move Xs log_prior log_joint kernel) n n 0 s3 (map Ropp l) F)) = each (repeat one K) F).
  { intros s2. set (c := fun x => chain Xs log_prior log_joint kernel n n 0 x (- log_fn log_prior log_joint 0 x)).
    rewrite (expectation_ext _ _ _ (fun xs => each (map (fun p => fst p (snd p)) (combine (repeat c K) xs)) F) (expectation_prior Xs log_prior K prior s2)).
    - unfold draw_prior. rewrite independent_each.
      + f_equal. unfold one, c. clear. induction K as [|K IH]; [reflexivity|]. cbn [repeat combine map fst snd]. now rewrite IH.
      + apply Forall_forall. intros q Hq. apply repeat_spec in Hq. now subst.
      + now rewrite !repeat_length.
      + intros g x Hg Hx. apply repeat_spec in Hg. subst g. unfold c. apply finite_chain; [exact transitions|lia|exact Hx].
    - intros xs (L & I). unfold report. rewrite map_map. rewrite (anneal_each Xs log_prior log_joint kernel n transitions); [|lia|exact I|now rewrite map_length]. f_equal. apply (combine_self (chain Xs log_prior log_joint kernel n n 0) (fun x => - log_fn log_prior log_joint 0 x)). exact L. }
  unfold weights, ais_log_weights, e_bind.
  rewrite (expectation_ext _ _ _ (fun _ => each (repeat one K) F) (expectation_prior Xs log_prior K prior s)).
  - apply (expectation_const _ _ _ (expectation_prior Xs log_prior K prior s)).
  - intros s1 S1. pose proof (phase_total K s1 S1) as EP. rewrite (expectation_ext _ _ _ (fun _ => each (repeat one K) F) EP).
    + apply (expectation_const _ _ _ EP).
    + intros s2 _. apply Body.
Qed.
Lemma one_finite : finite (fun _ => True) one.
Proof.
  apply (finite_bind (fun x => In x Xs) _ (expect (fun x => exp (log_prior x)) Xs) (fun x => chain Xs log_prior log_joint kernel n n 0 x (- log_fn log_prior log_joint 0 x))); [now apply finite_expect|].
  intros x Hx. apply finite_chain; [exact transitions|lia|exact Hx].
Qed.
Lemma one_weights s f : one f = weights 1 s (fun l => f (hd 0 l)).
Proof. rewrite weights_each. reflexivity. Qed.

(** The log weights of K chains are K independent draws of one law, which does not depend on
    K or on the state in which the session is found. *)
Theorem C72_independent : exists law, distribution fst law /\ forall K s F, weights K s F = draws_of law K F.
Proof.
  destruct one_finite as (law & P & H). exists law. split.
  - split; [intros p Hp; rewrite Forall_forall in P; now apply P|]. transitivity (one (fun _ => 1)); [rewrite H; apply total_ext; intros; ring|].
    rewrite (one_weights []). apply (expectation_const _ _ _ (expectation_weights Xs log_prior log_joint kernel 1 n n_adapt prior (le_n 1) temperatures transitions [])).
  - intros K s F. rewrite weights_each. now apply each_repeat.
Qed.

Hypothesis stationary : forall k, (1 <= k < n)%nat -> invariant Xs log_prior log_joint (schedule_t n (INR k)) (kernel (schedule_t n (INR k))).
Lemma Z_pos : 0 < Z.
Proof. apply total_pos; [intros ->; destruct prior as [_ E0]; cbn in E0; lra|intros; apply exp_pos]. Qed.
Lemma law_facts s : exists law, distribution fst law /\ (forall K s F, weights K s F = draws_of law K F) /\
  expect fst law (fun p => exp (snd p)) = Z /\ variance fst law (fun p => exp (snd p)) = weights 1 s (fun l => (exp (hd 0 l) - Z) ^ 2).
Proof.
  destruct C72_independent as (law & D & H). exists law. split; [exact D|]. split; [exact H|].
  assert (M : expect fst law (fun p => exp (snd p)) = Z).
  { unfold Z. rewrite <- (C44_unbiased Xs log_prior log_joint kernel 1 n n_adapt prior (le_n 1) temperatures transitions stationary s). fold (weights 1 s). rewrite H. unfold draws_of. cbn [expects]. apply expect_ext. intros p _. unfold mean. cbn. field. }
  split; [exact M|]. rewrite H. unfold draws_of, variance. rewrite M. reflexivity.
Qed.
Lemma mean_form (ps : list (R * R)) : mean (map exp (map snd ps)) = total (fun p => exp (snd p)) ps / INR (length ps).
Proof. unfold mean. rewrite !map_length, map_map, total_map. reflexivity. Qed.

(** The average weight of K chains has mean squared error Var / K around the marginal
    likelihood, Var being the variance of the weight of a single chain. *)
Theorem C72_mean_squared_error K s : (1 <= K)%nat ->
  let Z := total (fun x => exp (log_joint x)) Xs in
  weights K s (fun lw => (mean (map exp lw) - Z) ^ 2) = weights 1 s (fun lw => (exp (hd 0 lw) - Z) ^ 2) / INR K.
Proof.
  intros HK Z'. change Z' with Z. destruct (law_facts s) as (law & D & H & M & V). rewrite <- V, H. unfold draws_of. rewrite <- M. apply (mse_mean fst law D (fun p => exp (snd p)) (fun ps => mean (map exp (map snd ps))) K HK).
  intros ps L. rewrite mean_form, L. reflexivity.
Qed.

(** The value a run reports gets close to the log marginal likelihood: the probability of an
    error of eps or more is at most Var / (K (Z (1 - e^-eps))^2), so it vanishes as the number
    of chains grows. *)
Theorem C72_converges s eps : 0 < eps ->
  let Z := total (fun x => exp (log_joint x)) Xs in let var := weights 1 s (fun lw => (exp (hd 0 lw) - Z) ^ 2) in
  (forall K, (1 <= K)%nat -> probability_off (run K s) (ln Z) eps <= var / (INR K * (Z * (1 - exp (- eps))) ^ 2)) /\
  is_lim_seq (fun K => probability_off (run K s) (ln Z) eps) 0.
Proof.
  intros He Z' var. change Z' with Z in *. destruct (law_facts s) as (law & D & H & M & V). fold var in V.
  set (v := fun ps : list (R * R) => lower_bound (map snd ps)).
  assert (Q : forall K, probability_off (run K s) (ln Z) eps = chance_off fst law K eps v (ln Z)) by (intros K; change (weights K s (fun l => if Rle_dec eps (Rabs (lower_bound l - ln Z)) then 1 else 0) = chance_off fst law K eps v (ln Z)); now rewrite H).
  assert (B : forall K, (1 <= K)%nat -> forall e, 0 < e -> chance_off fst law K e v (ln Z) <= var / (INR K * (Z * (1 - exp (- e))) ^ 2)).
  { intros K HK e Pe. rewrite <- M, <- V. apply (log_off fst law D (fun p => exp (snd p)) v K e); [rewrite M; apply Z_pos|exact HK|exact Pe|]. intros ps Hp. destruct (possible_some _ _ _ _ HK Hp) as (N & L). split; [apply total_pos; [exact N|intros; apply exp_pos]|].
    unfold v. rewrite C44_log_mean_weight by (intros Q0; apply N, (map_eq_nil _ _ Q0)). unfold ln_mean_exp. now rewrite mean_form, L. }
  split; [intros K HK; rewrite Q; now apply B|].
  apply (is_lim_seq_ext (fun K => chance_off fst law K eps v (ln Z))); [intros K; symmetry; apply Q|].
  apply (vanishing fst law D v (ln Z) (fun e => var / (Z * (1 - exp (- e))) ^ 2)); [|exact He]. intros K e HK Pe. eapply Rle_trans; [now apply B|]. pose proof Z_pos. assert (exp (- e) < 1) by (rewrite <- exp_0; apply exp_increasing; lra). apply Req_le. field. repeat split; try lra; apply not_0_INR; lia.
Qed.

(** Whatever the number of chains, a run seldom reports much more than the log marginal
    likelihood: b more has probability at most e^-b. *)
Theorem C72_seldom_above K s b : (1 <= K)%nat ->
  probability_above (run K s) (ln (total (fun x => exp (log_joint x)) Xs) + b) <= exp (- b).
Proof.
  intros HK. fold Z. pose proof Z_pos as PZ. change (weights K s (fun l => if Rle_dec (ln Z + b) (lower_bound l) then 1 else 0) <= exp (- b)).
  assert (EW : expectation (fun l => length l = K) (weights K s)) by exact (expectation_weights Xs log_prior log_joint kernel K n n_adapt prior HK temperatures transitions s).
  apply Rle_trans with (weights K s (fun l => 0 + (exp (- b) / Z) * mean (map exp l))).
  - apply (proj1 EW). intros l L. assert (N : l <> []) by (intros ->; cbn in L; lia). rewrite C44_log_mean_weight by exact N. unfold ln_mean_exp. assert (P : 0 < mean (map exp l)) by (unfold mean; rewrite map_length, total_map; apply Rdiv_lt_0_compat; [apply total_pos; [exact N|intros; apply exp_pos]|now apply len_pos]).
    pose proof (exp_pos (- b)) as Pb. assert (Pq : 0 < exp (- b) / Z) by now apply Rdiv_lt_0_compat. destruct (Rle_dec _ _) as [G|_]; [|nra].
    assert (G' : Z * exp b <= mean (map exp l)). { rewrite <- (exp_ln _ P), <- (exp_ln Z PZ) at 1. rewrite <- exp_plus. destruct G as [G|G]; [left; now apply exp_increasing|right; now f_equal]. }
    assert (Y : exp b * exp (- b) = 1) by (rewrite <- exp_plus, Rplus_opp_r, exp_0; reflexivity). apply Rle_trans with (0 + exp (- b) / Z * (Z * exp b)); [right; field_simplify; [|lra]; lra|]. apply Rplus_le_compat_l, Rmult_le_compat_l; lra.
  - rewrite (proj2 EW 0 (exp (- b) / Z) (fun l => mean (map exp l))). unfold weights. rewrite (C44_unbiased Xs log_prior log_joint kernel K n n_adapt prior HK temperatures transitions stationary s). fold Z. right. field. lra.
Qed.
End Chains.
Print Assumptions C72_independent.
Print Assumptions C72_mean_squared_error.
Print Assumptions C72_converges.
Print Assumptions C72_seldom_above.

(** ** The importance weighted objective and is_loglikelihood *)
(** They too seldom report much more than the log likelihood, whatever the number of draws and
    the variational posterior. *)
Theorem C72_importance {Z} (Zs : list Z) q lj lqs theta p v K b :
  distribution q Zs -> log_probs_of q lqs theta Zs -> (forall z, In z Zs -> 0 < p z /\ at_param lj theta z = ln (p z)) ->
  (forall zs, zs <> [] -> is_loglikelihood true (tensor_of theta lj zs) (entropy_of theta lqs zs) = Some (v zs)) -> (1 <= K)%nat ->
  chance_above q Zs K (ln (evidence p Zs) + b) (fun zs => val (v zs)) <= exp (- b).
Proof.
  intros D L P V HK. pose proof L as (N & Lq). set (w := fun z => exp (log_weight lj lqs theta z)). assert (PK : 0 < INR K) by (apply lt_0_INR; lia).
  assert (NZ : Zs <> []) by (intros ->; destruct D as [_ D1]; cbn in D1; lra).
  assert (PE : 0 < evidence p Zs) by (apply total_pos; [exact NZ|intros z Hz; now apply P]).
  assert (S : expect q Zs w <= evidence p Zs). { unfold evidence, expect. apply total_le. intros z Hz. destruct (P z Hz) as (Pz & Lz). destruct D as [Q0 _]. destruct (Q0 z Hz) as [Q|Q]; [|rewrite <- Q; lra]. unfold w, log_weight. rewrite Lz, Lq by assumption. unfold Rminus. rewrite exp_plus, exp_Ropp, !exp_ln by assumption. right. field. lra. }
  pose proof (exp_pos (- b)) as Pb. assert (Pq : 0 < exp (- b) / evidence p Zs) by now apply Rdiv_lt_0_compat.
  apply Rle_trans with (expects q Zs K (fun zs => exp (- b) / evidence p Zs / INR K * total w zs)).
  - apply (expects_le q Zs D). intros zs Hz. destruct (possible_some q Zs zs K HK Hz) as (Nz & Lz). assert (T : 0 < total w zs) by now apply total_exp_pos.
    assert (Ev : val (v zs) = ln (total w zs / INR K)) by (specialize (V zs Nz); unfold is_loglikelihood in V; rewrite iw_eq in V by exact N; injection V as <-; rewrite val_weighted, lme_form, Lz by exact Nz; reflexivity).
    rewrite Ev. set (m := total w zs / INR K). assert (Pm : 0 < m) by now apply Rdiv_lt_0_compat. replace (exp (- b) / evidence p Zs / INR K * total w zs) with (exp (- b) / evidence p Zs * m) by (unfold m; field; lra).
    destruct (Rle_dec _ _) as [G|_]; [|apply Rmult_le_pos; lra].
    assert (G' : evidence p Zs * exp b <= m). { rewrite <- (exp_ln _ Pm), <- (exp_ln _ PE) at 1. rewrite <- exp_plus. destruct G as [G|G]; [left; now apply exp_increasing|right; now f_equal]. }
    assert (Y : exp b * exp (- b) = 1) by (rewrite <- exp_plus, Rplus_opp_r, exp_0; reflexivity). apply Rle_trans with (exp (- b) / evidence p Zs * (evidence p Zs * exp b)); [right; field_simplify; [|lra]; lra|]. apply Rmult_le_compat_l; lra.
  - rewrite (expects_scal q Zs K _ (fun zs => total w zs)), (expects_each q Zs K w D). replace (exp (- b) / evidence p Zs / INR K * (INR K * expect q Zs w)) with (exp (- b) * (expect q Zs w / evidence p Zs)) by (field; lra).
    rewrite <- (Rmult_1_r (exp (- b))) at 2. apply Rmult_le_compat_l; [lra|]. apply (Rmult_le_reg_r (evidence p Zs)); [exact PE|]. unfold Rdiv. rewrite Rmult_assoc, Rinv_l by lra. lra.
Qed.
Print Assumptions C72_importance.

(** A model with two states, three temperatures and transitions that resample, as in C44: the
    hypotheses hold. *)
Example C72_case :
  let Xs := [true; false] in let log_prior (_ : bool) := - ln 2 in let log_joint (b : bool) := if b then 0 else 1 in
  let kernel := resample Xs log_prior log_joint in let Z := 1 + exp 1 in
  let run K := ais_run e_ret e_bind (draw_prior Xs log_prior K) (move Xs log_prior log_joint kernel) (report log_prior log_joint) 3 5 [] in
  (exists var, forall K eps, (1 <= K)%nat -> 0 < eps -> probability_off (run K) (ln Z) eps <= var / (INR K * (Z * (1 - exp (- eps))) ^ 2)) /\
  forall K, (1 <= K)%nat -> probability_above (run K) (ln Z + 3) <= exp (- (3)).
Proof.
  intros Xs log_prior log_joint kernel Z run. destruct C44_case as (D & T & S & _). fold Xs log_prior log_joint kernel in D, T, S.
  assert (EZ : total (fun x => exp (log_joint x)) Xs = Z) by (unfold Xs, Z; cbn [total]; unfold log_joint; rewrite exp_0; ring).
  split.
  - eexists. intros K eps HK He. rewrite <- EZ. apply (C72_converges Xs log_prior log_joint kernel 3 5 D ltac:(lia) T S [] eps He). exact HK.
  - intros K HK. rewrite <- EZ. apply (C72_seldom_above Xs log_prior log_joint kernel 3 5 D ltac:(lia) T S K [] 3 HK).
Qed.
