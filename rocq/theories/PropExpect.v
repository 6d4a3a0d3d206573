(** C33, C35 over continuous latent variables: the evidence lower bound and the
    importance weighted bounds, averaged over draws from a density. *)
From Coq Require Import List Arith Bool Reals Lra Lia FunctionalExtensionality.
From Coquelicot Require Import Coquelicot.
From Verif Require Import SpecDist ModelVI SpecVI SpecVolume SpecInvariance SpecRun SpecExpect.
From Verif Require Import ProofDiscrete ProofVI ProofVolume ProofChange ProofPhase ProofRatio ProofExpect ProofSamples PropELBO PropIW.
Import ListNotations.
Local Open Scope R_scope.

Section Bounds.
Context {I : Type} (dec : forall i j : I, {i = j} + {i <> j}) (L : list I).
Hypothesis L_once : NoDup L.
Hypothesis L_all : forall i, In i L.
Variables (q p : (I -> R) -> R) (lj : @quantity (I -> R)) (lqs : list (@quantity (I -> R))) (theta Z v : R).
Hypothesis q_density : probability_density dec L q.
Hypothesis p_positive : forall z, 0 < p z.
Hypothesis p_total : has_integral dec L p Z.
Hypothesis latent : lqs <> [].
Hypothesis q_log : forall z, log_q lqs theta z = ln (q z).
Hypothesis p_log : forall z, at_param lj theta z = ln (p z).
Hypothesis finite : mean_over_sample dec L q (fun z => ln (p z) - ln (q z)) v.
Notation lw := (log_weight lj lqs theta).

Lemma lw_eq z : lw z = ln (p z) - ln (q z).
Proof. unfold log_weight. now rewrite p_log, q_log. Qed.
Lemma lw_ln z : lw z = ln (p z / q z).
Proof. rewrite lw_eq. unfold Rdiv. destruct q_density as [Pq _]. specialize (Pq z). rewrite ln_mult, ln_Rinv; try apply Rinv_0_lt_compat; auto. Qed.
Lemma lw_exp z : exp (lw z) = p z / q z.
Proof. rewrite lw_ln. apply exp_ln. apply Rdiv_lt_0_compat; [apply p_positive|apply q_density]. Qed.
Lemma lw_mean : mean_over_sample dec L q lw v.
Proof. eapply mean1_ext; [|exact finite]. intros z. symmetry. apply lw_eq. Qed.
Lemma lw_cont : cont lw.
Proof.
  apply (cont_ext (fun z => ln (p z) - ln (q z))); [intros; symmetry; apply lw_eq|].
  destruct q_density as [Pq [Cq _]]. apply cont_minus; apply cont_ln; auto. apply p_total.
Qed.
Lemma weight_mean : mean_over_sample dec L q (fun z => exp (lw z)) Z.
Proof.
  apply (integral_ext dec L p); [|now apply integral_of_total]. intros z. rewrite lw_exp. field. apply Rgt_not_eq, q_density.
Qed.
Lemma bound_facts : 0 < Z /\ v <= ln Z /\ (v = ln Z <-> forall z, q z = p z / Z).
Proof.
  destruct q_density as [Pq Tq].
  destruct (jensen dec L L_all q (fun z => p z / q z) Z v) as (PZ & B & E); auto.
  - intros z. now apply Rdiv_lt_0_compat.
  - destruct p_total as (Cp & Pp & Tp). replace (fun x => q x * (p x / q x)) with p; [now split|].
    extensionality z. field. apply Rgt_not_eq, Pq.
  - eapply integral_ext; [|exact lw_mean]. intros z. cbv beta. now rewrite lw_ln.
  - split; [exact PZ|]. split; [exact B|]. rewrite E. split; intros H z; specialize (H z); specialize (Pq z); pose proof (p_positive z) as Pp.
    + rewrite <- H. field. lra.
    + rewrite H. field. lra.
Qed.

(** Averaged over draws from a density, the elbo objective is the log evidence minus the
    divergence of the density from the posterior, whatever the number of samples: a lower
    bound on the log evidence, reached only by the posterior. *)
Theorem C33_continuous K : (1 <= K)%nat ->
  exists o, (forall zs, length zs = K -> elbo_objective true (tensor_of theta lj zs) (entropy_of theta lqs zs) = [o zs]) /\
    mean_over_samples dec L q K (fun zs => val (o zs)) v /\
    mean_over_sample dec L q (fun z => ln (q z / (p z / Z))) (ln Z - v) /\
    v <= ln Z /\ (v = ln Z <-> forall z, q z = p z / Z).
Proof.
  intros HK. destruct bound_facts as (PZ & B & E).
  exists (fun zs => dmean (map (fun z => Dual (lw z) (partial lj z - score lqs z)) zs)).
  split; [intros zs _; now rewrite elbo_eq|]. split; [|split; [|now split]].
  - assert (HN : INR K <> 0) by (apply not_0_INR; lia).
    replace v with (/ INR K * (INR K * v)) by (field; exact HN).
    eapply means_ext; [|apply means_scal; apply means_sum; [exact L_all|exact q_density|exact lw_mean]].
    intros zs Hz. cbv beta. rewrite val_dmean, Hz. cbn [val]. unfold Rdiv. now rewrite Rmult_comm.
  - apply (integral_ext dec L (fun z => ln Z * q z - q z * lw z)).
    + intros z. destruct q_density as [Pq _]. rewrite ln_ratio by auto. rewrite lw_eq. ring.
    + apply integral_minus; [|exact lw_mean]. rewrite <- (Rmult_1_r (ln Z)) at 1. apply integral_scal, integral_of_total, q_density.
Qed.
(** Without a sample axis every entry of the objective has that mean. *)
Theorem C33_continuous_unreduced K j d : (j < K)%nat ->
  mean_over_samples dec L q K (fun zs =>
    val (nth j (elbo_objective false (tensor_of theta lj zs) (entropy_of theta lqs zs)) d)) v.
Proof.
  intros Hj. apply (means_ext dec L q K (fun zs => lw (nth j zs (fun _ => 0)))).
  - intros zs E. rewrite elbo_eq by exact latent. cbn [mean_if].
    set (F := fun z => Dual (lw z) (partial lj z - score lqs z)).
    rewrite nth_indep with (d' := F (fun _ : I => 0)) by (rewrite map_length; lia). now rewrite map_nth.
  - apply means_nth; [exact L_all|exact q_density|exact Hj|exact lw_mean].
Qed.

Lemma lme_abs (w : (I -> R) -> R) zs : zs <> [] -> Rabs (ln_mean_exp (map w zs)) <= sum_over (fun z => Rabs (w z)) zs.
Proof.
  intros N.
  assert (P : forall z, In z zs -> Rabs (w z) <= sum_over (fun z => Rabs (w z)) zs).
  { clear N. induction zs as [|a zs IH]; intros z Hz; [easy|]. cbn [SpecDist.total]. destruct Hz as [->|Hz].
    - pose proof (total_nonneg (fun z => Rabs (w z)) zs ltac:(intros; apply Rabs_pos)). lra.
    - specialize (IH z Hz). pose proof (Rabs_pos (w a)). lra. }
  apply Rabs_le. split.
  - apply Rle_trans with (mean (map w zs)); [|now apply lme_ge]. unfold mean. rewrite total_map, map_length.
    pose proof (len_pos zs N) as PL.
    apply (Rmult_le_reg_r (INR (length zs))); [exact PL|]. unfold Rdiv. rewrite Rmult_assoc, Rinv_l, Rmult_1_r by lra.
    rewrite <- (total_const _ zs). apply total_le. intros z Hz. specialize (P z Hz). pose proof (Rle_abs (- w z)) as A. rewrite Rabs_Ropp in A. lra.
  - apply lme_le; [exact N|]. intros z Hz. apply Rle_trans with (Rabs (w z)); [apply Rle_abs|auto].
Qed.
Lemma lme_cont K : cont (fun y => ln_mean_exp (map lw (as_list (I := I) (S K) y))).
Proof.
  apply (cont_ext (fun y => ln (sum_over (fun z => exp (lw z)) (as_list (S K) y) * / INR (S K)))).
  - intros y. rewrite lme_form, as_list_length. reflexivity.
  - apply cont_ln.
    + apply cont_mult; [|exact (cont_const _)]. apply cont_list_sum. apply cont_exp'. exact lw_cont.
    + intros y. apply Rmult_lt_0_compat; [apply total_exp_pos; discriminate|]. apply Rinv_0_lt_compat, lt_0_INR. lia.
Qed.
Lemma lme_mean_exists K : exists b, mean_over_samples dec L q (S K) (fun zs => ln_mean_exp (map lw zs)) b.
Proof.
  destruct (integral_abs dec L _ _ lw_mean) as (w & Iw & _).
  apply means_dominated with (g := sum_over (fun z => Rabs (lw z))) (w := INR (S K) * w); [exact L_all|exact q_density|apply lme_cont| |].
  - intros [|z zs] E; [discriminate|]. now apply lme_abs.
  - apply means_sum; [exact L_all|exact q_density|]. eapply integral_ext; [|exact Iw]. intros z. cbv beta.
    rewrite Rabs_mult, (Rabs_pos_eq (q z)); [reflexivity|]. apply Rlt_le, q_density.
Qed.
Lemma lme_mean_bound K b : mean_over_samples dec L q (S K) (fun zs => ln_mean_exp (map lw zs)) b -> b <= ln Z.
Proof.
  intros H. destruct bound_facts as (PZ & _ & _).
  assert (HN : INR (S K) <> 0) by (apply not_0_INR; lia).
  pose proof (means_scal dec L q (S K) _ (/ (INR (S K) * Z)) _ (means_sum dec L L_all q q_density (S K) _ _ weight_mean)) as M.
  pose proof (means_plus dec L q (S K) _ _ _ _ M (means_const dec L L_all q q_density (S K) (ln Z - 1))) as M'.
  replace (/ (INR (S K) * Z) * (INR (S K) * Z) + (ln Z - 1)) with (ln Z) in M' by (field; lra).
  eapply means_le; [exact q_density| |exact H|exact M']. intros zs E. cbv beta.
  assert (N : zs <> []) by (intros ->; discriminate). rewrite lme_form, E.
  pose proof (total_exp_pos lw zs N) as P. set (W := sum_over (fun z => exp (lw z)) zs) in *.
  assert (PK : 0 < INR (S K)) by (apply lt_0_INR; lia).
  pose proof (ln_le_minus (W / INR (S K) / Z)) as J.
  assert (P1 : 0 < W / INR (S K)) by now apply Rdiv_lt_0_compat.
  assert (P2 : 0 < W / INR (S K) / Z) by now apply Rdiv_lt_0_compat.
  specialize (J P2). unfold Rdiv in J at 1. rewrite ln_mult, ln_Rinv in J; auto; [|now apply Rinv_0_lt_compat].
  replace (/ (INR (S K) * Z) * W) with (W / INR (S K) / Z) by (field; lra). lra.
Qed.
Lemma lme_mean_step K b b' : (1 <= K)%nat ->
  mean_over_samples dec L q K (fun zs => ln_mean_exp (map lw zs)) b ->
  mean_over_samples dec L q (S K) (fun zs => ln_mean_exp (map lw zs)) b' -> b <= b'.
Proof.
  intros HK H H'. assert (HN : INR (S K) <> 0) by (apply not_0_INR; lia).
  assert (M : mean_over_samples dec L q (S K) (fun zs => / INR (S K) * sum_over (fun j => ln_mean_exp (map lw (remove_nth j zs))) (seq 0 (S K))) b).
  { replace b with (/ INR (S K) * sum_over (fun _ => b) (seq 0 (S K))) by (rewrite total_const, seq_length; field; exact HN).
    apply means_scal. apply (means_sum_family dec L L_all q q_density (S K) (seq 0 (S K)) (fun j zs => ln_mean_exp (map lw (remove_nth j zs)))).
    intros j Hj%in_seq. apply (means_remove dec L L_once L_all q q_density K (fun zs => ln_mean_exp (map lw zs))); [lia|exact H]. }
  eapply means_le; [exact q_density| |exact M|exact H']. intros zs E. cbv beta. rewrite Rmult_comm. now apply lme_step.
Qed.

(** The importance weighted objective of any number of draws has a mean whenever the
    evidence lower bound is finite. That of one draw is the evidence lower bound, and none
    exceeds the log evidence. *)
Theorem C35_continuous K : (1 <= K)%nat ->
  exists o b, (forall zs, length zs = K ->
      iw_objective true (tensor_of theta lj zs) (entropy_of theta lqs zs) = Some (o zs) /\
      is_loglikelihood true (tensor_of theta lj zs) (entropy_of theta lqs zs) = Some (o zs)) /\
    mean_over_samples dec L q K (fun zs => val (o zs)) b /\ v <= b <= ln Z /\ (K = 1%nat -> b = v).
Proof.
  intros HK. destruct K as [|K]; [lia|]. destruct (lme_mean_exists K) as (b & H).
  exists (fun zs => log_mean_exp (map (weighted theta lj lqs) zs)), b.
  split; [intros zs _; unfold is_loglikelihood; now rewrite iw_eq|]. split; [|split; [split|]].
  - eapply means_ext; [|exact H]. intros [|z zs] E; [discriminate|]. symmetry. now apply val_weighted.
  - clear HK. revert b H. induction K as [|K IH]; intros b H.
    + assert (b = v); [|lra]. eapply means_unique; [exact H|]. apply (means_ext dec L q 1 (fun zs => lw (nth 0 zs (fun _ => 0)))).
      * intros [|z [|z' zs]] E; try discriminate. cbn [nth map]. unfold ln_mean_exp, mean. cbn. rewrite Rplus_0_r, Rdiv_1, ln_exp. reflexivity.
      * apply means_nth; [exact L_all|exact q_density|lia|exact lw_mean].
    + destruct (lme_mean_exists K) as (c & Hc). specialize (IH c Hc). apply Rle_trans with c; [exact IH|].
      now apply (lme_mean_step (S K)); [lia| |].
  - now apply (lme_mean_bound K).
  - intros E. injection E as ->. eapply means_unique; [exact H|]. apply (means_ext dec L q 1 (fun zs => lw (nth 0 zs (fun _ => 0)))).
    + intros [|z [|z' zs]] E; try discriminate. cbn [nth map]. unfold ln_mean_exp, mean. cbn. rewrite Rplus_0_r, Rdiv_1, ln_exp. reflexivity.
    + apply means_nth; [exact L_all|exact q_density|lia|exact lw_mean].
Qed.
(** More draws never loosen the bound. *)
Theorem C35_continuous_monotone K K' o o' b b' : (1 <= K <= K')%nat ->
  (forall zs, length zs = K -> iw_objective true (tensor_of theta lj zs) (entropy_of theta lqs zs) = Some (o zs)) ->
  (forall zs, length zs = K' -> iw_objective true (tensor_of theta lj zs) (entropy_of theta lqs zs) = Some (o' zs)) ->
  mean_over_samples dec L q K (fun zs => val (o zs)) b -> mean_over_samples dec L q K' (fun zs => val (o' zs)) b' -> b <= b'.
Proof.
  intros HK O O' H H'.
  assert (Eo : forall k u, (1 <= k)%nat -> (forall zs, length zs = k -> iw_objective true (tensor_of theta lj zs) (entropy_of theta lqs zs) = Some (u zs)) ->
    forall c, mean_over_samples dec L q k (fun zs => val (u zs)) c -> mean_over_samples dec L q k (fun zs => ln_mean_exp (map lw zs)) c).
  { intros k u Hk U c. apply means_ext. intros zs E. specialize (U zs E). rewrite iw_eq in U by exact latent. injection U as <-.
    apply val_weighted. intros ->. cbn in E. lia. }
  apply (Eo K o ltac:(lia) O) in H. apply (Eo K' o' ltac:(lia) O') in H'. clear O O' Eo.
  revert b' H'. induction K' as [|K' IH]; intros b' H'; [lia|]. destruct (Nat.eq_dec K (S K')) as [->|N].
  - apply Req_le. exact (means_unique dec L q _ _ _ _ H H').
  - destruct K' as [|K']; [lia|]. destruct (lme_mean_exists K') as (c & Hc). apply Rle_trans with c; [apply IH; [lia|exact Hc]|].
    now apply (lme_mean_step (S K')); [lia| |].
Qed.
End Bounds.
Print Assumptions C33_continuous.
Print Assumptions C33_continuous_unreduced.
Print Assumptions C35_continuous.
Print Assumptions C35_continuous_monotone.

(** A standard normal variational density on the plane and a joint density whose log
    weight is the cosine of the first coordinate: all hypotheses hold, and the bound is
    not reached. *)
Section Witness.
Let L := [true; false].
Let q := noise_density L.
Let p := fun z : bool -> R => q z * exp (cos (z true)).
Let lq := Quantity (Z := bool -> R) (fun t z => ln (q z)) (fun _ => 0).
Let lj := Quantity (Z := bool -> R) (fun t z => ln (p z)) (fun _ => 0).
Lemma witness_q : probability_density Bool.bool_dec L q.
Proof.
  split; [apply noise_pos|]. split; [apply cont_noise|]. split; [intros; apply Rlt_le, noise_pos|].
  apply total_noise. repeat constructor; cbn; intuition discriminate.
Qed.
Example continuous_case :
  NoDup L /\ (forall i, In i L) /\ probability_density Bool.bool_dec L q /\ (forall z, 0 < p z) /\
  (forall z, log_q [lq] 0 z = ln (q z)) /\ (forall z, at_param lj 0 z = ln (p z)) /\
  exists Z v, has_integral Bool.bool_dec L p Z /\ mean_over_sample Bool.bool_dec L q (fun z => ln (p z) - ln (q z)) v /\ v < ln Z.
Proof.
  pose proof witness_q as Dq. destruct Dq as (Pq & Cq & Nq & Tq).
  assert (Once : NoDup L) by (repeat constructor; cbn; intuition discriminate).
  assert (All : forall i, In i L) by (intros []; cbn; auto).
  assert (Cc : cont (fun z : bool -> R => cos (z true))) by (apply (cont_fun cos); [intros t; apply continuous_cos|apply cont_coord]).
  assert (Pp : forall z, 0 < p z) by (intros z; apply Rmult_lt_0_compat; [apply Pq|apply exp_pos]).
  assert (El : forall z, ln (p z) - ln (q z) = cos (z true)).
  { intros z. unfold p. rewrite ln_mult, ln_exp; [ring|apply Pq|apply exp_pos]. }
  assert (Cp : cont p) by (apply cont_mult; [exact Cq|now apply cont_exp']).
  split; [exact Once|]. split; [exact All|]. split; [exact witness_q|]. split; [exact Pp|].
  split; [intros z; cbn; ring|]. split; [reflexivity|].
  assert (Ic : forall c, integral Bool.bool_dec L (fun z => c * q z) (c * 1)) by (intros c; apply integral_scal, integral_of_total; exact (proj2 witness_q)).
  destruct (integral_dominated Bool.bool_dec L p (fun z => exp 1 * q z) (exp 1 * 1)) as (Z & HZ); [exact Cp| |apply Ic|].
  { intros z. rewrite Rabs_pos_eq by (apply Rlt_le, Pp). unfold p. rewrite Rmult_comm. apply Rmult_le_compat_r; [apply Nq|].
    destruct (COS_bound (z true)) as [_ [K|K]]; [apply Rlt_le, exp_increasing, K|rewrite K; apply Rle_refl]. }
  apply integral_total in HZ; [|intros z; apply Rlt_le, Pp].
  destruct (integral_dominated Bool.bool_dec L (fun z => q z * (ln (p z) - ln (q z))) (fun z => 1 * q z) (1 * 1)) as (v & Hv); [| |apply Ic|].
  { apply cont_mult; [exact Cq|]. eapply cont_ext; [|exact Cc]. intros z. symmetry. apply El. }
  { intros z. rewrite El, Rabs_mult, (Rabs_pos_eq (q z)) by apply Nq. rewrite Rmult_comm. apply Rmult_le_compat_r; [apply Nq|].
    apply Rabs_le. destruct (COS_bound (z true)). lra. }
  exists Z, v. split; [exact HZ|]. split; [exact Hv|].
  destruct (C33_continuous Bool.bool_dec L All q p lj [lq] 0 Z v witness_q Pp HZ ltac:(discriminate) ltac:(intros z; cbn; ring) ltac:(reflexivity) Hv 1 (le_n 1))
    as (_ & _ & _ & _ & B & E).
  destruct B as [B|B]; [exact B|exfalso]. pose proof (proj1 E B) as F.
  assert (G : forall z, exp (cos (z true)) = Z).
  { intros z. specialize (F z). specialize (Pq z). unfold p in F. assert (NZ : Z <> 0) by (intros ->; unfold Rdiv in F; rewrite Rinv_0, Rmult_0_r in F; lra).
    apply (Rmult_eq_reg_l (q z / Z)); [|unfold Rdiv; apply Rmult_integral_contrapositive_currified; [lra|now apply Rinv_neq_0_compat]].
    transitivity (q z); [rewrite F at 2; unfold Rdiv; ring|field; exact NZ]. }
  pose proof (G (fun _ => 0)) as G0. pose proof (G (fun _ => PI)) as G1. cbv beta in G0, G1. rewrite cos_0 in G0. rewrite cos_PI in G1.
  pose proof (exp_increasing (-1) 1 ltac:(lra)). lra.
Qed.
End Witness.
