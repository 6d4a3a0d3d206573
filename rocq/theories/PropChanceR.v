(** C69 over continuous latent variables. *)
From Coq Require Import List Arith Bool Reals Lra Lia FunctionalExtensionality.
From Coquelicot Require Import Coquelicot.
From Verif Require Import SpecDist ModelVI SpecVI SpecVolume SpecInvariance SpecRun SpecExpect SpecChanceR.
From Verif Require Import ProofDiscrete ProofVI ProofVolume ProofChange ProofPhase ProofRatio ProofExpect ProofSamples PropELBO PropIW PropExpect.
Import ListNotations.
Local Open Scope R_scope.

Section Errors.
Context {I : Type} (dec : forall i j : I, {i = j} + {i <> j}) (L : list I).
Hypothesis L_once : NoDup L.
Hypothesis L_all : forall i, In i L.
Variable q : (I -> R) -> R.
Hypothesis q_density : probability_density dec L q.
Notation mean1 := (mean_over_sample dec L q).
Notation means := (mean_over_samples dec L q).
Lemma square_sums f m var K : mean1 f m -> sample_variance dec L q f m var -> means K (fun zs => (sum_over (fun z => f z - m) zs) ^ 2) (INR K * var).
Proof.
  intros Hm Hv. assert (H0 : mean1 (fun z => f z - m) 0).
  { replace 0 with (m - m * 1) by ring. eapply integral_ext; [|apply (integral_minus _ _ _ _ _ _ Hm (integral_scal dec L q m 1 (integral_of_total _ _ _ _ (proj2 q_density))))]. intros z. cbv beta. ring. }
  induction K as [|K IH].
  - replace (INR 0 * var) with 0 by (cbn; ring). apply (means_ext dec L q 0 (fun _ => 0)); [|apply means_const; assumption]. intros [|z zs] E; [cbn; ring|discriminate].
  - replace (INR (S K) * var) with (var + (2 * (0 * (INR K * 0)) + INR K * var)) by (rewrite S_INR; ring).
    apply (means_ext dec L q (S K) (fun zs => match zs with z :: _ => (f z - m) ^ 2 | [] => 0 end + (2 * match zs with z :: zs' => (f z - m) * sum_over (fun z => f z - m) zs' | [] => 0 end + match zs with _ :: zs' => sum_over (fun z => f z - m) zs' ^ 2 | [] => 0 end))).
    + intros [|z zs] E; [discriminate|]. cbn [SpecDist.total]. ring.
    + apply means_plus; [|apply means_plus; [apply means_scal|]].
      * eapply (means_head dec L L_all q q_density K (fun z => (f z - m) ^ 2)); [reflexivity|exact Hv].
      * eapply (means_product dec L L_all q K (fun z => f z - m) (sum_over (fun z => f z - m))); [reflexivity|exact H0|]. apply means_sum; assumption.
      * eapply (means_tail dec L L_all q q_density K (fun zs => sum_over (fun z => f z - m) zs ^ 2)); [reflexivity|exact IH].
Qed.
Lemma mse_means f m var v K : (1 <= K)%nat -> mean1 f m -> sample_variance dec L q f m var -> (forall zs, length zs = K -> v zs = sum_over f zs / INR K) -> sample_squared_error dec L q K v m (var / INR K).
Proof.
  intros HK Hm Hv V. assert (N : INR K <> 0) by (apply not_0_INR; lia). replace (var / INR K) with (/ (INR K * INR K) * (INR K * var)) by (field; exact N).
  eapply means_ext; [|apply means_scal, (square_sums f m var K Hm Hv)]. intros zs E. cbv beta. rewrite (V zs E). unfold Rminus. rewrite (ProofDiscrete.total_plus f (fun _ => - m)), total_const, E. field. exact N.
Qed.
Lemma seldom K eps eps' v v' a a' e : 0 < eps' -> (forall zs, length zs = K -> eps <= Rabs (v zs - a) -> eps' <= Rabs (v' zs - a')) -> sample_squared_error dec L q K v' a' e -> seldom_off dec L q K eps v a (e / eps' ^ 2).
Proof.
  intros P H M phi C T. assert (P2 : 0 < eps' ^ 2) by now apply pow_lt. assert (B : forall zs, length zs = K -> Rabs (phi zs) <= / eps' ^ 2 * (v' zs - a') ^ 2).
  { intros zs E. destruct (T zs E) as (B & Z). rewrite Rabs_pos_eq by lra. destruct (Rlt_le_dec (Rabs (v zs - a)) eps) as [G|G].
    - rewrite (Z G). apply Rmult_le_pos; [left; now apply Rinv_0_lt_compat|apply pow2_ge_0].
    - apply Rle_trans with 1; [lra|]. apply (Rmult_le_reg_l (eps' ^ 2)); [exact P2|]. rewrite <- Rmult_assoc, Rinv_r, Rmult_1_l, Rmult_1_r by lra. rewrite <- (pow2_abs (v' zs - a')). apply pow_incr. specialize (H zs E G). lra. }
  pose proof (means_scal dec L q K _ (/ eps' ^ 2) e M) as M'. destruct (means_dominated dec L L_all q q_density K phi _ _ C B M') as (m & Hm). exists m. split; [exact Hm|]. replace (e / eps' ^ 2) with (/ eps' ^ 2 * e) by (unfold Rdiv; ring). apply (means_le dec L q q_density K phi _ m _) with (3 := M'); [|exact Hm]. intros zs E. eapply Rle_trans; [apply Rle_abs|exact (B zs E)].
Qed.
End Errors.

Section Bounds.
Context {I : Type} (dec : forall i j : I, {i = j} + {i <> j}) (L : list I).
Hypothesis L_all : forall i, In i L.
Variables (q p : (I -> R) -> R) (lj : @quantity (I -> R)) (lqs : list (@quantity (I -> R))) (theta Z v : R).
Hypothesis q_density : probability_density dec L q.
Hypothesis p_positive : forall z, 0 < p z.
Hypothesis p_total : has_integral dec L p Z.
Hypothesis latent : lqs <> [].
Hypothesis q_log : forall z, log_q lqs theta z = ln (q z).
Hypothesis p_log : forall z, at_param lj theta z = ln (p z).
Hypothesis finite : mean_over_sample dec L q (fun z => ln (p z) - ln (q z)) v.

(** The evidence lower bound: mean squared error Var / K. *)
Theorem C69_elbo_continuous var o K : sample_variance dec L q (fun z => ln (p z) - ln (q z)) v var ->
  (forall zs, zs <> [] -> elbo_objective true (tensor_of theta lj zs) (entropy_of theta lqs zs) = [o zs]) -> (1 <= K)%nat ->
  sample_squared_error dec L q K (fun zs => val (o zs)) v (var / INR K) /\
  forall eps, 0 < eps -> seldom_off dec L q K eps (fun zs => val (o zs)) v (var / INR K / eps ^ 2).
Proof.
  intros Hv O HK. assert (E : forall z, log_weight lj lqs theta z = ln (p z) - ln (q z)) by (intros z; unfold log_weight; now rewrite p_log, q_log).
  assert (M : sample_squared_error dec L q K (fun zs => val (o zs)) v (var / INR K)).
  { apply (mse_means dec L L_all q q_density (fun z => ln (p z) - ln (q z))); try assumption. intros zs Lz. assert (N : zs <> []) by now apply (nonempty zs K). specialize (O zs N). rewrite elbo_eq in O by exact latent. injection O as <-. rewrite val_dmean, Lz. cbn [val]. f_equal. apply ProofDiscrete.total_ext. intros z _. apply E. }
  split; [exact M|]. intros eps He. apply (seldom dec L L_all q q_density K eps eps (fun zs => val (o zs)) (fun zs => val (o zs)) v v); auto.
Qed.
(** The importance weighted objective and is_loglikelihood: the average weight has mean
    squared error Var / K around the evidence, Var being the variance of one weight. *)
Theorem C69_importance_continuous var o K : sample_variance dec L q (fun z => p z / q z) Z var ->
  (forall zs, zs <> [] -> is_loglikelihood true (tensor_of theta lj zs) (entropy_of theta lqs zs) = Some (o zs)) -> (1 <= K)%nat ->
  sample_squared_error dec L q K (fun zs => exp (val (o zs))) Z (var / INR K) /\
  forall eps, 0 < eps -> seldom_off dec L q K eps (fun zs => val (o zs)) (ln Z) (var / INR K / (Z * (1 - exp (- eps))) ^ 2).
Proof.
  intros Hv O HK. assert (PK : 0 < INR K) by (apply lt_0_INR; lia). pose proof (bound_facts dec L L_all q p lj lqs theta Z v q_density p_positive p_total q_log p_log finite) as (PZ & _ & _).
  assert (E : forall z, exp (log_weight lj lqs theta z) = p z / q z) by (intros z; now apply (lw_exp dec L q p lj lqs theta q_density p_positive q_log p_log)).
  assert (X : forall zs, length zs = K -> exp (val (o zs)) = sum_over (fun z => p z / q z) zs / INR K /\ 0 < exp (val (o zs))).
  { intros zs Lz. assert (N : zs <> []) by now apply (nonempty zs K). specialize (O zs N). unfold is_loglikelihood in O. rewrite iw_eq in O by exact latent. injection O as <-. rewrite val_weighted, lme_form, Lz by exact N. split; [|apply exp_pos]. rewrite exp_ln by (apply Rdiv_lt_0_compat; [now apply total_exp_pos|exact PK]). f_equal. apply ProofDiscrete.total_ext. intros z _. apply E. }
  assert (Mw : mean_over_sample dec L q (fun z => p z / q z) Z). { eapply mean1_ext; [|exact (weight_mean dec L q p lj lqs theta Z q_density p_positive p_total q_log p_log)]. intros z. apply E. }
  assert (M : sample_squared_error dec L q K (fun zs => exp (val (o zs))) Z (var / INR K)) by (apply (mse_means dec L L_all q q_density (fun z => p z / q z)); try assumption; intros zs Lz; apply X, Lz).
  split; [exact M|]. intros eps He. assert (E1 : exp (- eps) < 1) by (rewrite <- exp_0; apply exp_increasing; lra). pose proof (exp_pos (- eps)) as E0.
  apply (seldom dec L L_all q q_density K eps (Z * (1 - exp (- eps))) (fun zs => val (o zs)) (fun zs => exp (val (o zs))) (ln Z) Z); [apply Rmult_lt_0_compat; lra| |exact M].
  intros zs _ H. set (l := val (o zs)) in *. assert (Ez : exp (ln Z) = Z) by now apply exp_ln. unfold Rabs in H. destruct (Rcase_abs _) as [C|C].
  - assert (G : exp l <= Z * exp (- eps)). { rewrite <- Ez at 1. rewrite <- exp_plus. destruct (Rle_lt_or_eq_dec l (ln Z + - eps) ltac:(lra)) as [Q|Q]; [left; now apply exp_increasing|rewrite Q; lra]. } rewrite Rabs_left1; nra.
  - assert (G : Z * exp eps <= exp l). { rewrite <- Ez at 1. rewrite <- exp_plus. destruct (Rle_lt_or_eq_dec (ln Z + eps) l ltac:(lra)) as [Q|Q]; [left; now apply exp_increasing|rewrite Q; lra]. }
    assert (Y : exp eps * exp (- eps) = 1) by (rewrite <- exp_plus, Rplus_opp_r, exp_0; reflexivity). assert (1 < exp eps) by (rewrite <- exp_0; apply exp_increasing; lra). assert (1 - exp (- eps) <= exp eps - 1) by nra. rewrite Rabs_pos_eq; nra.
Qed.
End Bounds.
Print Assumptions C69_elbo_continuous.
Print Assumptions C69_importance_continuous.

(** The standard normal density and the joint density of C33: both variances are finite. *)
Example C69_continuous_case : let L := [true; false] in let q := noise_density L in let p := fun z : bool -> R => q z * exp (cos (z true)) in
  probability_density Bool.bool_dec L q /\ (forall z, 0 < p z) /\
  exists Z v var var', has_integral Bool.bool_dec L p Z /\ mean_over_sample Bool.bool_dec L q (fun z => ln (p z) - ln (q z)) v /\
    sample_variance Bool.bool_dec L q (fun z => ln (p z) - ln (q z)) v var /\ sample_variance Bool.bool_dec L q (fun z => p z / q z) Z var'.
Proof.
  intros L q p. destruct continuous_case as (_ & _ & Dq & Pp & _ & _ & Z & v & HZ & Hv & _). fold L in Dq, HZ, Hv. fold q in Dq, HZ, Hv. fold p in HZ, Hv.
  split; [exact Dq|]. split; [exact Pp|]. exists Z, v. pose proof Dq as (Pq & Cq & Nq & _).
  assert (Cc : cont (fun z : bool -> R => cos (z true))) by (apply (cont_fun cos); [intros t; apply continuous_cos|apply cont_coord]).
  assert (El : forall z, ln (p z) - ln (q z) = cos (z true)) by (intros z; unfold p; rewrite ln_mult, ln_exp; [ring|apply Pq|apply exp_pos]).
  assert (Ew : forall z, p z / q z = exp (cos (z true))) by (intros z; unfold p; field; apply Rgt_not_eq, Pq).
  assert (G : forall (g : (bool -> R) -> R) c b, cont g -> (forall z, Rabs (g z) <= b) -> exists var, mean_over_sample Bool.bool_dec L q (fun z => (g z - c) ^ 2) var).
  { intros g c b Cg B. assert (Ic : integral Bool.bool_dec L (fun z => (b + Rabs c) ^ 2 * q z) ((b + Rabs c) ^ 2 * 1)) by (apply integral_scal, integral_of_total; exact (proj2 Dq)).
    apply (integral_dominated Bool.bool_dec L (fun z => q z * (g z - c) ^ 2) (fun z => (b + Rabs c) ^ 2 * q z) ((b + Rabs c) ^ 2 * 1)); [| |exact Ic].
    - apply cont_mult; [exact Cq|]. apply (cont_ext (fun z => (g z - c) * ((g z - c) * 1))); [reflexivity|]. assert (Cd : cont (fun z => g z - c)) by (apply cont_minus; [exact Cg|exact (cont_const c)]). apply cont_mult; [exact Cd|]. apply cont_mult; [exact Cd|exact (cont_const 1)].
    - intros z. rewrite Rabs_mult, (Rabs_pos_eq (q z)) by apply Nq. rewrite Rmult_comm. apply Rmult_le_compat_r; [apply Nq|]. rewrite <- RPow_abs. apply pow_incr. split; [apply Rabs_pos|]. eapply Rle_trans; [apply Rabs_triang|]. rewrite Rabs_Ropp. specialize (B z). lra. }
  destruct (G (fun z => ln (p z) - ln (q z)) v 1) as (var & H1). { eapply cont_ext; [|exact Cc]. intros z. symmetry. apply El. } { intros z. rewrite El. apply Rabs_le. destruct (COS_bound (z true)). lra. }
  destruct (G (fun z => p z / q z) Z (exp 1)) as (var' & H2). { apply (cont_ext (fun z => exp (cos (z true)))); [intros z; symmetry; apply Ew|]. now apply cont_exp'. } { intros z. rewrite Ew, Rabs_pos_eq by (left; apply exp_pos). destruct (COS_bound (z true)) as [_ [K|K]]; [apply Rlt_le, exp_increasing, K|rewrite K; apply Rle_refl]. }
  exists var, var'. exact (conj HZ (conj Hv (conj H1 H2))).
Qed.
