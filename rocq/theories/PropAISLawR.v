(** C72 over continuous latent variables. *)
From Coq Require Import List Arith Bool Reals Lra Lia.
From Coquelicot Require Import Coquelicot.
From Verif Require Import SpecDist ModelVI SpecVI SpecVolume SpecInvariance SpecRun SpecExpect SpecChanceR SpecAISLaw.
From Verif Require Import ProofDiscrete ProofVI ProofVolume ProofChange ProofPhase ProofRatio ProofExpect ProofSamples PropELBO PropIW PropExpect PropChanceR.
Import ListNotations.
Local Open Scope R_scope.

Section Continuous.
Context {I : Type} (dec : forall i j : I, {i = j} + {i <> j}) (L : list I).
Hypothesis L_all : forall i, In i L.
Variables (q p : (I -> R) -> R) (lj : @quantity (I -> R)) (lqs : list (@quantity (I -> R))) (theta Z : R).
Hypothesis q_density : probability_density dec L q.
Hypothesis p_positive : forall z, 0 < p z.
Hypothesis p_total : has_integral dec L p Z.
Hypothesis latent : lqs <> [].
Hypothesis q_log : forall z, log_q lqs theta z = ln (q z).
Hypothesis p_log : forall z, at_param lj theta z = ln (p z).
(** is_loglikelihood and the importance weighted objective report b or more above the log
    likelihood with probability at most e^-b. *)
Theorem C72_importance_continuous o K b : 0 < Z ->
  (forall zs, zs <> [] -> is_loglikelihood true (tensor_of theta lj zs) (entropy_of theta lqs zs) = Some (o zs)) -> (1 <= K)%nat ->
  seldom_above dec L q K (ln Z + b) (fun zs => val (o zs)) (exp (- b)).
Proof.
  intros PZ O HK phi C T. assert (PK : 0 < INR K) by (apply lt_0_INR; lia). set (w := fun z => exp (log_weight lj lqs theta z)).
  pose proof (exp_pos (- b)) as Pb. assert (Pq : 0 < exp (- b) / Z) by now apply Rdiv_lt_0_compat.
  pose proof (weight_mean dec L q p lj lqs theta Z q_density p_positive p_total q_log p_log) as Mw. fold w in Mw.
  pose proof (means_scal dec L q K _ (exp (- b) / Z / INR K) _ (means_sum dec L L_all q q_density K _ _ Mw)) as M.
  replace (exp (- b) / Z / INR K * (INR K * Z)) with (exp (- b)) in M by (field; lra).
  assert (B : forall zs, length zs = K -> Rabs (phi zs) <= exp (- b) / Z / INR K * sum_over w zs).
  { intros zs Lz. assert (Nz : zs <> []) by now apply (nonempty zs K). destruct (T zs Lz) as (R01 & Out). rewrite Rabs_pos_eq by lra. assert (Tw : 0 < sum_over w zs) by now apply total_exp_pos.
    assert (Ev : val (o zs) = ln (sum_over w zs / INR K)) by (specialize (O zs Nz); unfold is_loglikelihood in O; rewrite iw_eq in O by exact latent; injection O as <-; rewrite val_weighted, lme_form, Lz by exact Nz; reflexivity).
    set (m := sum_over w zs / INR K) in *. assert (Pm : 0 < m) by now apply Rdiv_lt_0_compat. replace (exp (- b) / Z / INR K * sum_over w zs) with (exp (- b) / Z * m) by (unfold m; field; lra).
    destruct (Rlt_le_dec (val (o zs)) (ln Z + b)) as [G|G]; [rewrite (Out G); apply Rmult_le_pos; lra|]. rewrite Ev in G.
    assert (G' : Z * exp b <= m). { rewrite <- (exp_ln _ Pm), <- (exp_ln _ PZ) at 1. rewrite <- exp_plus. destruct G as [G|G]; [left; now apply exp_increasing|right; now f_equal]. }
    assert (Y : exp b * exp (- b) = 1) by (rewrite <- exp_plus, Rplus_opp_r, exp_0; reflexivity). apply Rle_trans with (exp (- b) / Z * (Z * exp b)); [replace (exp (- b) / Z * (Z * exp b)) with (exp b * exp (- b)) by (field; lra); lra|]. apply Rmult_le_compat_l; lra. }
  destruct (means_dominated dec L L_all q q_density K phi _ _ C B M) as (m & Hm). exists m. split; [exact Hm|]. apply (means_le dec L q q_density K phi _ m _) with (3 := M); [|exact Hm]. intros zs Lz. eapply Rle_trans; [apply Rle_abs|exact (B zs Lz)].
Qed.
End Continuous.
Print Assumptions C72_importance_continuous.

(** The densities of C69. *)
Example C72_continuous_case : let L := [true; false] in let q := noise_density L in let p := fun z : bool -> R => q z * exp (cos (z true)) in
  probability_density Bool.bool_dec L q /\ (forall z, 0 < p z) /\ exists Z, has_integral Bool.bool_dec L p Z /\ 0 < Z.
Proof.
  intros L q p. destruct continuous_case as (_ & A & D & P & Lq & Lp & Z & v & HZ & Hv & _). fold L in A, D, HZ, Hv. fold q in D, HZ, Hv. fold p in HZ, Hv.
  split; [exact D|]. split; [exact P|]. exists Z. split; [exact HZ|].
  eapply (bound_facts Bool.bool_dec L A q p); eassumption.
Qed.
