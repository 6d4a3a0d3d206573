(** C69: estimates from more draws get closer to what they estimate. *)
From Coq Require Import List Arith Bool Reals Lra Lia.
From Coquelicot Require Import Coquelicot.
From Verif Require Import SpecDist ModelVI SpecVI SpecChance ProofDiscrete ProofVI ProofChance PropELBO PropIW.
Import ListNotations.
Local Open Scope R_scope.

Lemma possible_some {Z} q (Zs zs : list Z) K : (1 <= K)%nat -> possible q Zs K zs -> zs <> [] /\ length zs = K.
Proof. intros HK ((L & _) & _). split; [now apply (nonempty zs K)|exact L]. Qed.

(** ** The evidence lower bound *)
(** The objective with K samples has mean squared error Var / K around the exact bound, where
    Var is the variance of one log weight; the chance of an error of eps or more is at most
    Var / (K eps^2). *)
Theorem C69_elbo {Z} (Zs : list Z) q lj lqs theta p v :
  distribution q Zs -> log_probs_of q lqs theta Zs -> (forall z, In z Zs -> 0 < p z /\ at_param lj theta z = ln (p z)) ->
  (forall zs, zs <> [] -> elbo_objective true (tensor_of theta lj zs) (entropy_of theta lqs zs) = [v zs]) ->
  let exact := ln (evidence p Zs) - kl q (posterior p Zs) Zs in let var := variance q Zs (log_weight lj lqs theta) in
  (forall K, (1 <= K)%nat -> mean_squared_error q Zs K (fun zs => val (v zs)) exact = var / INR K) /\
  (forall K eps, (1 <= K)%nat -> 0 < eps -> chance_off q Zs K eps (fun zs => val (v zs)) exact <= var / (INR K * eps ^ 2)) /\
  consistent q Zs (fun zs => val (v zs)) exact.
Proof.
  intros D L P V exact var. assert (E : exact = expect q Zs (log_weight lj lqs theta)) by (symmetry; now apply expect_log_weight).
  assert (X : forall K zs, (1 <= K)%nat -> length zs = K -> val (v zs) = total (log_weight lj lqs theta) zs / INR K).
  { intros K zs HK Lz. assert (N : zs <> []) by now apply (nonempty zs K). specialize (V zs N). rewrite elbo_eq in V by apply L. injection V as <-. rewrite val_dmean, Lz. reflexivity. }
  rewrite E. split; [|split].
  - intros K HK. apply (mse_mean q Zs D); [exact HK|]. intros zs. now apply X.
  - intros K eps HK He. apply (chebyshev q Zs D); [exact HK|exact He|]. intros zs. now apply X.
  - apply (vanishing q Zs D _ _ (fun eps => var / eps ^ 2)). intros K eps HK He. eapply Rle_trans; [apply (chebyshev q Zs D (log_weight lj lqs theta)); [exact HK|exact He|intros zs; now apply X]|]. apply Req_le. fold var. field. repeat split; try lra; apply not_0_INR; lia.
Qed.

(** ** The importance weighted objective and is_loglikelihood *)
(** They converge to the logarithm of the probability mass where the variational posterior
    can draw. *)
Theorem C69_importance {Z} (Zs : list Z) q lj lqs theta p v :
  distribution q Zs -> log_probs_of q lqs theta Zs -> (forall z, In z Zs -> 0 < p z /\ at_param lj theta z = ln (p z)) ->
  (forall zs, zs <> [] -> is_loglikelihood true (tensor_of theta lj zs) (entropy_of theta lqs zs) = Some (v zs)) ->
  let covered := total (fun z => if Rlt_dec 0 (q z) then p z else 0) Zs in let var := variance q Zs (fun z => p z / q z) in
  (forall zs, zs <> [] -> iw_objective true (tensor_of theta lj zs) (entropy_of theta lqs zs) = Some (v zs)) /\
  (forall K eps, (1 <= K)%nat -> 0 < eps -> chance_off q Zs K eps (fun zs => val (v zs)) (ln covered) <= var / (INR K * (covered * (1 - exp (- eps))) ^ 2)) /\
  consistent q Zs (fun zs => val (v zs)) (ln covered) /\
  ((forall z, In z Zs -> 0 < q z) -> covered = evidence p Zs).
Proof.
  intros D L P V covered var. pose proof L as (N & Lq). set (w := fun z => exp (log_weight lj lqs theta z)).
  assert (W : forall z, In z Zs -> 0 < q z -> w z = p z / q z). { intros z Hz Q. destruct (P z Hz) as (Pz & Lz). unfold w, log_weight. rewrite Lz, Lq by assumption. unfold Rminus. rewrite exp_plus, exp_Ropp, !exp_ln by assumption. reflexivity. }
  assert (EW : forall f g, (forall z, In z Zs -> 0 < q z -> f z = g z) -> expect q Zs f = expect q Zs g) by (intros f g H; apply Rle_antisym; apply expect_le; try exact D; intros z Hz Q; rewrite (H z Hz Q); lra).
  assert (S : expect q Zs w = covered). { unfold covered, expect. apply total_ext. intros z Hz. destruct (Rlt_dec 0 (q z)) as [Q|Q]; [rewrite (W z Hz Q); field; lra|]. assert (q z = 0) as -> by (destruct D as [Q0 _]; specialize (Q0 z Hz); lra). ring. }
  assert (Vr : variance q Zs w = var). { unfold var, variance. rewrite (EW w (fun z => p z / q z) W). apply EW. intros z Hz Q. now rewrite (W z Hz Q). }
  assert (PS : 0 < covered). { assert (G : forall z, In z Zs -> 0 <= (if Rlt_dec 0 (q z) then p z else 0)) by (intros z Hz; destruct (Rlt_dec 0 (q z)); [destruct (P z Hz)|]; lra). destruct (total_nonneg _ Zs G) as [T|T]; [exact T|exfalso]. symmetry in T. rewrite (total_zero_iff _ _ G) in T. assert (X : total q Zs = 0); [|destruct D as [_ D1]; lra]. apply total_zero. intros z Hz. specialize (T z Hz). destruct (Rlt_dec 0 (q z)) as [Q|Q]; [destruct (P z Hz); lra|]. destruct D as [Q0 _]. specialize (Q0 z Hz). lra. }
  assert (X : forall K zs, (1 <= K)%nat -> possible q Zs K zs -> 0 < total w zs /\ val (v zs) = ln (total w zs / INR K)).
  { intros K zs HK Hz. destruct (possible_some q Zs zs K HK Hz) as (Nz & Lz). split; [now apply total_exp_pos|]. specialize (V zs Nz). unfold is_loglikelihood in V. rewrite iw_eq in V by exact N. injection V as <-. rewrite val_weighted, lme_form, Lz by exact Nz. reflexivity. }
  assert (C : forall K eps, (1 <= K)%nat -> 0 < eps -> chance_off q Zs K eps (fun zs => val (v zs)) (ln covered) <= var / (INR K * (covered * (1 - exp (- eps))) ^ 2)) by (intros K eps HK He; rewrite <- S, <- Vr; apply (log_off q Zs D); [now rewrite S|exact HK|exact He|intros zs; now apply X]).
  split; [intros zs Nz; rewrite <- (V zs Nz); reflexivity|]. split; [exact C|]. split.
  - apply (vanishing q Zs D _ _ (fun eps => var / (covered * (1 - exp (- eps))) ^ 2)). intros K eps HK He. eapply Rle_trans; [now apply C|]. assert (exp (- eps) < 1) by (rewrite <- exp_0; apply exp_increasing; lra). assert (0 < covered * (1 - exp (- eps))) by (apply Rmult_lt_0_compat; lra). apply Req_le. field. repeat split; try lra; apply not_0_INR; lia.
  - intros Q. unfold covered, evidence. apply total_ext. intros z Hz. destruct (Rlt_dec 0 (q z)) as [_|C']; [reflexivity|]. elim C'. auto.
Qed.
(** So they are not consistent for the log likelihood when the variational posterior cannot
    draw some point. *)
Theorem C69_support_refuted {Z} (Zs : list Z) q lj lqs theta p v z0 :
  distribution q Zs -> log_probs_of q lqs theta Zs -> (forall z, In z Zs -> 0 < p z /\ at_param lj theta z = ln (p z)) ->
  (forall zs, zs <> [] -> is_loglikelihood true (tensor_of theta lj zs) (entropy_of theta lqs zs) = Some (v zs)) ->
  In z0 Zs -> q z0 = 0 -> ~ consistent q Zs (fun zs => val (v zs)) (ln (evidence p Zs)).
Proof.
  intros D L P V I Q C. destruct (C69_importance Zs q lj lqs theta p v D L P V) as (_ & _ & C' & _). pose proof (consistent_unique q Zs D _ _ _ C C') as E.
  set (f := fun z => if Rlt_dec 0 (q z) then p z else 0) in *. assert (G : forall z, In z Zs -> 0 <= p z - f z) by (intros z Hz; unfold f; destruct (Rlt_dec 0 (q z)); destruct (P z Hz); lra).
  assert (H : 0 < total (fun z => p z - f z) Zs). { destruct (total_nonneg _ Zs G) as [T|T]; [exact T|exfalso]. symmetry in T. rewrite (total_zero_iff _ _ G) in T. specialize (T z0 I). unfold f in T. rewrite Q in T. destruct (Rlt_dec 0 0); [lra|]. destruct (P z0 I). lra. }
  rewrite total_minus in H. assert (H0 : 0 < total f Zs).
  { assert (F0 : forall z, In z Zs -> 0 <= f z) by (intros z Hz; unfold f; destruct (Rlt_dec 0 (q z)); [destruct (P z Hz)|]; lra). destruct (total_nonneg _ Zs F0) as [T|T]; [exact T|exfalso]. symmetry in T. rewrite (total_zero_iff _ _ F0) in T. assert (X : total q Zs = 0); [|destruct D as [_ D1]; lra]. apply total_zero. intros z Hz. specialize (T z Hz). unfold f in T. destruct (Rlt_dec 0 (q z)) as [Q'|Q']; [destruct (P z Hz); lra|]. destruct D as [Q0 _]. specialize (Q0 z Hz). lra. }
  unfold evidence in E. apply ln_inv in E; lra.
Qed.
(** The gradient of sgvb() converges to minus the gradient of the log of the mean weight. *)
Theorem C69_importance_sgvb {E} (Es : list E) w lj lqs theta cost :
  distribution w Es -> lqs <> [] -> differentiable theta Es lj -> (forall lq, In lq lqs -> differentiable theta Es lq) ->
  (forall es, es <> [] -> iw_sgvb true (tensor_of theta lj es) (entropy_of theta lqs es) = Some (cost es)) ->
  exists slope, is_derive (fun t => ln (expect w Es (fun e => exp (log_weight lj lqs t e)))) theta slope /\ consistent w Es (fun es => tan (cost es)) (- slope).
Proof.
  intros D N Dj Dq C. set (g := fun e => exp (log_weight lj lqs theta e)). set (h := fun e => - (partial lj e - score lqs e)). set (S := expect w Es g).
  assert (PS : 0 < S). { destruct D as [D0 D1]. assert (G : forall z, In z Es -> 0 <= w z * g z) by (intros z Hz; apply Rmult_le_pos; [now apply D0|left; apply exp_pos]). destruct (total_nonneg _ Es G) as [T|T]; [exact T|exfalso]. symmetry in T. rewrite (total_zero_iff _ _ G) in T. assert (X : total w Es = 0); [|lra]. apply total_zero. intros z Hz. specialize (T z Hz). apply Rmult_integral in T as [T|T]; [exact T|]. pose proof (exp_pos (log_weight lj lqs theta z)). unfold g in T. lra. }
  exists (- (expect w Es (fun e => g e * h e) / S)). rewrite Ropp_involutive. split.
  - assert (HD : is_derive (fun t => expect w Es (fun e => exp (log_weight lj lqs t e))) theta (- expect w Es (fun e => g e * h e))).
    { replace (- expect w Es (fun e => g e * h e)) with (total (fun e => w e * (g e * (partial lj e - score lqs e))) Es).
      2:{ replace (- expect w Es (fun e => g e * h e)) with (-1 * expect w Es (fun e => g e * h e)) by ring. rewrite <- expect_scal. unfold expect. apply total_ext. intros e _. unfold h. ring. }
      apply (is_derive_total (fun t e => w e * exp (log_weight lj lqs t e)) (fun e => w e * (g e * (partial lj e - score lqs e)))). intros e He. apply (is_derive_scal (fun t => exp (log_weight lj lqs t e)) theta (w e)).
      assert (DL : is_derive (fun t => log_weight lj lqs t e) theta (partial lj e - score lqs e)). { apply (is_derive_minus (K := R_AbsRing) (V := R_NormedModule) (fun t => at_param lj t e) (fun t => log_q lqs t e)); [now apply Dj|now apply (score_derive Es lqs theta Dq)]. }
      pose proof (is_derive_comp exp _ theta _ _ (is_derive_exp _) DL) as Q. unfold scal in Q; cbn in Q; unfold mult in Q; cbn in Q. unfold g. rewrite Rmult_comm. exact Q. }
    pose proof (is_derive_comp ln (fun t => expect w Es (fun e => exp (log_weight lj lqs t e))) theta _ _ (is_derive_ln _ PS) HD) as Q. unfold scal in Q; cbn in Q; unfold mult in Q; cbn in Q. replace (- (expect w Es (fun e => g e * h e) / S)) with (- expect w Es (fun e => g e * h e) * / S) by (field; lra). exact Q.
  - apply (vanishing w Es D _ _ (fun eps => 4 * variance w Es g / S ^ 2 + 4 * variance w Es (fun z => g z * (h z - expect w Es (fun z => g z * h z) / S)) / (eps * S) ^ 2)). intros K eps HK He. apply (ratio_off w Es D g h); try assumption. intros es He'. destruct (possible_some w Es es K HK He') as (Ne & _). split; [now apply total_exp_pos|].
    specialize (C es Ne). unfold iw_sgvb in C. rewrite iw_eq in C by exact N. injection C as <-. cbn [dneg tan]. rewrite tan_lme by exact Ne. pose proof (total_exp_pos (log_weight lj lqs theta) es Ne) as T. cbn [weighted val tan]. fold g. rewrite (total_ext (fun z => g z * h z) (fun z => -1 * ((partial lj z - score lqs z) * exp (log_weight lj lqs theta z)))) by (intros; unfold g, h; ring). rewrite total_scal. unfold g. field. lra.
Qed.

(** ** The gradient estimators of the evidence lower bound *)
Theorem C69_sgvb {E} (Es : list E) w lj lqs theta cost :
  distribution w Es -> lqs <> [] -> differentiable theta Es lj -> (forall lq, In lq lqs -> differentiable theta Es lq) ->
  (forall es, es <> [] -> elbo_sgvb true (tensor_of theta lj es) (entropy_of theta lqs es) = [cost es]) ->
  exists slope, is_derive (fun t => expect w Es (log_weight lj lqs t)) theta slope /\ consistent w Es (fun es => tan (cost es)) (- slope) /\
    forall K, (1 <= K)%nat -> mean_squared_error w Es K (fun es => tan (cost es)) (- slope) = variance w Es (fun e => partial lj e - total (fun lq => partial lq e) lqs) / INR K.
Proof.
  intros D N Dj Dq C. set (g := fun e => - (partial lj e - score lqs e)). exists (expect w Es (fun e => partial lj e - score lqs e)).
  assert (Og : - expect w Es (fun e => partial lj e - score lqs e) = expect w Es g). { replace (- expect w Es (fun e => partial lj e - score lqs e)) with (-1 * expect w Es (fun e => partial lj e - score lqs e)) by ring. rewrite <- expect_scal. apply expect_ext. intros; unfold g; ring. }
  assert (X : forall K es, (1 <= K)%nat -> length es = K -> tan (cost es) = total g es / INR K).
  { intros K es HK Le. assert (Ne : es <> []) by now apply (nonempty es K). specialize (C es Ne). unfold elbo_sgvb in C. rewrite elbo_eq in C by exact N. injection C as <-. cbn [tan]. change (- tan (dmean (map (fun z => Dual (log_weight lj lqs theta z) (partial lj z - score lqs z)) es)) = total g es / INR K). rewrite tan_dmean, Le by exact Ne. cbn [tan]. rewrite (total_ext g (fun e => -1 * (partial lj e - score lqs e))) by (intros; unfold g; ring). rewrite total_scal. field. apply not_0_INR. lia. }
  assert (Vg : variance w Es g = variance w Es (fun e => partial lj e - score lqs e)) by (unfold variance; rewrite <- Og; apply expect_ext; intros e _; unfold g; ring).
  split; [|split].
  - apply (is_derive_total (fun t e => w e * log_weight lj lqs t e) (fun e => w e * (partial lj e - score lqs e))). intros e He. apply (is_derive_scal (fun t => log_weight lj lqs t e) theta (w e)). apply (is_derive_minus (K := R_AbsRing) (V := R_NormedModule) (fun t => at_param lj t e) (fun t => log_q lqs t e)); [now apply Dj|now apply (score_derive Es lqs theta Dq)].
  - rewrite Og. apply (vanishing w Es D _ _ (fun eps => variance w Es g / eps ^ 2)). intros K eps HK He. eapply Rle_trans; [apply (chebyshev w Es D g); [exact HK|exact He|intros es; now apply X]|]. apply Req_le. field. repeat split; try lra; apply not_0_INR; lia.
  - intros K HK. rewrite Og. change (fun e => partial lj e - total (fun lq => partial lq e) lqs) with (fun e => partial lj e - score lqs e). rewrite <- Vg. apply (mse_mean w Es D); [exact HK|]. intros es. now apply X.
Qed.
(** REINFORCE, for a moving mean that does not look at the draws. *)
Theorem C69_reinforce {Z} (Zs : list Z) q lj lqs theta vr m cost :
  family Zs q lqs theta -> differentiable theta Zs lj ->
  (forall zs, zs <> [] -> option_map r_cost (reinforce true vr None m (tensor_of theta lj zs) (entropy_of theta lqs zs)) = Some [cost zs]) ->
  exists slope, is_derive (exact_elbo Zs q lj lqs) theta slope /\ consistent (q theta) Zs (fun zs => tan (cost zs)) (- slope).
Proof.
  intros F Dj C. destruct (fam_log _ _ _ _ F theta) as [N _]. pose proof (family_distribution Zs q (fam_pos _ _ _ _ F) (fam_sum _ _ _ _ F) theta) as D. destruct (dist_nonempty _ _ D) as [z0 _].
  set (c := if vr then m else 0). set (g := fun z => tan (entry theta lj lqs c z)). exists (- expect (q theta) Zs g). split; [now apply entry_unbiased|]. rewrite Ropp_involutive.
  assert (X : forall K zs, (1 <= K)%nat -> length zs = K -> tan (cost zs) = total g zs / INR K).
  { intros K zs HK Lz. assert (Nz : zs <> []) by now apply (nonempty zs K). specialize (C zs Nz). destruct (reinforce_cost true vr None m theta lj lqs zs z0 N ltac:(discriminate)) as (o & Ho & Co). rewrite Ho in C. cbn [option_map] in C. rewrite Co in C. injection C as <-.
    rewrite (map_ext_in _ (fun j => entry theta lj lqs c (nth j zs z0))). 2:{ intros j _. f_equal. unfold offset, c. destruct vr; cbn; ring. } change (tan (dmean (map (fun j => entry theta lj lqs c (nth j zs z0)) (seq 0 (length zs)))) = total g zs / INR K). rewrite tan_dmean by (rewrite Lz; destruct K; [lia|discriminate]). rewrite seq_length, Lz. f_equal. unfold g. rewrite <- Lz. symmetry. exact (total_nth z0 (fun z => tan (entry theta lj lqs c z)) zs). }
  apply (vanishing (q theta) Zs D _ _ (fun eps => variance (q theta) Zs g / eps ^ 2)). intros K eps HK He. eapply Rle_trans; [apply (chebyshev (q theta) Zs D g); [exact HK|exact He|intros zs; now apply X]|]. apply Req_le. field. repeat split; try lra; apply not_0_INR; lia.
Qed.

(** ** Inclusive KL *)
(** The self-normalised cost converges to the cross entropy of the posterior and the
    variational posterior, and its gradient to that of the inclusive divergence. *)
Theorem C69_inclusive {Z} (Zs : list Z) q lj lqs theta p cost :
  family Zs q lqs theta -> (forall z, In z Zs -> 0 < p z /\ at_param lj theta z = ln (p z)) ->
  (forall zs, zs <> [] -> klpq_importance true (tensor_of theta lj zs) (entropy_of theta lqs zs) = Some [cost zs]) ->
  consistent (q theta) Zs (fun zs => val (cost zs)) (expect (posterior p Zs) Zs (fun z => - ln (q theta z))) /\
  exists slope, is_derive (fun t => kl (posterior p Zs) (q t) Zs) theta slope /\ consistent (q theta) Zs (fun zs => tan (cost zs)) slope.
Proof.
  intros F P C. pose proof (fam_pos _ _ _ _ F) as Pq. destruct (fam_log _ _ _ _ F theta) as [N Lq]. pose proof (family_distribution Zs q Pq (fam_sum _ _ _ _ F) theta) as D. destruct (dist_nonempty _ _ D) as [z0 Hz0].
  assert (E0 : 0 < evidence p Zs) by (unfold evidence; apply total_pos; [intros ->; easy|intros x Hx; now apply P]). set (w := fun z => exp (log_weight lj lqs theta z)).
  assert (W : forall z, In z Zs -> w z = p z / q theta z). { intros z Hz. destruct (P z Hz) as (Pz & Lz). unfold w, log_weight. rewrite Lz, Lq by auto. unfold Rminus. rewrite exp_plus, exp_Ropp, !exp_ln by auto. reflexivity. }
  assert (S : expect (q theta) Zs w = evidence p Zs) by (apply total_ext; intros z Hz; rewrite (W z Hz); field; apply Rgt_not_eq, Pq, Hz).
  assert (R : forall h, expect (q theta) Zs (fun z => w z * h z) / expect (q theta) Zs w = expect (posterior p Zs) Zs h). { intros h. rewrite S. unfold Rdiv. unfold expect. rewrite <- total_scal_r. apply total_ext. intros z Hz. rewrite (W z Hz). unfold posterior. field. split; [lra|apply Rgt_not_eq, Pq, Hz]. }
  assert (X : forall K zs, (1 <= K)%nat -> possible (q theta) Zs K zs -> 0 < total w zs /\ val (cost zs) = total (fun z => w z * - log_q lqs theta z) zs / total w zs /\ tan (cost zs) = total (fun z => w z * - score lqs z) zs / total w zs).
  { intros K zs HK Hz. destruct (possible_some _ Zs zs K HK Hz) as (Nz & _). pose proof (total_exp_pos (log_weight lj lqs theta) zs Nz) as T. fold w in T. split; [exact T|]. specialize (C zs Nz). unfold klpq_importance in C. rewrite entropy_eq in C by exact N. rewrite log_w_eq in C. injection C as <-.
    rewrite weights_eq, map_map, zip_with_map, tan_dsum, val_dsum. cbn [val tan dmul]. rewrite total_map. cbn [val]. fold w. unfold Rdiv. split; rewrite <- total_scal_r; apply total_ext; intros z _; unfold w; field; exact (Rgt_not_eq _ _ T). }
  assert (G : forall h f, (forall K zs, (1 <= K)%nat -> possible (q theta) Zs K zs -> 0 < total w zs /\ f zs = total (fun z => w z * h z) zs / total w zs) -> consistent (q theta) Zs f (expect (posterior p Zs) Zs h)).
  { intros h f H. rewrite <- R. apply (vanishing (q theta) Zs D _ _ (fun eps => 4 * variance (q theta) Zs w / expect (q theta) Zs w ^ 2 + 4 * variance (q theta) Zs (fun z => w z * (h z - expect (q theta) Zs (fun z => w z * h z) / expect (q theta) Zs w)) / (eps * expect (q theta) Zs w) ^ 2)). intros K eps HK He. apply (ratio_off (q theta) Zs D w h); try assumption; [now rewrite S|]. intros zs. now apply H. }
  split.
  - rewrite (expect_ext _ Zs (fun z => - ln (q theta z)) (fun z => - log_q lqs theta z)) by (intros z Hz; rewrite Lq by auto; reflexivity). apply (G (fun z => - log_q lqs theta z)). intros K zs HK Hz. destruct (X K zs HK Hz) as (? & ? & ?). now split.
  - exists (expect (posterior p Zs) Zs (fun z => - score lqs z)). split; [|apply (G (fun z => - score lqs z)); intros K zs HK Hz; destruct (X K zs HK Hz) as (? & ? & ?); now split].
    apply (is_derive_total (fun t z => posterior p Zs z * ln (posterior p Zs z / q t z)) (fun z => posterior p Zs z * - score lqs z)). intros z Hz. destruct (P z Hz) as (Pz & _). assert (Pp : 0 < posterior p Zs z) by now apply Rdiv_lt_0_compat. apply (is_derive_scal (fun t => ln (posterior p Zs z / q t z)) theta).
    apply (is_derive_ext (fun t => ln (posterior p Zs z) - log_q lqs t z)). { intros t. destruct (fam_log _ _ _ _ F t) as [_ Lt]. rewrite Lt by auto. unfold Rdiv. rewrite ln_mult, ln_Rinv; auto. apply Rinv_0_lt_compat. auto. }
    replace (- score lqs z) with (0 - score lqs z) by ring. apply (is_derive_minus (K := R_AbsRing) (V := R_NormedModule) (fun _ => ln (posterior p Zs z)) (fun t => log_q lqs t z)); [apply (is_derive_const (K := R_AbsRing) (V := R_NormedModule))|]. apply (score_derive Zs lqs theta (fam_diff _ _ _ _ F)). exact Hz.
Qed.
Print Assumptions C69_elbo.
Print Assumptions C69_importance.
Print Assumptions C69_support_refuted.
Print Assumptions C69_importance_sgvb.
Print Assumptions C69_sgvb.
Print Assumptions C69_reinforce.
Print Assumptions C69_inclusive.

(** ** Cases *)
(** The coin of C33: every hypothesis holds, and one log weight has positive variance. *)
Example C69_case : let p (z : bool) := if z then exp 1 else 1 in let Zs := [true; false] in
  family Zs coin [coin_lq] 0 /\ differentiable 0 Zs coin_lj /\ (forall z, In z Zs -> 0 < p z /\ at_param coin_lj 0 z = ln (p z)) /\ (forall z, In z Zs -> 0 < coin 0 z) /\
  (exists v, forall zs, zs <> [] -> is_loglikelihood true (tensor_of 0 coin_lj zs) (entropy_of 0 [coin_lq] zs) = Some (v zs)) /\
  (exists cost, forall zs, zs <> [] -> klpq_importance true (tensor_of 0 coin_lj zs) (entropy_of 0 [coin_lq] zs) = Some [cost zs]) /\
  variance (coin 0) Zs (log_weight coin_lj [coin_lq] 0) = / 4 /\ chance_off (coin 0) Zs 1 (/ 2) (fun zs => nth 0 (map (log_weight coin_lj [coin_lq] 0) zs) 0) (expect (coin 0) Zs (log_weight coin_lj [coin_lq] 0)) = 1.
Proof.
  intros p Zs. assert (E : forall z, In z Zs -> log_weight coin_lj [coin_lq] 0 z = (if z then 1 else 0) + ln 2). { intros [|] _; unfold log_weight, log_q; cbn; rewrite exp_0; replace (1 + 1) with 2 by lra; ring. }
  assert (M : expect (coin 0) Zs (log_weight coin_lj [coin_lq] 0) = / 2 + ln 2). { rewrite (expect_ext _ Zs _ (fun z => (if z then 1 else 0) + ln 2) E). unfold expect, Zs. cbn. rewrite exp_0. field. }
  split; [apply coin_family|]. split; [apply coin_lj_diff|]. split; [intros z _; destruct z; cbn; split; try lra; try apply exp_pos; [now rewrite ln_exp|now rewrite ln_1]|]. split; [intros [|] _; cbn; rewrite exp_0; lra|].
  split; [eexists; intros zs _; unfold is_loglikelihood; now rewrite iw_eq|]. split; [eexists; intros zs _; unfold klpq_importance; rewrite entropy_eq by easy; rewrite log_w_eq; reflexivity|]. split.
  - unfold variance. rewrite M. rewrite (expect_ext _ Zs _ (fun z => ((if z then 1 else 0) - / 2) ^ 2)) by (intros z Hz; rewrite (E z Hz); ring). unfold expect, Zs. cbn. rewrite exp_0. field.
  - rewrite M. unfold chance_off. cbn [expects map nth]. rewrite (expect_ext _ Zs _ (fun _ => 1)); [apply expect_const, coin_distribution|]. intros z Hz. rewrite (E z Hz). destruct (Rle_dec (/ 2) _) as [_|X]; [reflexivity|elim X]. destruct z; [rewrite Rabs_pos_eq|rewrite Rabs_left]; lra.
Qed.
(** A variational posterior that never draws [false]. *)
Example C69_support_case : let q (z : bool) := if z then 1 else 0 in let lq := Quantity (fun _ (_ : bool) => 0) (fun _ => 0) in let Zs := [true; false] in
  distribution q Zs /\ log_probs_of q [lq] 0 Zs /\ In false Zs /\ q false = 0.
Proof.
  intros q lq Zs. split; [split; [intros [|] _; cbn; lra|cbn; lra]|]. split; [|split; [cbn; auto|reflexivity]]. split; [discriminate|]. intros [|] _ H; cbn in *; [rewrite ln_1; unfold log_q; cbn; ring|lra].
Qed.
