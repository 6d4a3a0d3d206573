(** C33, C34: the evidence lower bound and its two gradient estimators. *)
From Coq Require Import List Arith Bool Reals Lra Lia.
From Coquelicot Require Import Coquelicot.
From Verif Require Import SpecDist ModelVI SpecVI ProofDiscrete ProofVI.
Import ListNotations.
Local Open Scope R_scope.

Lemma elbo_eq {Z} axis theta lj lqs (zs : list Z) : lqs <> [] ->
  elbo_objective axis (tensor_of theta lj zs) (entropy_of theta lqs zs) =
  mean_if axis (map (fun z => Dual (log_weight lj lqs theta z) (partial lj z - score lqs z)) zs).
Proof. intros N. unfold elbo_objective. rewrite entropy_eq by easy. now rewrite log_w_eq. Qed.
Lemma nonempty {X} (l : list X) K : (1 <= K)%nat -> length l = K -> l <> [].
Proof. intros H E ->. cbn in E. lia. Qed.
Lemma dist_nonempty {Z} q (Zs : list Z) : distribution q Zs -> exists z, In z Zs.
Proof. destruct Zs as [|d Zs]; [|exists d; now left]. intros [_ H]. cbn in H. lra. Qed.

Lemma ln_ratio a b c : 0 < a -> 0 < b -> 0 < c -> ln (a / (b / c)) = ln a - ln b + ln c.
Proof.
  intros A B C. replace (a / (b / c)) with (a * (/ b * c)) by (field; lra).
  pose proof (Rinv_0_lt_compat b B). rewrite !ln_mult, ln_Rinv by (try apply Rmult_lt_0_compat; easy). ring.
Qed.
Lemma expect_log_weight {Z} (Zs : list Z) q lj lqs theta p :
  distribution q Zs -> log_probs_of q lqs theta Zs ->
  (forall z, In z Zs -> 0 < p z /\ at_param lj theta z = ln (p z)) ->
  expect q Zs (log_weight lj lqs theta) = ln (evidence p Zs) - kl q (posterior p Zs) Zs.
Proof.
  intros D [N L] P. destruct (dist_nonempty _ _ D) as [z0 H0].
  assert (E0 : 0 < evidence p Zs).
  { unfold evidence. apply total_pos; [now intros ->|]. intros x Hx. now apply P. }
  unfold kl. rewrite <- (expect_const q Zs D (ln (evidence p Zs))) at 1.
  replace (expect q Zs (fun z => ln (q z / posterior p Zs z))) with
    (- expect q Zs (fun z => - ln (q z / posterior p Zs z))).
  2:{ rewrite <- (Ropp_involutive (expect q Zs (fun z => ln (q z / posterior p Zs z)))). f_equal.
      replace (- expect q Zs (fun z => ln (q z / posterior p Zs z)))
        with (-1 * expect q Zs (fun z => ln (q z / posterior p Zs z))) by ring.
      rewrite <- expect_scal. apply expect_ext. intros; ring. }
  unfold Rminus. rewrite Ropp_involutive, <- expect_plus.
  apply Rle_antisym; apply expect_le; try easy; intros z Hz Q; apply Req_le;
    destruct (P z Hz) as [Pz Lz]; unfold log_weight, posterior;
    rewrite L, Lz, ln_ratio by easy; ring.
Qed.

(** Averaged over the draws, the elbo objective is the log evidence minus the
    divergence from the posterior, whatever the number of samples. *)
Theorem C33_expected_value {Z} (Zs : list Z) q lj lqs theta p K :
  distribution q Zs -> log_probs_of q lqs theta Zs ->
  (forall z, In z Zs -> 0 < p z /\ at_param lj theta z = ln (p z)) -> (1 <= K)%nat ->
  exists v, (forall zs, length zs = K ->
      elbo_objective true (tensor_of theta lj zs) (entropy_of theta lqs zs) = [v zs]) /\
    expects q Zs K (fun zs => val (v zs)) = ln (evidence p Zs) - kl q (posterior p Zs) Zs.
Proof.
  intros D L P HK.
  exists (fun zs => dmean (map (fun z => Dual (log_weight lj lqs theta z) (partial lj z - score lqs z)) zs)).
  split; [intros zs _; now rewrite elbo_eq by apply L|].
  rewrite <- (expect_log_weight Zs q lj lqs theta p) by easy.
  rewrite (expects_ext q Zs K _ (fun zs => total (log_weight lj lqs theta) zs * / INR K)).
  2:{ intros zs [Lz _]. rewrite val_dmean, Lz. cbn [val]. easy. }
  rewrite expects_scal_r, expects_each by easy. field. apply not_0_INR. lia.
Qed.

(** Without a sample axis every entry of the objective has that expectation. *)
Theorem C33_expected_value_unreduced {Z} (Zs : list Z) q lj lqs theta p K j d :
  distribution q Zs -> log_probs_of q lqs theta Zs ->
  (forall z, In z Zs -> 0 < p z /\ at_param lj theta z = ln (p z)) -> (j < K)%nat ->
  expects q Zs K (fun zs =>
    val (nth j (elbo_objective false (tensor_of theta lj zs) (entropy_of theta lqs zs)) d)) =
  ln (evidence p Zs) - kl q (posterior p Zs) Zs.
Proof.
  intros D L P HK. rewrite <- (expect_log_weight Zs q lj lqs theta p) by easy.
  destruct (dist_nonempty _ _ D) as [z0 _].
  rewrite <- (expects_nth q Zs D j K z0) by easy.
  apply expects_ext. intros zs [Lz _]. rewrite elbo_eq by apply L. unfold mean_if.
  rewrite (nth_indep _ d (Dual (log_weight lj lqs theta z0) (partial lj z0 - score lqs z0)))
    by (rewrite map_length; lia).
  rewrite (map_nth (fun z => Dual (log_weight lj lqs theta z) (partial lj z - score lqs z))). easy.
Qed.

(** Hence it never exceeds the log evidence, and reaches it exactly at the
    posterior. *)
Theorem C33_lower_bound {Z} (Zs : list Z) q lj lqs theta p K v :
  distribution q Zs -> log_probs_of q lqs theta Zs ->
  (forall z, In z Zs -> 0 < p z /\ at_param lj theta z = ln (p z)) -> (1 <= K)%nat ->
  (forall zs, length zs = K ->
      elbo_objective true (tensor_of theta lj zs) (entropy_of theta lqs zs) = [v zs]) ->
  expects q Zs K (fun zs => val (v zs)) <= ln (evidence p Zs) /\
  (expects q Zs K (fun zs => val (v zs)) = ln (evidence p Zs) <->
   forall z, In z Zs -> q z = posterior p Zs z).
Proof.
  intros D L P HK V.
  destruct (C33_expected_value Zs q lj lqs theta p K D L P HK) as [v' [V' E]].
  assert (E' : expects q Zs K (fun zs => val (v zs)) = expects q Zs K (fun zs => val (v' zs))).
  { apply expects_ext. intros zs [Lz _]. specialize (V zs Lz). specialize (V' zs Lz). congruence. }
  rewrite E', E.
  destruct (dist_nonempty _ _ D) as [z0 H0].
  assert (E0 : 0 < evidence p Zs).
  { unfold evidence. apply total_pos; [now intros ->|]. intros x Hx. now apply P. }
  assert (Pr : forall z, In z Zs -> 0 < posterior p Zs z).
  { intros z Hz. apply Rdiv_lt_0_compat; [now apply P|easy]. }
  assert (Sr : total (posterior p Zs) Zs = 1).
  { unfold posterior, Rdiv. rewrite total_scal_r. fold (evidence p Zs). field. lra. }
  pose proof (kl_nonneg q (posterior p Zs) Zs D Pr Sr) as K1.
  pose proof (kl_zero q (posterior p Zs) Zs D Pr Sr) as K2.
  split; [lra|]. rewrite <- K2. lra.
Qed.

(** With no latent node the objective is the log joint alone. *)
Theorem C33_no_latent axis (log_joint : list dual) :
  elbo_objective axis log_joint (entropy_term []) =
  if axis then [dmean log_joint] else log_joint.
Proof. easy. Qed.

(** sgvb() is the negated objective, in value and gradient. When every draw is a
    differentiable function of the parameter and of noise [e] (so that the log
    joint and the log probabilities become functions of the parameter and the
    noise), its expected gradient is minus the gradient of the expected
    objective. *)
Theorem C33_sgvb_unbiased {E} (Es : list E) w lj lqs theta K :
  distribution w Es -> lqs <> [] -> (1 <= K)%nat ->
  differentiable theta Es lj -> (forall lq, In lq lqs -> differentiable theta Es lq) ->
  exists objective cost,
    (forall t es, length es = K ->
      elbo_objective true (tensor_of t lj es) (entropy_of t lqs es) = [objective t es]) /\
    (forall es, length es = K ->
      elbo_sgvb true (tensor_of theta lj es) (entropy_of theta lqs es) = [cost es] /\
      val (cost es) = - val (objective theta es)) /\
    is_derive (fun t => expects w Es K (fun es => val (objective t es))) theta
      (- expects w Es K (fun es => tan (cost es))).
Proof.
  intros D N HK Dj Dq.
  set (obj := fun t es => dmean (map (fun z => Dual (log_weight lj lqs t z) (partial lj z - score lqs z)) es)).
  exists obj, (fun es => dneg (obj theta es)). split; [|split].
  - intros t es _. now rewrite elbo_eq.
  - intros es _. split; [|easy]. unfold elbo_sgvb. now rewrite elbo_eq.
  - rewrite <- expects_opp. 
    rewrite (expects_ext w Es K _ (fun es => total (fun _ => 0) es * val (obj theta es)
       + total (fun z => partial lj z - score lqs z) es / INR K)).
    2:{ intros es [Le _]. unfold obj. cbn [tan dneg]. rewrite tan_dmean by now apply (nonempty es K).
        rewrite Le, (total_zero (fun _ : E => 0)) by easy. cbn [tan]. ring. }
    apply (expects_derive Es (fun _ => w) (fun _ => 0) theta) with (f := fun t es => val (obj t es)).
    + intros z _. rewrite Rmult_0_r. apply (is_derive_const (K := R_AbsRing) (V := R_NormedModule) (w z)).
    + intros es [Le Fe]. apply (is_derive_ext (fun t => / INR K * total (log_weight lj lqs t) es)).
      { intros t. unfold obj. rewrite val_dmean, Le. exact (Rmult_comm _ _). }
      unfold Rdiv. rewrite (Rmult_comm _ (/ INR K)).
      apply (is_derive_scal (fun t => total (log_weight lj lqs t) es)).
      apply (is_derive_total (fun t z => log_weight lj lqs t z)). intros z Hz.
      assert (In z Es) by (rewrite List.Forall_forall in Fe; auto).
      apply (is_derive_minus (K := R_AbsRing) (V := R_NormedModule) (fun t => at_param lj t z) (fun t => log_q lqs t z)).
      * now apply Dj.
      * unfold log_q, score. apply (is_derive_total (fun t lq => at_param lq t z) (fun lq => partial lq z)).
        intros lq Hl. now apply Dq.
Qed.

(** ** Example: a coin with one parameter *)
Definition coin (t : R) (z : bool) : R := if z then exp t / (1 + exp t) else 1 / (1 + exp t).
Definition coin_lq : @quantity bool :=
  Quantity (fun t (z : bool) => if z then t - ln (1 + exp t) else - ln (1 + exp t))
           (fun z : bool => if z then / 2 else - / 2).
Definition coin_lj : @quantity bool :=
  Quantity (fun _ (z : bool) => if z then 1 else 0) (fun _ => 0).
Lemma coin_family : family [true; false] coin [coin_lq] 0.
Proof.
  split.
  - intros t z _. pose proof (exp_pos t). destruct z; cbn; apply Rdiv_lt_0_compat; lra.
  - intros t. pose proof (exp_pos t). cbn. field. lra.
  - intros t. split; [easy|]. intros z _ _. pose proof (exp_pos t). unfold log_q.
    destruct z; cbn; unfold Rdiv; rewrite ln_mult, ln_Rinv; try lra; try (apply Rinv_0_lt_compat; lra).
    + rewrite ln_exp. ring.
    + rewrite ln_1. ring.
  - intros lq [<- | []]. intros z _. destruct z; cbn; auto_derive.
    + rewrite exp_0. lra.
    + rewrite exp_0. field.
    + rewrite exp_0. lra.
    + rewrite exp_0. field.
Qed.
Lemma coin_lj_diff : differentiable 0 [true; false] coin_lj.
Proof. intros z _. apply (is_derive_const (K := R_AbsRing) (V := R_NormedModule) (if z then 1 else 0)). Qed.
Lemma coin_distribution t : distribution (coin t) [true; false].
Proof. destruct coin_family as [P S _ _]. split; [|apply S]. intros z Hz. now apply Rlt_le, P. Qed.

Example C33_case : exists v, (forall zs, length zs = 3%nat ->
      elbo_objective true (tensor_of 0 coin_lj zs) (entropy_of 0 [coin_lq] zs) = [v zs]) /\
    expects (coin 0) [true; false] 3 (fun zs => val (v zs)) =
    ln (exp 1 + (1 + 0)) - kl (coin 0) (posterior (fun z : bool => if z then exp 1 else 1) [true; false]) [true; false].
Proof.
  destruct (C33_expected_value [true; false] (coin 0) coin_lj [coin_lq] 0
    (fun z : bool => if z then exp 1 else 1) 3) as [v [V E]].
  - apply coin_distribution.
  - apply (fam_log _ _ _ _ coin_family).
  - intros z _. destruct z; cbn; split; try lra; try apply exp_pos; [now rewrite ln_exp|now rewrite ln_1].
  - lia.
  - exists v. split; [easy|]. rewrite E. unfold evidence. cbn [total]. now rewrite Rplus_0_r.
Qed.

(** ** REINFORCE *)

(** What is subtracted from the learning signal of sample [j]. *)
Definition offset (vr : bool) (baseline : option (list dual)) (m : R) (j : nat) : R :=
  if vr then match baseline with Some b => val (nth j b (dconst 0)) | None => 0 end + m else 0.

Lemma map_nth_seq {X Y} (f : X -> Y) l d : map f l = map (fun j => f (nth j l d)) (seq 0 (length l)).
Proof.
  induction l; cbn [map length seq]; [easy|]. cbn [nth]. f_equal. rewrite IHl, <- seq_shift, map_map. easy.
Qed.
Lemma as_seq {X} (l : list X) d K : length l = K -> l = map (fun j => nth j l d) (seq 0 K).
Proof. intros <-. rewrite <- (map_id l) at 1. now rewrite (map_nth_seq (fun x => x) l d). Qed.

Definition entry {Z} theta (lj : @quantity Z) lqs c z : dual :=
  Dual (- at_param lj theta z + (log_weight lj lqs theta z - c) * - log_q lqs theta z)
       (- partial lj z + (log_weight lj lqs theta z - c) * - score lqs z).

Lemma reinforce_cost {Z} axis vr baseline m theta (lj : @quantity Z) lqs zs d : lqs <> [] ->
  (forall b, baseline = Some b -> length b = length zs) ->
  exists o, reinforce axis vr baseline m (tensor_of theta lj zs) (entropy_of theta lqs zs) = Some o /\
    r_cost o = mean_if axis (map (fun j => entry theta lj lqs (offset vr baseline m j) (nth j zs d))
                                 (seq 0 (length zs))).
Proof.
  intros N HB. unfold reinforce. rewrite entropy_eq by easy. rewrite log_w_eq.
  destruct vr; [destruct baseline as [b|]|]; eexists; (split; [reflexivity|]); cbn [r_cost]; f_equal;
    unfold tensor_of.
  - specialize (HB b eq_refl). rewrite (as_seq b (dconst 0) (length zs)) at 1 by easy.
    rewrite !(map_nth_seq _ zs d). rewrite !map_map, zip_with_map, !map_map, !zip_with_map.
    apply map_ext. intros j. apply dual_eq; cbn; ring.
  - rewrite !map_map, zip_with_map, zip_with_map, (map_nth_seq _ zs d).
    apply map_ext. intros j. apply dual_eq; cbn; ring.
  - rewrite !map_map, zip_with_map, zip_with_map, (map_nth_seq _ zs d).
    apply map_ext. intros j. apply dual_eq; cbn; ring.
Qed.

(** Expected gradient of one entry of the cost. *)
Lemma entry_unbiased {Z} (Zs : list Z) q lj lqs theta c : family Zs q lqs theta ->
  differentiable theta Zs lj ->
  is_derive (exact_elbo Zs q lj lqs) theta (- expect (q theta) Zs (fun z => tan (entry theta lj lqs c z))).
Proof.
  intros [P S L Dq] Dj.
  pose proof (score_mean_zero Zs q lqs theta P S L Dq) as S0.
  assert (H : is_derive (fun t => expects (q t) Zs 1 (fun zs => total (log_weight lj lqs t) zs)) theta
    (expects (q theta) Zs 1 (fun zs => total (score lqs) zs * total (log_weight lj lqs theta) zs
      + total (fun z => partial lj z - score lqs z) zs))).
  { apply (expects_derive Zs q (score lqs) theta) with (f := fun t zs => total (log_weight lj lqs t) zs).
    - now apply family_derive.
    - intros zs [_ F]. apply (is_derive_total (fun t z => log_weight lj lqs t z)). intros z Hz.
      assert (In z Zs) by (rewrite List.Forall_forall in F; auto).
      apply (is_derive_minus (K := R_AbsRing) (V := R_NormedModule) (fun t => at_param lj t z) (fun t => log_q lqs t z)).
      + now apply Dj.
      + now apply (score_derive Zs lqs theta Dq). }
  cbn [expects total] in H.
  apply (is_derive_ext (fun t => expect (q t) Zs (fun z => log_weight lj lqs t z + 0))).
  { intros t. unfold exact_elbo. apply expect_ext. intros; apply Rplus_0_r. }
  match type of H with is_derive _ _ ?m => replace (- expect (q theta) Zs (fun z => tan (entry theta lj lqs c z))) with m end.
  { exact H. }
  transitivity (expect (q theta) Zs (fun z => partial lj z + log_weight lj lqs theta z * score lqs z + -1 * score lqs z)).
  { apply expect_ext. intros; ring. }
  rewrite expect_plus, expect_scal, S0.
  transitivity (-1 * expect (q theta) Zs (fun z => tan (entry theta lj lqs c z)) + c * expect (q theta) Zs (score lqs)); [|rewrite S0; ring].
  rewrite <- !expect_scal, <- expect_plus, Rmult_0_r, Rplus_0_r. apply expect_ext. intros z _. cbn. ring.
Qed.

(** For every number of samples, every baseline that does not look at the draws
    and every value of the moving mean that does not look at the draws, the
    expected gradient of the cost is minus the gradient of the exact ELBO. *)
Theorem C34_unbiased {Z} (Zs : list Z) q lj lqs theta K vr baseline m :
  family Zs q lqs theta -> differentiable theta Zs lj -> (1 <= K)%nat ->
  (forall b, baseline = Some b -> length b = K) ->
  exists cost, (forall zs, length zs = K ->
      option_map r_cost (reinforce true vr baseline m (tensor_of theta lj zs) (entropy_of theta lqs zs))
      = Some [cost zs]) /\
    is_derive (exact_elbo Zs q lj lqs) theta (- expects (q theta) Zs K (fun zs => tan (cost zs))).
Proof.
  intros F Dj HK HB. destruct (fam_log _ _ _ _ F theta) as [N _].
  pose proof (family_distribution Zs q (fam_pos _ _ _ _ F) (fam_sum _ _ _ _ F) theta) as D.
  destruct (dist_nonempty _ _ D) as [z0 _].
  exists (fun zs => dmean (map (fun j => entry theta lj lqs (offset vr baseline m j) (nth j zs z0)) (seq 0 (length zs)))).
  split.
  - intros zs Lz. destruct (reinforce_cost true vr baseline m theta lj lqs zs z0 N) as [o [E C]].
    { intros b Hb. rewrite Lz. auto. }
    rewrite E. cbn [option_map]. now rewrite C.
  - rewrite (expects_ext _ _ K _ (fun zs => / INR K * total (fun j => tan (entry theta lj lqs (offset vr baseline m j) (nth j zs z0))) (seq 0 K))).
    2:{ intros zs [Lz _]. rewrite Lz, tan_dmean by (destruct K; [lia|easy]). rewrite seq_length. unfold Rdiv. ring. }
    rewrite expects_scal, expects_total.
    assert (E : forall j, In j (seq 0 K) ->
      expects (q theta) Zs K (fun zs => tan (entry theta lj lqs (offset vr baseline m j) (nth j zs z0))) =
      - Derive (exact_elbo Zs q lj lqs) theta).
    { intros j Hj. apply in_seq in Hj.
      rewrite (expects_nth (q theta) Zs D j K z0 (fun z => tan (entry theta lj lqs (offset vr baseline m j) z))) by lia.
      rewrite (is_derive_unique _ _ _ (entry_unbiased Zs q lj lqs theta (offset vr baseline m j) F Dj)). ring. }
    rewrite (total_ext _ _ _ E), total_const, seq_length.
    replace (- (/ INR K * (- Derive (exact_elbo Zs q lj lqs) theta * INR K)))
      with (Derive (exact_elbo Zs q lj lqs) theta) by (field; apply not_0_INR; lia).
    apply Derive_correct. eexists. now apply (entry_unbiased Zs q lj lqs theta 0).
Qed.

(** Without a sample axis, each entry of the cost is unbiased. *)
Theorem C34_unbiased_unreduced {Z} (Zs : list Z) q lj lqs theta K vr baseline m j :
  family Zs q lqs theta -> differentiable theta Zs lj -> (j < K)%nat ->
  (forall b, baseline = Some b -> length b = K) ->
  exists cost, (forall zs, length zs = K -> exists o,
      reinforce false vr baseline m (tensor_of theta lj zs) (entropy_of theta lqs zs) = Some o /\
      nth_error (r_cost o) j = Some (cost zs)) /\
    is_derive (exact_elbo Zs q lj lqs) theta (- expects (q theta) Zs K (fun zs => tan (cost zs))).
Proof.
  intros F Dj HK HB. destruct (fam_log _ _ _ _ F theta) as [N _].
  pose proof (family_distribution Zs q (fam_pos _ _ _ _ F) (fam_sum _ _ _ _ F) theta) as D.
  destruct (dist_nonempty _ _ D) as [z0 _].
  exists (fun zs => entry theta lj lqs (offset vr baseline m j) (nth j zs z0)). split.
  - intros zs Lz. destruct (reinforce_cost false vr baseline m theta lj lqs zs z0 N) as [o [E C]].
    { intros b Hb. rewrite Lz. auto. }
    exists o. split; [easy|]. rewrite C. unfold mean_if.
    rewrite nth_error_map, (nth_error_nth' (seq 0 (length zs)) 0%nat) by (rewrite seq_length; lia).
    rewrite seq_nth by lia. easy.
  - rewrite (expects_nth (q theta) Zs D j K z0 (fun z => tan (entry theta lj lqs (offset vr baseline m j) z))) by lia.
    now apply entry_unbiased.
Qed.

(** With the moving average read before it is updated, the estimator is unbiased
    from any state the average may have reached through earlier runs, and each
    run feeds the mean learning signal to the average. *)
Definition baseline_values (K : nat) (baseline : option (list dual)) : list R :=
  match baseline with Some b => map val b | None => repeat 0 K end.
Lemma reinforce_bc {Z} axis baseline m theta (lj : @quantity Z) lqs zs K o : lqs <> [] -> length zs = K ->
  (forall b, baseline = Some b -> length b = K) ->
  reinforce axis true baseline m (tensor_of theta lj zs) (entropy_of theta lqs zs) = Some o ->
  exists bc, r_bc o = Some bc /\ val bc =
    total (fun p => log_weight lj lqs theta (fst p) - snd p) (combine zs (baseline_values K baseline)) / INR K.
Proof.
  intros N Lz HB. unfold reinforce. rewrite entropy_eq by easy. rewrite log_w_eq.
  destruct baseline as [b|]; intros [= <-]; eexists; (split; [reflexivity|]).
  - specialize (HB b eq_refl). unfold zip_with. rewrite val_dmean. f_equal.
    + clear - Lz HB. subst K. revert b HB. cbn [baseline_values].
      induction zs as [|z zs IH]; intros [|x b] H; cbn in *; try easy. f_equal. apply IH. lia.
    + rewrite combine_length, map_length. f_equal. lia.
  - rewrite val_dmean, Lz. f_equal. clear - Lz. subst K. cbn [baseline_values val].
    induction zs as [|z zs IH]; cbn in *; [easy|]. rewrite IH. ring.
Qed.
Theorem C34_moving_average {Z} (Zs : list Z) q lj lqs theta K baseline decay a :
  family Zs q lqs theta -> differentiable theta Zs lj -> (1 <= K)%nat ->
  (forall b, baseline = Some b -> length b = K) ->
  exists cost, (forall zs, length zs = K -> exists o,
      reinforce_run true true baseline decay a (tensor_of theta lj zs) (entropy_of theta lqs zs) =
        Some (o, assign_moving_average decay
          (total (fun p => log_weight lj lqs theta (fst p) - snd p)
                 (combine zs (baseline_values K baseline)) / INR K) a) /\
      r_cost o = [cost zs]) /\
    is_derive (exact_elbo Zs q lj lqs) theta (- expects (q theta) Zs K (fun zs => tan (cost zs))).
Proof.
  intros F Dj HK HB. destruct (fam_log _ _ _ _ F theta) as [N _].
  destruct (C34_unbiased Zs q lj lqs theta K true baseline (a_mean a) F Dj HK HB) as [cost [C U]].
  exists cost. split; [|exact U]. intros zs Lz. specialize (C zs Lz). unfold reinforce_run.
  destruct (reinforce true true baseline (a_mean a) _ _) as [o|] eqn:E; [|easy].
  assert (HB' : forall b, baseline = Some b -> length b = length zs) by (intros; rewrite Lz; auto).
  destruct (nth_error zs 0) as [d|] eqn:E0; [|apply nth_error_None in E0; lia].
  destruct (reinforce_cost true true baseline 0 theta lj lqs zs d N HB') as [o0 [E1 _]].
  rewrite E1. destruct (reinforce_bc _ _ _ _ _ _ _ K _ N Lz HB E1) as [bc [-> ->]].
  exists o. split; [easy|]. cbn in C. congruence.
Qed.

(** The average is the debiased exponential average of the values fed to it: it
    starts at 0, after the first value it equals that value, and it stays within
    any bounds on them. *)
Theorem C34_moving_average_range decay values lo hi : 0 < decay < 1 -> values <> [] ->
  (forall v, In v values -> lo <= v <= hi) ->
  lo <= a_mean (fold_left (fun a v => assign_moving_average decay v a) values average_init) <= hi.
Proof.
  intros Hd N H.
  assert (I : forall l a s, (forall v, In v l -> lo <= v <= hi) ->
    a_step a = s -> lo * (1 - decay ^ s) <= a_biased a <= hi * (1 - decay ^ s) ->
    let a' := fold_left (fun a v => assign_moving_average decay v a) l a in
    (l <> [] \/ a_mean a = a_biased a / (1 - decay ^ s) /\ (1 <= s)%nat) ->
    lo <= a_mean a' <= hi).
  { induction l as [|v l IH]; intros a s Hl Hs Hb a' C; cbn in a'.
    - destruct C as [C | [Cm Cs]]; [easy|]. unfold a'. rewrite Cm.
      assert (P : 0 < 1 - decay ^ s).
      { pose proof (pow_lt_1_compat decay s) as Q. assert (0 <= decay < 1 /\ (0 < s)%nat) by (split; [lra|lia]).
        destruct H0. specialize (Q H0 H1). lra. }
      split; apply (Rmult_le_reg_r (1 - decay ^ s)); try easy; unfold Rdiv;
        rewrite Rmult_assoc, Rinv_l, Rmult_1_r by lra; lra.
    - apply (IH _ (S s)).
      + intros; apply Hl; now right.
      + cbn. now rewrite Hs.
      + cbn [a_biased assign_moving_average]. assert (lo <= v <= hi) by (apply Hl; now left).
        cbn [pow].
        replace (a_biased a - (a_biased a - v) * (1 - decay)) with (decay * a_biased a + (1 - decay) * v) by ring.
        split.
        * replace (lo * (1 - decay * decay ^ s)) with (decay * (lo * (1 - decay ^ s)) + (1 - decay) * lo) by ring.
          apply Rplus_le_compat; apply Rmult_le_compat_l; lra.
        * replace (hi * (1 - decay * decay ^ s)) with (decay * (hi * (1 - decay ^ s)) + (1 - decay) * hi) by ring.
          apply Rplus_le_compat; apply Rmult_le_compat_l; lra.
      + right. split; [|lia]. unfold assign_moving_average. cbn [a_mean a_biased]. rewrite Hs. ring. }
  apply (I values average_init 0%nat); [easy|easy|cbn; lra|now left].
Qed.

(** The baseline cost moves the baseline towards the exact ELBO: its expected
    gradient vanishes there, and its expectation is smallest there. *)
Theorem C34_baseline_cost {Z} (Zs : list Z) q lj lqs theta K b m :
  distribution q Zs -> lqs <> [] -> (1 <= K)%nat ->
  let elbo := expect q Zs (log_weight lj lqs theta) in
  exists cost, (forall zs, length zs = K -> exists o,
      reinforce true true (Some (repeat b K)) m (tensor_of theta lj zs) (entropy_of theta lqs zs) = Some o /\
      r_baseline_cost o = Some [cost zs]) /\
    expects q Zs K (fun zs => tan (cost zs)) = (val b - elbo) * tan b /\
    expects q Zs K (fun zs => val (cost zs)) =
      / 2 * expect q Zs (fun z => (log_weight lj lqs theta z - elbo) ^ 2) + / 2 * (val b - elbo) ^ 2.
Proof.
  intros D N HK elbo.
  set (f := fun z => dmul (dconst (/ 2)) (dsquare (dsub (stop_gradient (Dual (log_weight lj lqs theta z) (partial lj z - score lqs z))) b))).
  exists (fun zs => dmean (map f zs)). split.
  - intros zs Lz. unfold reinforce. rewrite entropy_eq by easy. rewrite log_w_eq. eexists. split; [reflexivity|].
    cbn [r_baseline_cost]. unfold mean_if. do 3 f_equal. rewrite map_map. unfold f. clear - Lz. subst K.
    unfold zip_with. induction zs as [|z zs IH]; [easy|]. cbn [length repeat combine map]. f_equal. exact IH.
  - assert (KN : INR K <> 0) by (apply not_0_INR; lia). split.
    + rewrite (expects_ext _ _ K _ (fun zs => total (fun z => tan (f z)) zs * / INR K)).
      2:{ intros zs [Lz _]. rewrite tan_dmean, Lz by now apply (nonempty zs K). easy. }
      rewrite expects_scal_r, expects_each by easy.
      replace (expect q Zs (fun z => tan (f z))) with ((val b - elbo) * tan b); [field; easy|].
      rewrite (expect_ext q Zs _ (fun z => val b * tan b + - tan b * log_weight lj lqs theta z)).
      2:{ intros z _. unfold f. cbn. field. }
      rewrite expect_plus, (expect_const q Zs D), expect_scal. fold elbo. ring.
    + rewrite (expects_ext _ _ K _ (fun zs => total (fun z => val (f z)) zs * / INR K)).
      2:{ intros zs [Lz _]. rewrite val_dmean, Lz. easy. }
      rewrite expects_scal_r, expects_each by easy.
      replace (expect q Zs (fun z => val (f z))) with
        (/ 2 * expect q Zs (fun z => (log_weight lj lqs theta z - elbo) ^ 2) + / 2 * (val b - elbo) ^ 2); [field; easy|].
      symmetry.
      rewrite (expect_ext q Zs _ (fun z => / 2 * (log_weight lj lqs theta z - elbo) ^ 2 +
         (/ 2 * (val b - elbo) ^ 2 - (val b - elbo) * - elbo + (- (val b - elbo)) * log_weight lj lqs theta z))).
      2:{ intros z _. unfold f. cbn. field. }
      rewrite !expect_plus, (expect_const q Zs D), !expect_scal. fold elbo. ring.
Qed.

(** Which baseline cost is returned: none without variance reduction or without a
    baseline; otherwise half the squared distance between the learning signal and the
    baseline of each sample, with gradients for the baseline only, averaged exactly when
    there is a sample axis. *)
Theorem C34_baseline_output {Z} axis vr baseline m theta (lj : @quantity Z) lqs zs o : lqs <> [] -> zs <> [] ->
  (forall b, baseline = Some b -> length b = length zs) ->
  reinforce axis vr baseline m (tensor_of theta lj zs) (entropy_of theta lqs zs) = Some o ->
  match vr, baseline with
  | true, Some b =>
      let values := map (fun x => / 2 * (log_weight lj lqs theta (fst x) - val (snd x)) ^ 2) (combine zs b) in
      let slopes := map (fun x => (val (snd x) - log_weight lj lqs theta (fst x)) * tan (snd x)) (combine zs b) in
      exists c, r_baseline_cost o = Some c /\
        if axis then exists e, c = [e] /\ val e = mean values /\ tan e = mean slopes
        else map val c = values /\ map tan c = slopes
  | _, _ => r_baseline_cost o = None
  end.
Proof.
  intros N Nz HB. unfold reinforce. rewrite entropy_eq by easy. rewrite log_w_eq.
  destruct vr; [destruct baseline as [b|]|]; intros E; injection E as <-; cbn [r_baseline_cost]; try reflexivity.
  specialize (HB b eq_refl). cbv zeta. eexists. split; [reflexivity|].
  set (f := fun x : Z * dual => dmul (dconst (/ 2)) (dsquare (dsub (stop_gradient (Dual (log_weight lj lqs theta (fst x)) (partial lj (fst x) - score lqs (fst x)))) (snd x)))).
  assert (Ez : map (fun d => dmul (dconst (/ 2)) (dsquare d))
     (zip_with dsub (map stop_gradient (map (fun z => Dual (log_weight lj lqs theta z) (partial lj z - score lqs z)) zs)) b) = map f (combine zs b)).
  { clear Nz. revert b HB. unfold zip_with, f. induction zs as [|z zs IH]; intros [|e b] HB; try discriminate; [easy|].
    injection HB as HB. cbn [combine map fst snd]. f_equal. now apply IH. }
  assert (Ev : forall x, val (f x) = / 2 * (log_weight lj lqs theta (fst x) - val (snd x)) ^ 2) by (intros x; unfold f; cbn; ring).
  assert (Et : forall x, tan (f x) = (val (snd x) - log_weight lj lqs theta (fst x)) * tan (snd x)) by (intros x; unfold f; cbn; field).
  rewrite Ez. clear Ez. destruct axis; cbn [mean_if].
  - assert (Lc : length (combine zs b) = length zs) by (rewrite combine_length; lia).
    assert (Nc : combine zs b <> []) by (intros Q; rewrite Q in Lc; destruct zs; [now apply Nz|discriminate]).
    assert (Em : forall g : Z * dual -> R, mean (map g (combine zs b)) = total g (combine zs b) / INR (length (combine zs b))).
    { intros g. unfold mean. rewrite map_length. f_equal. generalize (combine zs b) as l. induction l as [|x l IH]; [easy|]. cbn. now f_equal. }
    eexists. split; [reflexivity|]. split.
    + rewrite val_dmean, Em. f_equal. apply total_ext. intros x _. apply Ev.
    + rewrite tan_dmean, Em by exact Nc. f_equal. apply total_ext. intros x _. apply Et.
  - split; rewrite map_map; apply map_ext; [apply Ev|apply Et].
Qed.
Print Assumptions C34_baseline_output.

(** There is no reinforce() without latent variables. *)
Theorem C34_needs_latent axis vr baseline m log_joint :
  reinforce axis vr baseline m log_joint (entropy_term []) = None.
Proof. easy. Qed.

(** When the update runs first the estimator is biased: on the first run with one
    sample and no baseline, the updated average equals the learning signal, the
    variational parameters get no gradient at all, and for the coin the expected
    gradient is 0 while the ELBO has slope 1/4. *)
Theorem C34_update_first_refuted :
  (forall Z (lj : @quantity Z) lqs theta decay z, lqs <> [] -> decay <> 1 -> exists o a c,
     reinforce_run false true None decay average_init (tensor_of theta lj [z]) (entropy_of theta lqs [z]) = Some (o, a) /\
     r_cost o = [c] /\ tan c = - partial lj z) /\
  exists cost,
    (forall zs, length zs = 1%nat -> exists o a,
      reinforce_run false true None (4 / 5) average_init (tensor_of 0 coin_lj zs) (entropy_of 0 [coin_lq] zs) = Some (o, a) /\
      r_cost o = [cost zs]) /\
    ~ is_derive (exact_elbo [true; false] coin coin_lj [coin_lq]) 0
        (- expects (coin 0) [true; false] 1 (fun zs => tan (cost zs))).
Proof.
  assert (G : forall Z (lj : @quantity Z) lqs theta decay z, lqs <> [] -> decay <> 1 -> exists o a c,
     reinforce_run false true None decay average_init (tensor_of theta lj [z]) (entropy_of theta lqs [z]) = Some (o, a) /\
     r_cost o = [c] /\ tan c = - partial lj z).
  { intros Z lj lqs theta decay z N Hd. unfold reinforce_run.
    assert (HB : forall b : list dual, None = Some b -> length b = length [z]) by easy.
    destruct (reinforce_cost true true None 0 theta lj lqs [z] z N HB) as [o0 [E0 _]]. rewrite E0.
    destruct (reinforce_bc true None 0 theta lj lqs [z] 1 o0 N eq_refl (fun b H => HB b H) E0) as [bc [-> B]].
    cbn [baseline_values repeat combine total fst snd length INR] in B.
    set (m := a_mean (assign_moving_average decay (val bc) average_init)).
    assert (M : m = log_weight lj lqs theta z).
    { unfold m. cbn. rewrite B. field. lra. }
    destruct (reinforce_cost true true None m theta lj lqs [z] z N HB) as [o [E C]]. rewrite E.
    exists o. do 2 eexists. split; [reflexivity|]. split; [exact C|].
    cbn [length seq map]. clear C E. clearbody m. subst m. unfold dmean, ddiv. cbn. field. }
  split; [exact G|].
  pose (cost := fun zs : list bool => match zs with
    | z :: _ => match reinforce_run false true None (4 / 5) average_init (tensor_of 0 coin_lj [z]) (entropy_of 0 [coin_lq] [z]) with
                | Some (o, _) => match r_cost o with c :: _ => c | [] => dconst 0 end | None => dconst 0 end
    | [] => dconst 0 end).
  assert (Hc : forall z, tan (cost [z]) = 0 /\ exists o a,
    reinforce_run false true None (4 / 5) average_init (tensor_of 0 coin_lj [z]) (entropy_of 0 [coin_lq] [z]) = Some (o, a) /\
      r_cost o = [cost [z]]).
  { intros z. destruct (G bool coin_lj [coin_lq] 0 (4 / 5) z) as [o [a [c [E [C T]]]]]; [easy|lra|].
    unfold cost. rewrite E, C. split; [rewrite T; cbn; ring|]. now exists o, a. }
  exists cost. split.
  - intros [|z [|z' zs]] Hl; cbn in Hl; try lia. apply Hc.
  - cbn [expects expect total]. unfold expect. cbn [total].
    destruct (Hc true) as [-> _], (Hc false) as [-> _]. intros H.
    destruct (C34_unbiased [true; false] coin coin_lj [coin_lq] 0 1 false None 0) as [c [E U]];
      [apply coin_family|apply coin_lj_diff|lia|easy|].
    apply is_derive_unique in H. apply is_derive_unique in U. rewrite U in H.
    cbn [expects] in H. unfold expect in H. cbn [total] in H.
    assert (T : forall z, tan (c [z]) = - (log_weight coin_lj [coin_lq] 0 z * score [coin_lq] z)).
    { intros z. specialize (E [z] eq_refl).
      assert (HB : forall b : list dual, None = Some b -> length b = length [z]) by easy.
      destruct (reinforce_cost true false None 0 0 coin_lj [coin_lq] [z] z) as [o [E0 C]]; [easy|easy|].
      rewrite E0 in E. cbn [option_map] in E. rewrite C in E. injection E as <-.
      unfold dmean, ddiv. cbn. field. }
    rewrite !T in H. unfold log_weight, log_q, score in H. cbn in H. rewrite exp_0 in H. lra.
Qed.

Example C34_case : exists cost, (forall zs, length zs = 2%nat ->
      option_map r_cost (reinforce true true (Some [Dual 3 1; Dual (-7) 2]) 5
        (tensor_of 0 coin_lj zs) (entropy_of 0 [coin_lq] zs)) = Some [cost zs]) /\
    is_derive (exact_elbo [true; false] coin coin_lj [coin_lq]) 0
      (- expects (coin 0) [true; false] 2 (fun zs => tan (cost zs))).
Proof.
  apply C34_unbiased; [apply coin_family|apply coin_lj_diff|lia|]. now intros b [= <-].
Qed.

Print Assumptions C33_expected_value.
Print Assumptions C33_expected_value_unreduced.
Print Assumptions C33_lower_bound.
Print Assumptions C33_no_latent.
Print Assumptions C33_sgvb_unbiased.
Print Assumptions C34_unbiased.
Print Assumptions C34_unbiased_unreduced.
Print Assumptions C34_moving_average.
Print Assumptions C34_moving_average_range.
Print Assumptions C34_baseline_cost.
Print Assumptions C34_needs_latent.
Print Assumptions C34_update_first_refuted.

(** Two draws of the coin with different baselines and no sample axis. *)
Example baseline_output_case : exists o,
  reinforce false true (Some [Dual 3 1; Dual (-7) 2]) 5 (tensor_of 0 coin_lj [true; false]) (entropy_of 0 [coin_lq] [true; false]) = Some o /\
  exists e e', r_baseline_cost o = Some [e; e'].
Proof. eexists. split; [reflexivity|]. eexists. eexists. reflexivity. Qed.
