(** C35, C37: importance weighted objective and inclusive KL. *)
From Coq Require Import List Arith Bool Reals Lra Lia.
From Coquelicot Require Import Coquelicot.
From Verif Require Import SpecDist ModelVI SpecVI ProofDiscrete ProofVI PropELBO.
Import ListNotations.
Local Open Scope R_scope.

Definition weighted {Z} theta (lj : @quantity Z) lqs z : dual :=
  Dual (log_weight lj lqs theta z) (partial lj z - score lqs z).
Lemma iw_eq {Z} theta (lj : @quantity Z) lqs zs : lqs <> [] ->
  iw_objective true (tensor_of theta lj zs) (entropy_of theta lqs zs) =
  Some (log_mean_exp (map (weighted theta lj lqs) zs)).
Proof. intros N. unfold iw_objective. rewrite entropy_eq by easy. now rewrite log_w_eq. Qed.
Lemma val_weighted {Z} theta (lj : @quantity Z) lqs zs : zs <> [] ->
  val (log_mean_exp (map (weighted theta lj lqs) zs)) = ln_mean_exp (map (log_weight lj lqs theta) zs).
Proof.
  intros N. rewrite val_lme by easy. unfold ln_mean_exp, mean. rewrite map_map, total_map, map_length. easy.
Qed.
Lemma total_exp_pos {X} (w : X -> R) zs : zs <> [] -> 0 < total (fun z => exp (w z)) zs.
Proof. intros N. apply total_pos; [easy|]. intros; apply exp_pos. Qed.
Lemma lme_form {X} (w : X -> R) zs : ln_mean_exp (map w zs) = ln (total (fun z => exp (w z)) zs / INR (length zs)).
Proof. unfold ln_mean_exp, mean. now rewrite map_map, total_map, map_length. Qed.
Lemma lme_ge {X} (w : X -> R) zs : zs <> [] -> mean (map w zs) <= ln_mean_exp (map w zs).
Proof.
  intros N. rewrite lme_form. unfold mean. rewrite total_map, map_length.
  eapply Rle_trans; [|apply (ln_jensen (fun z => exp (w z)))]; [|easy|intros; apply exp_pos].
  apply Req_le. f_equal. apply total_ext. intros; now rewrite ln_exp.
Qed.
Lemma lme_le {X} (w : X -> R) zs c : zs <> [] -> (forall z, In z zs -> w z <= c) -> ln_mean_exp (map w zs) <= c.
Proof.
  intros N H. rewrite lme_form. pose proof (len_pos zs N). pose proof (total_exp_pos w zs N).
  rewrite <- (ln_exp c). apply ln_le; [now apply Rdiv_lt_0_compat|].
  apply (Rmult_le_reg_r (INR (length zs))); [easy|].
  unfold Rdiv. rewrite Rmult_assoc, Rinv_l, Rmult_1_r by lra. rewrite <- (total_const (exp c) zs).
  apply total_le. intros z Hz. destruct (H z Hz) as [L | ->]; [left; now apply exp_increasing|lra].
Qed.

(** On every set of draws the objective is the log of the average weight; it lies
    between the average log weight, which is the elbo objective on the same draws,
    and the largest log weight. is_loglikelihood is the same number. *)
Theorem C35_sandwich {Z} theta (lj : @quantity Z) lqs zs : lqs <> [] -> zs <> [] ->
  exists v e, iw_objective true (tensor_of theta lj zs) (entropy_of theta lqs zs) = Some v /\
    is_loglikelihood true (tensor_of theta lj zs) (entropy_of theta lqs zs) = Some v /\
    elbo_objective true (tensor_of theta lj zs) (entropy_of theta lqs zs) = [e] /\
    val v = ln_mean_exp (map (log_weight lj lqs theta) zs) /\
    val e = mean (map (log_weight lj lqs theta) zs) /\
    val e <= val v /\
    forall c, (forall z, In z zs -> log_weight lj lqs theta z <= c) -> val v <= c.
Proof.
  intros N Nz. unfold is_loglikelihood. rewrite iw_eq, elbo_eq by easy. do 2 eexists.
  do 3 (split; [reflexivity|]). rewrite val_weighted by easy. split; [easy|].
  rewrite val_dmean. cbn [val].
  replace (total (fun z => log_weight lj lqs theta z) zs / INR (length zs)) with (mean (map (log_weight lj lqs theta) zs))
    by (unfold mean; now rewrite total_map, map_length).
  split; [easy|]. split; [now apply lme_ge|]. intros c H. now apply lme_le.
Qed.

(** With one sample it is the elbo. *)
Theorem C35_one_sample {Z} theta (lj : @quantity Z) lqs z : lqs <> [] ->
  exists v e, iw_objective true (tensor_of theta lj [z]) (entropy_of theta lqs [z]) = Some v /\
    elbo_objective true (tensor_of theta lj [z]) (entropy_of theta lqs [z]) = [e] /\
    v = e.
Proof.
  intros N. rewrite iw_eq, elbo_eq by easy. do 2 eexists. do 2 (split; [reflexivity|]).
  apply dual_eq.
  - rewrite val_weighted, val_dmean by easy. cbn [map]. unfold ln_mean_exp, mean. cbn.
    replace ((exp (log_weight lj lqs theta z) + 0) / 1) with (exp (log_weight lj lqs theta z)) by field.
    rewrite ln_exp. field.
  - rewrite tan_lme, tan_dmean by easy. cbn. pose proof (exp_pos (log_weight lj lqs theta z)). field. lra.
Qed.

Lemma weights_mean {Z} (Zs : list Z) q lj lqs theta p : distribution q Zs -> log_probs_of q lqs theta Zs ->
  (forall z, In z Zs -> 0 < p z /\ at_param lj theta z = ln (p z)) ->
  expect q Zs (fun z => exp (log_weight lj lqs theta z)) <= evidence p Zs.
Proof.
  intros D [N L] P. unfold expect, evidence. apply total_le. intros z Hz. destruct (P z Hz) as [Pz Lz].
  destruct D as [Q _]. destruct (Rle_lt_or_eq_dec 0 (q z) (Q z Hz)) as [H | <-]; [|lra].
  unfold log_weight. rewrite Lz, L by easy. unfold Rminus. rewrite exp_plus, exp_Ropp, !exp_ln by easy.
  apply Req_le. field. lra.
Qed.

(** In expectation it is at most the log evidence. *)
Theorem C35_lower_bound {Z} (Zs : list Z) q lj lqs theta p K v :
  distribution q Zs -> log_probs_of q lqs theta Zs ->
  (forall z, In z Zs -> 0 < p z /\ at_param lj theta z = ln (p z)) -> (1 <= K)%nat ->
  (forall zs, length zs = K ->
      iw_objective true (tensor_of theta lj zs) (entropy_of theta lqs zs) = Some (v zs)) ->
  expects q Zs K (fun zs => val (v zs)) <= ln (evidence p Zs).
Proof.
  intros D L P HK V. destruct (dist_nonempty _ _ D) as [z0 H0].
  assert (E0 : 0 < evidence p Zs).
  { unfold evidence. apply total_pos; [now intros ->|]. intros x Hx. now apply P. }
  set (w := log_weight lj lqs theta). assert (HN : 0 < INR K) by (apply lt_0_INR; lia).
  apply Rle_trans with (expects q Zs K (fun zs => total (fun z => exp (w z)) zs * / (INR K * evidence p Zs) + (ln (evidence p Zs) - 1))).
  - apply expects_le; [easy|]. intros zs [[Lz _] _]. specialize (V zs Lz).
    assert (Nz : zs <> []) by now apply (nonempty zs K).
    rewrite iw_eq in V by apply L. injection V as <-. rewrite val_weighted by easy. fold w. rewrite lme_form, Lz.
    pose proof (total_exp_pos w zs Nz) as W.
    eapply Rle_trans; [apply (ln_tangent _ (evidence p Zs)); [now apply Rdiv_lt_0_compat|easy]|].
    apply Req_le. field. lra.
  - rewrite expects_plus, expects_const, expects_scal_r, expects_each by easy.
    pose proof (weights_mean Zs q lj lqs theta p D L P) as M. fold w in M.
    assert (expect q Zs (fun z => exp (w z)) * / evidence p Zs <= 1).
    { apply (Rmult_le_reg_r (evidence p Zs)); [easy|]. rewrite Rmult_assoc, Rinv_l by lra. lra. }
    replace (INR K * expect q Zs (fun z => exp (w z)) * / (INR K * evidence p Zs))
      with (expect q Zs (fun z => exp (w z)) * / evidence p Zs) by (field; lra). lra.
Qed.

(** Adding samples never lowers the expected objective. *)
Lemma remove_total {X} (f : X -> R) (l : list X) d j : (j < length l)%nat ->
  total f (remove_nth j l) = total f l - f (nth j l d).
Proof.
  intros H. unfold remove_nth. rewrite <- (firstn_skipn j l) at 3. rewrite !total_app.
  replace (skipn j l) with (nth j l d :: skipn (S j) l).
  - cbn [total]. ring.
  - revert j H. induction l; intros [|j] H; cbn in *; try lia; [easy|]. apply IHl. lia.
Qed.
Lemma remove_length {X} (l : list X) j : (j < length l)%nat -> length (remove_nth j l) = (length l - 1)%nat.
Proof. intros H. unfold remove_nth. rewrite app_length, firstn_length, skipn_length. lia. Qed.
Lemma lme_step {X} (w : X -> R) (zs : list X) K : length zs = S K -> (1 <= K)%nat ->
  total (fun j => ln_mean_exp (map w (remove_nth j zs))) (seq 0 (S K)) * / INR (S K) <= ln_mean_exp (map w zs).
Proof.
  intros L HK. assert (Nz : zs <> []) by (intros ->; easy). destruct zs as [|d zs'] eqn:E; [easy|]. rewrite <- E in *. clear E zs'.
  assert (HN : 0 < INR K) by (apply lt_0_INR; lia).
  assert (HL : forall j, In j (seq 0 (S K)) -> length (remove_nth j zs) = K).
  { intros j Hj. apply in_seq in Hj. rewrite remove_length; lia. }
  assert (HP : forall j, In j (seq 0 (S K)) -> 0 < total (fun z => exp (w z)) (remove_nth j zs) / INR K).
  { intros j Hj. apply Rdiv_lt_0_compat; [|easy]. apply total_exp_pos. apply (nonempty _ K); auto. }
  pose proof (ln_jensen (fun j => total (fun z => exp (w z)) (remove_nth j zs) / INR K) (seq 0 (S K))) as J.
  rewrite seq_length in J. specialize (J ltac:(easy) HP).
  rewrite (total_ext (fun j => ln_mean_exp (map w (remove_nth j zs)))
     (fun j => ln (total (fun z => exp (w z)) (remove_nth j zs) / INR K))).
  2:{ intros j Hj. now rewrite lme_form, HL. }
  eapply Rle_trans; [exact J|]. rewrite lme_form, L. apply Req_le. f_equal. unfold Rdiv. f_equal.
  rewrite total_scal_r. rewrite (total_ext _ (fun j => total (fun z => exp (w z)) zs - exp (w (nth j zs d)))).
  2:{ intros j Hj. apply in_seq in Hj. apply (remove_total (fun z => exp (w z))). lia. }
  rewrite total_minus, total_const, seq_length. rewrite <- L at 2.
  rewrite <- (total_nth d (fun z => exp (w z)) zs). rewrite S_INR. field. lra.
Qed.
Theorem C35_monotone {Z} (Zs : list Z) q lj lqs theta K K' v v' :
  distribution q Zs -> lqs <> [] -> (1 <= K <= K')%nat ->
  (forall zs, length zs = K ->
      iw_objective true (tensor_of theta lj zs) (entropy_of theta lqs zs) = Some (v zs)) ->
  (forall zs, length zs = K' ->
      iw_objective true (tensor_of theta lj zs) (entropy_of theta lqs zs) = Some (v' zs)) ->
  expects q Zs K (fun zs => val (v zs)) <= expects q Zs K' (fun zs => val (v' zs)).
Proof.
  intros D N [HK H] V V'. set (w := log_weight lj lqs theta).
  assert (A : forall K v, (1 <= K)%nat -> (forall zs, length zs = K ->
      iw_objective true (tensor_of theta lj zs) (entropy_of theta lqs zs) = Some (v zs)) ->
    expects q Zs K (fun zs => val (v zs)) = expects q Zs K (fun zs => ln_mean_exp (map w zs))).
  { clear - N. intros K v HK V. apply expects_ext. intros zs [Lz _]. specialize (V zs Lz).
    rewrite iw_eq in V by easy. injection V as <-. apply val_weighted. now apply (nonempty zs K). }
  rewrite (A K v), (A K' v') by (try easy; lia). clear V V' A v v'. induction H as [|K' H IH]; [lra|].
  eapply Rle_trans; [exact IH|]. clear IH.
  apply Rle_trans with (expects q Zs (S K') (fun zs => total (fun j => ln_mean_exp (map w (remove_nth j zs))) (seq 0 (S K')) * / INR (S K'))).
  - rewrite expects_scal_r, expects_total.
    rewrite (total_ext _ (fun _ => expects q Zs K' (fun zs => ln_mean_exp (map w zs)))).
    2:{ intros j Hj. apply in_seq in Hj. apply (expects_drop q Zs D j K' (fun zs => ln_mean_exp (map w zs))). lia. }
    rewrite total_const, seq_length. apply Req_le. field. apply not_0_INR. lia.
  - apply expects_le; [easy|]. intros zs [[Lz _] _]. apply lme_step; [easy|lia].
Qed.

(** The objective requires the sample axis and at least one latent variable. *)
Theorem C35_required_arguments log_joint e :
  iw_objective false log_joint e = None /\ iw_objective true log_joint (entropy_term []) = None.
Proof. easy. Qed.

Lemma lme_derive {X} (Zs : list X) (w : R -> X -> R) (w' : X -> R) theta zs : zs <> [] ->
  (forall z, In z zs -> is_derive (fun t => w t z) theta (w' z)) ->
  is_derive (fun t => ln_mean_exp (map (w t) zs)) theta
    (tan (log_mean_exp (map (fun z => Dual (w theta z) (w' z)) zs))).
Proof.
  intros N H. rewrite tan_lme by easy. cbn [val tan].
  set (S := fun t => total (fun z => exp (w t z)) zs).
  assert (HS : is_derive S theta (total (fun z => w' z * exp (w theta z)) zs)).
  { apply (is_derive_total (fun t z => exp (w t z))). intros z Hz.
    apply (is_derive_comp exp (fun t => w t z)); [apply is_derive_exp|auto]. }
  pose proof (len_pos zs N) as HN. pose proof (total_exp_pos (w theta) zs N) as HP. fold (S theta) in HP.
  apply (is_derive_ext_loc (fun t => ln (S t / INR (length zs)))).
  { apply filter_forall. intros t. now rewrite lme_form. }
  assert (HD : is_derive (fun t => S t / INR (length zs)) theta (total (fun z => w' z * exp (w theta z)) zs / INR (length zs))).
  { apply (is_derive_ext (fun t => / INR (length zs) * S t)); [intros t; apply Rmult_comm|].
    unfold Rdiv. rewrite Rmult_comm. now apply (is_derive_scal S). }
  assert (HR : 0 < S theta / INR (length zs)) by now apply Rdiv_lt_0_compat.
  pose proof (is_derive_comp ln _ theta _ _ (is_derive_ln _ HR) HD) as C.
  match type of C with is_derive _ _ ?m => match goal with |- is_derive _ _ ?d => replace d with m; [exact C|] end end.
  unfold scal; cbn; unfold mult; cbn. fold (S theta). field. lra.
Qed.

(** sgvb(): minus the objective; unbiased for reparameterised draws. *)
Theorem C35_sgvb_unbiased {E} (Es : list E) w lj lqs theta K :
  distribution w Es -> lqs <> [] -> (1 <= K)%nat ->
  differentiable theta Es lj -> (forall lq, In lq lqs -> differentiable theta Es lq) ->
  exists objective cost,
    (forall t es, length es = K ->
      iw_objective true (tensor_of t lj es) (entropy_of t lqs es) = Some (objective t es)) /\
    (forall es, length es = K ->
      iw_sgvb true (tensor_of theta lj es) (entropy_of theta lqs es) = Some (cost es) /\
      val (cost es) = - val (objective theta es)) /\
    is_derive (fun t => expects w Es K (fun es => val (objective t es))) theta
      (- expects w Es K (fun es => tan (cost es))).
Proof.
  intros D N HK Dj Dq.
  set (obj := fun t es => log_mean_exp (map (weighted t lj lqs) es)).
  exists obj, (fun es => dneg (obj theta es)). split; [|split].
  - intros t es _. now rewrite iw_eq.
  - intros es _. split; [|easy]. unfold iw_sgvb. now rewrite iw_eq.
  - rewrite <- expects_opp.
    rewrite (expects_ext w Es K _ (fun es => total (fun _ => 0) es * val (obj theta es) + tan (obj theta es))).
    2:{ intros es _. rewrite (total_zero (fun _ : E => 0)) by easy. cbn [tan dneg]. ring. }
    apply (expects_derive Es (fun _ => w) (fun _ => 0) theta) with (f := fun t es => val (obj t es)).
    + intros z _. rewrite Rmult_0_r. apply (is_derive_const (K := R_AbsRing) (V := R_NormedModule) (w z)).
    + intros es [Le Fe]. assert (Ne : es <> []) by now apply (nonempty es K).
      apply (is_derive_ext (fun t => ln_mean_exp (map (log_weight lj lqs t) es))).
      { intros t. unfold obj. now rewrite val_weighted. }
      apply (lme_derive Es (fun t => log_weight lj lqs t) (fun z => partial lj z - score lqs z)); [easy|].
      intros z Hz. assert (In z Es) by (rewrite List.Forall_forall in Fe; auto).
      apply (is_derive_minus (K := R_AbsRing) (V := R_NormedModule) (fun t => at_param lj t z) (fun t => log_q lqs t z)).
      * now apply Dj.
      * now apply (score_derive Es lqs theta Dq).
Qed.

Example C35_case : expects (coin 0) [true; false] 2
    (fun zs => ln_mean_exp (map (log_weight coin_lj [coin_lq] 0) zs)) <= ln (evidence (fun z : bool => if z then exp 1 else 1) [true; false]).
Proof.
  assert (N : [coin_lq] <> []) by easy.
  rewrite (expects_ext (coin 0) [true; false] 2 _ (fun zs => val (log_mean_exp (map (weighted 0 coin_lj [coin_lq]) zs)))).
  2:{ intros [|z zs] [Lz _]; [easy|]. now rewrite val_weighted. }
  apply C35_lower_bound with (lj := coin_lj) (lqs := [coin_lq]) (theta := 0).
  - apply coin_distribution.
  - apply (fam_log _ _ _ _ coin_family).
  - intros z _. destruct z; cbn; split; try lra; try apply exp_pos; [now rewrite ln_exp|now rewrite ln_1].
  - lia.
  - intros zs _. now rewrite iw_eq.
Qed.

(** ** Inclusive KL *)

Lemma weights_eq (log_w : list dual) : importance_weights log_w =
  map (fun x => Dual (exp (val x) / total (fun y => exp (val y)) log_w) 0) log_w.
Proof.
  destruct log_w as [|x0 l0] eqn:E0; [easy|]. rewrite <- E0.
  assert (N : log_w <> []) by (intros ->; easy). clear E0 x0 l0.
  unfold importance_weights. set (M := dmax log_w). clearbody M. rewrite map_map.
  apply map_ext. intros x. unfold stop_gradient. f_equal. cbn [val ddiv].
  rewrite val_dsum. cbn [val dexp dsub].
  replace (total (fun y => exp (val y - val M)) log_w) with (total (fun y => exp (val y)) log_w * exp (- val M)).
  2:{ rewrite <- total_scal_r. apply total_ext. intros y _. unfold Rminus. now rewrite exp_plus. }
  unfold Rminus. rewrite exp_plus. pose proof (exp_pos (- val M)).
  pose proof (total_exp_pos val log_w N). field. lra.
Qed.

(** The weights are a probability vector proportional to the importance weights
    exp(log_joint - log q), and carry no gradient. *)
Theorem C37_normalised (log_w : list dual) : log_w <> [] ->
  length (importance_weights log_w) = length log_w /\
  (forall w, In w (importance_weights log_w) -> 0 < val w <= 1 /\ tan w = 0) /\
  total val (importance_weights log_w) = 1 /\
  exists c, 0 < c /\ map val (importance_weights log_w) = map (fun x => c * exp (val x)) log_w.
Proof.
  intros N. rewrite weights_eq. pose proof (total_exp_pos val log_w N) as P.
  set (T := total (fun y => exp (val y)) log_w) in *. split; [now rewrite map_length|]. split; [|split].
  - intros w Hw. apply in_map_iff in Hw. destruct Hw as [x [<- Hx]]. cbn [val tan]. pose proof (exp_pos (val x)).
    split; [split; [now apply Rdiv_lt_0_compat|]|easy].
    apply (Rmult_le_reg_r T); [easy|]. unfold Rdiv. rewrite Rmult_assoc, Rinv_l, Rmult_1_r, Rmult_1_l by lra.
    unfold T. apply in_split in Hx. destruct Hx as [l1 [l2 E]]. rewrite E, total_app. cbn [total].
    assert (0 <= total (fun y => exp (val y)) l1) by (apply total_nonneg; intros; left; apply exp_pos).
    assert (0 <= total (fun y => exp (val y)) l2) by (apply total_nonneg; intros; left; apply exp_pos). lra.
  - rewrite total_map. cbn [val]. unfold Rdiv. rewrite total_scal_r. fold T. field. lra.
  - exists (/ T). split; [now apply Rinv_0_lt_compat|]. rewrite map_map. apply map_ext. intros x. cbn [val].
    unfold Rdiv. ring.
Qed.

(** Shifting every log weight by a constant (an unnormalised log joint) changes
    nothing. *)
Theorem C37_shift_invariant (log_w : list dual) c :
  importance_weights (map (fun x => dadd x c) log_w) = importance_weights log_w.
Proof.
  destruct log_w as [|x0 l0] eqn:E0; [easy|]. rewrite <- E0.
  assert (N : log_w <> []) by (intros ->; easy). clear E0 x0 l0.
  rewrite !weights_eq, map_map. apply map_ext. intros x. f_equal. rewrite total_map. cbn [val dadd].
  replace (total (fun y => exp (val y + val c)) log_w) with (total (fun y => exp (val y)) log_w * exp (val c)).
  2:{ rewrite <- total_scal_r. apply total_ext. intros y _. now rewrite exp_plus. }
  rewrite exp_plus. pose proof (exp_pos (val c)). pose proof (total_exp_pos val log_w N). field. lra.
Qed.

(** With draws from the exact posterior every weight is 1/K. *)
Theorem C37_uniform_at_posterior {Z} (Zs : list Z) lj lqs theta p zs :
  (forall z, In z Zs -> 0 < p z /\ at_param lj theta z = ln (p z)) ->
  log_probs_of (posterior p Zs) lqs theta Zs -> zs <> [] -> (forall z, In z zs -> In z Zs) ->
  importance_weights (map (weighted theta lj lqs) zs) = map (fun _ => dconst (/ INR (length zs))) zs.
Proof.
  intros P [N L] Nz H. rewrite weights_eq, map_map.
  assert (E0 : 0 < evidence p Zs).
  { unfold evidence. apply total_pos; [|intros x Hx; now apply P]. destruct zs as [|z zs]; [easy|].
    intros E. specialize (H z (or_introl eq_refl)). now rewrite E in H. }
  assert (W : forall z, In z zs -> exp (log_weight lj lqs theta z) = evidence p Zs).
  { intros z Hz. specialize (H z Hz). destruct (P z H) as [Pz Lz]. unfold log_weight.
    assert (0 < posterior p Zs z) by now apply Rdiv_lt_0_compat.
    rewrite Lz, L by easy. unfold Rminus. rewrite exp_plus, exp_Ropp, !exp_ln by easy. unfold posterior. field. lra. }
  apply map_ext_in. intros z Hz. unfold dconst. f_equal. rewrite total_map. cbn [val weighted].
  rewrite W by easy. rewrite (total_ext _ (fun _ => evidence p Zs) zs) by (intros; now apply W).
  rewrite total_const. pose proof (len_pos zs Nz). field. lra.
Qed.

(** The gradient of the cost is minus the self-normalised estimate of the expected
    score under the posterior; with no sample axis it is minus the score of each
    draw. *)
Theorem C37_gradient {Z} theta (lj : @quantity Z) lqs zs : lqs <> [] -> zs <> [] ->
  exists c, klpq_importance true (tensor_of theta lj zs) (entropy_of theta lqs zs) = Some [c] /\
    tan c = - (total (fun z => exp (log_weight lj lqs theta z) * score lqs z) zs /
               total (fun z => exp (log_weight lj lqs theta z)) zs) /\
  klpq_importance false (tensor_of theta lj zs) (entropy_of theta lqs zs) =
    Some (map (fun z => Dual (- log_q lqs theta z) (- score lqs z)) zs).
Proof.
  intros N Nz. unfold klpq_importance. rewrite entropy_eq by easy. rewrite log_w_eq. eexists.
  split; [reflexivity|]. split; [|reflexivity].
  rewrite weights_eq, map_map, zip_with_map, tan_dsum. cbn [val tan dmul]. rewrite total_map. cbn [val].
  pose proof (total_exp_pos (log_weight lj lqs theta) zs Nz).
  rewrite (total_ext _ (fun z => exp (log_weight lj lqs theta z) * score lqs z *
     - / total (fun z => exp (log_weight lj lqs theta z)) zs)).
  2:{ intros z _. field. lra. }
  rewrite total_scal_r. field. lra.
Qed.

(** In expectation over exact posterior draws, that is the exact gradient of the
    inclusive divergence up to sign: minus the posterior mean of the score. *)
Theorem C37_exact_at_posterior {Z} (Zs : list Z) lj lqs theta p K cost :
  (forall z, In z Zs -> 0 < p z /\ at_param lj theta z = ln (p z)) ->
  log_probs_of (posterior p Zs) lqs theta Zs -> Zs <> [] -> (1 <= K)%nat ->
  (forall zs, length zs = K ->
    klpq_importance true (tensor_of theta lj zs) (entropy_of theta lqs zs) = Some [cost zs]) ->
  expects (posterior p Zs) Zs K (fun zs => tan (cost zs)) = - expect (posterior p Zs) Zs (score lqs).
Proof.
  intros P L Nz HK C.
  assert (E0 : 0 < evidence p Zs).
  { unfold evidence. apply total_pos; [easy|]. intros x Hx. now apply P. }
  assert (D : distribution (posterior p Zs) Zs).
  { split; [intros z Hz; left; apply Rdiv_lt_0_compat; [now apply P|easy]|].
    unfold posterior, Rdiv. rewrite total_scal_r. fold (evidence p Zs). field. lra. }
  rewrite (expects_ext _ _ K _ (fun zs => total (score lqs) zs * - / INR K)).
  2:{ intros zs [Lz F]. specialize (C zs Lz). assert (Nzs : zs <> []) by now apply (nonempty zs K).
      assert (H : forall z, In z zs -> In z Zs) by (intros z; rewrite List.Forall_forall in F; apply F).
      unfold klpq_importance in C. rewrite entropy_eq in C by apply L. rewrite log_w_eq in C. injection C as <-.
      pose proof (C37_uniform_at_posterior Zs lj lqs theta p zs P L Nzs H) as U. unfold weighted in U.
      rewrite U, zip_with_map, tan_dsum, <- total_scal_r, Lz. apply total_ext. intros z _. cbn. ring. }
  rewrite expects_scal_r, expects_each by easy. field. apply not_0_INR. lia.
Qed.

Example C37_case : importance_weights [Dual 0 3; Dual 0 5] = [Dual (/ 2) 0; Dual (/ 2) 0].
Proof. rewrite weights_eq. cbn. rewrite exp_0. repeat f_equal; field. Qed.

Print Assumptions C35_sandwich.
Print Assumptions C35_one_sample.
Print Assumptions C35_lower_bound.
Print Assumptions C35_monotone.
Print Assumptions C35_required_arguments.
Print Assumptions C35_sgvb_unbiased.
Print Assumptions C37_normalised.
Print Assumptions C37_shift_invariant.
Print Assumptions C37_uniform_at_posterior.
Print Assumptions C37_gradient.
Print Assumptions C37_exact_at_posterior.
