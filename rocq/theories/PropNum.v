(** C53: the density methods on every float, and what check_numerics does. *)
From Coq Require Import List Reals ZArith Lra Lia.
From Verif Require Import ModelExt ModelSpecial ModelNum SpecNum ProofNum ModelDist ModelUtils SpecDist PropUtils.
Import ListNotations.
Local Open Scope R_scope.

Section Any.
Variable lgamma : R -> R.
Notation lp := (log_p lgamma).

(** Switching the checks on never changes an answer: what is returned with them is
    returned without them. Without them nothing is ever rejected. *)
Theorem C53_checks_change_nothing d x v : lp true d x = Returns v -> lp false d x = Returns v.
Proof.
  destruct d; cbn [log_p]; repeat match goal with dev : deviation |- _ => destruct dev end; cbn [the_logstd];
    unfold uniform_p; cbv zeta; try (intros H; exact H).
  5:{ cbn [checked]. destruct (is_finite (ediv2 (Fi 1) (esub maxval minval))); cbn [bind]; [|discriminate].
      destruct (is_finite _); [auto|discriminate]. }
  all: intros H; repeat (try (apply bind_checked in H as (_ & H)); cbn [bind] in H);
    cbn [bind checked]; exact H.
Qed.
Theorem C53_unchecked_always_returns d x : exists v, lp false d x = Returns v.
Proof. destruct d; cbn [log_p]; try destruct d; eexists; reflexivity. Qed.

Lemma regular_iff a : is_finite (elgamma lgamma a) = true <-> regular a.
Proof. apply elgamma_finite. Qed.
Lemma precision_finite l : is_finite (eexp (emul (Fi (-2)) l)) = true <-> l = PInf \/ number l.
Proof.
  split.
  - destruct l; cbn; try destruct (Rlt_dec 0 (-2)); try lra; try destruct (Rlt_dec (-2) 0); try lra; cbn; try discriminate; intros _; [right; now exists r|now left].
  - intros [->|(r & ->)]; cbn; [|reflexivity]. destruct (Rlt_dec 0 (-2)); [lra|]. destruct (Rlt_dec (-2) 0); [reflexivity|lra].
Qed.

(** With the checks on, log_prob returns exactly on the inputs of the table [accepted]. *)
Theorem C53_accepts_exactly d x : (exists v, lp true d x = Returns v) <-> accepted d x.
Proof.
  destruct d as [m [s|l]|m [s|l]|lo|lo hi|a b|a b|rate|lo n|a b|loc sc|T lo]; cbn [log_p the_logstd accepted bind proper]; cbv zeta;
    try (rewrite !checked_iff, returns_iff, ?elog_finite, ?regular_iff; tauto).
  - rewrite !checked_iff, returns_iff, elog_finite, precision_finite. split; [tauto|]. intros (r & -> & H). rewrite elog_pos by exact H. split; [now exists r|]. split; [right; now eexists|exact I].
  - rewrite !checked_iff, returns_iff, precision_finite. tauto.
  - rewrite !checked_iff, returns_iff, elog_finite, precision_finite. split; [tauto|]. intros (r & -> & H). rewrite elog_pos by exact H. split; [now exists r|]. split; [right; now eexists|exact I].
  - rewrite !checked_iff, returns_iff, precision_finite. tauto.
  - rewrite returns_iff. tauto.
  - unfold uniform_p. split.
    + intros (v & H). cbn [checked] in H. destruct (is_finite (ediv2 (Fi 1) (esub hi lo))) eqn:F; cbn [bind] in H; [|discriminate].
      destruct (is_finite (elog _)) eqn:G; [|discriminate]. apply elog_finite in G as (r & E & Hr).
      destruct (eleb lo x && eltb x hi)%bool eqn:Q; [|exfalso; apply finite_iff in F as (q & F); rewrite F in E; cbn in E; injection E as <-; lra].
      apply andb_prop in Q as (Q1 & Q2).
      destruct lo as [a| | |], x as [x| | |], hi as [b| | |]; cbn in Q1, Q2; try discriminate;
        try (exfalso; cbn in E; injection E as <-; lra).
      destruct (Rle_dec a x); [|discriminate]. destruct (Rlt_dec x b); [|discriminate]. now exists a, b, x.
    + intros (a & b & y & -> & -> & -> & H). cbn [esub eneg eadd ediv2 ediv]. destruct (Req_EM_T (b + - a) 0); [lra|].
      cbn [checked is_finite bind eleb eltb]. destruct (Rle_dec a y); [|lra]. destruct (Rlt_dec y b); [|lra]. cbn [andb].
      assert (P : 0 < 1 / (b + - a) * 1) by (rewrite Rmult_1_r; apply Rdiv_lt_0_compat; lra).
      unfold emul. rewrite elog_pos by exact P. cbn. eauto.
  - unfold fraction, positive. rewrite !checked_iff, returns_iff, !elog_finite, !regular_iff. unfold positive. split.
    + intros ((r & -> & H1) & (q & E & H2) & A & B & C & _). cbn in E. injection E as <-. repeat split; auto. exists r. split; [reflexivity|lra].
    + intros (A & B & C & r & -> & H). repeat split; auto; [exists r; split; [reflexivity|lra]|]. exists (1 + - r). split; [reflexivity|lra].
  - unfold fraction, positive. rewrite !checked_iff, returns_iff, !elog_finite. unfold positive. split.
    + intros ((r & -> & H1) & (q & E & H2) & A & _). cbn in E. injection E as <-. repeat split; auto. exists r. split; [reflexivity|lra].
    + intros (A & r & -> & H). repeat split; auto; [exists r; split; [reflexivity|lra]|]. exists (1 + - r). split; [reflexivity|lra].
Qed.

(** If in addition the inputs that are not checked are numbers, so is the answer - except
    that a FoldNormal answers minus infinity below 0. (The constructor of the Binomial
    requires n_experiments > 0, C49.) *)
Theorem C53_checked_answers_are_numbers d x v :
  (forall l n, d = Binomial l n -> (0 < n)%Z) ->
  (forall a, In a (unchecked d x) -> number a) -> lp true d x = Returns v ->
  number v \/ (exists m dev r, d = FoldNormal m dev /\ x = Fi r /\ r < 0 /\ v = MInf).
Proof.
  intros V U H. assert (A : accepted d x) by (apply C53_accepts_exactly; eauto).
  apply C53_checks_change_nothing in H. revert H.
  destruct d as [m [s|l]|m [s|l]|lo|lo hi|a b|a b|rate|lo n|a b|loc sc|T lo]; cbn [accepted proper unchecked log_p the_logstd bind checked] in *; cbv zeta; intros [= <-].
  - destruct A as (s' & -> & Hs). rewrite (elog_pos s') by exact Hs. destruct (U m) as (m' & ->); [cbn; auto|]. destruct (U x) as (x' & ->); [cbn; auto|]. left. now eexists.
  - destruct (U l) as (l' & ->); [cbn; auto|]. destruct (U m) as (m' & ->); [cbn; auto|]. destruct (U x) as (x' & ->); [cbn; auto|]. left. now eexists.
  - destruct A as (s' & -> & Hs). rewrite (elog_pos s') by exact Hs. destruct (U m) as (m' & ->); [cbn; auto|]. destruct (U x) as (x' & ->); [cbn; auto|].
    cbn [eleb]. destruct (Rle_dec 0 x') as [P|P].
    + rewrite (elog_pos 1) by lra. left. now eexists.
    + rewrite elog_0. right. exists (Fi m'), (Std (Fi s')), x'. repeat split. lra.
  - destruct (U l) as (l' & ->); [cbn; auto|]. destruct (U m) as (m' & ->); [cbn; auto|]. destruct (U x) as (x' & ->); [cbn; auto|].
    cbn [eleb]. destruct (Rle_dec 0 x') as [P|P].
    + rewrite (elog_pos 1) by lra. left. now eexists.
    + rewrite elog_0. right. exists (Fi m'), (Logstd (Fi l')), x'. repeat split. lra.
  - destruct (U lo) as (l' & ->); [cbn; auto|]. destruct (U x) as (x' & ->); [cbn; auto|]. left. cbn [emax emul esub eadd eneg eabs eexp].
    rewrite elog_pos by (pose proof (exp_pos (- Rabs l')); lra). now eexists.
  - destruct A as (a & b & y & -> & -> & -> & H). left. cbn [esub eneg eadd ediv2 ediv]. destruct (Req_EM_T (b + - a) 0); [lra|].
    cbn [bind eleb eltb]. destruct (Rle_dec a y); [|lra]. destruct (Rlt_dec y b); [|lra]. cbn [andb].
    assert (P : 0 < 1 / (b + - a) * 1) by (rewrite Rmult_1_r; apply Rdiv_lt_0_compat; lra).
    unfold emul. rewrite elog_pos by exact P. now eexists.
  - destruct A as ((a' & -> & Ha) & (b' & -> & Hb) & (x' & -> & Hx)). rewrite (elog_pos x'), (elog_pos b') by assumption. cbn [elgamma].
    apply at_pole_false in Ha as ->. left. now eexists.
  - destruct A as ((a' & -> & Ha) & (b' & -> & Hb) & (c' & E & Hc) & (x' & -> & Hx)). cbn in E. injection E as <-. cbn [esub eneg eadd].
    rewrite (elog_pos x'), (elog_pos (1 + - x')) by lra. cbn [elgamma]. apply at_pole_false in Ha as ->, Hb as ->, Hc as ->. left. now eexists.
  - destruct A as ((r & -> & Hr) & (c & E & Hc)). destruct x as [x'| | |]; try discriminate E. cbn in E. injection E as <-.
    cbn [eadd]. rewrite (elog_pos r) by exact Hr. cbn [elgamma]. apply at_pole_false in Hc as ->. left. now eexists.
  - destruct A as ((c & E & Hc) & (e & E' & He)). destruct x as [x'| | |]; try discriminate E. cbn in E, E'. injection E as <-. injection E' as <-.
    destruct (U lo) as (l' & ->); [cbn; auto|]. cbn [eadd esub eneg elgamma]. apply at_pole_false in Hc as ->, He as ->.
    destruct (at_pole (IZR n + 1)) eqn:P; [|left; now eexists].
    exfalso. specialize (V _ _ eq_refl). apply IZR_lt in V. rewrite at_pole_pos in P by lra. discriminate.
  - destruct A as ((a' & -> & Ha) & (b' & -> & Hb) & (x' & -> & Hx)). rewrite (elog_pos x'), (elog_pos b') by assumption. cbn [elgamma].
    apply at_pole_false in Ha as ->. left. cbn [ediv2 ediv]. destruct (Req_EM_T x' 0); [lra|]. now eexists.
  - destruct A as (s & -> & Hs). destruct (U loc) as (l' & ->); [cbn; auto|]. destruct (U x) as (x' & ->); [cbn; auto|].
    rewrite (elog_pos s) by exact Hs. cbn [esub eneg eadd eabs ediv2 ediv]. destruct (Req_EM_T s 0); [lra|]. left. now eexists.
  - destruct A as ((t & -> & Ht) & (x' & -> & Hx)). destruct (U lo) as (l' & ->); [cbn; auto|]. cbn [esub eneg eadd].
    rewrite (elog_pos x'), (elog_pos (1 + - x')), (elog_pos t) by lra. left. now eexists.
Qed.

(** Inside the support, with valid finite parameters, the checks never reject, and the
    answer is the real-number formula. *)
Theorem C53_inside check d x v : inside lgamma d x v -> lp check d x = Returns (Fi v).
Proof.
  intros H. assert (G : lp false d x = Returns (Fi v) /\ accepted d x).
  { destruct H; cbn [log_p the_logstd bind checked accepted proper positive fraction]; cbv zeta.
    - split; [|now exists s]. rewrite elog_pos by assumption. cbn. unfold normal_lp, square. reflexivity.
    - split; [|left; now exists l]. cbn. unfold normal_lp, square. reflexivity.
    - split; [|now exists s]. rewrite (elog_pos s) by assumption. unfold foldnormal_lp in H0. cbn [eleb]. destruct (Rle_dec 0 x); [|discriminate]. injection H0 as <-.
      rewrite (elog_pos 1), ln_1 by lra. cbn. unfold square, softplus. do 2 f_equal. rewrite Rplus_0_r. unfold Rminus. f_equal.
    - split; [|left; now exists l]. unfold foldnormal_lp in H. cbn [eleb]. destruct (Rle_dec 0 x); [|discriminate]. injection H as <-.
      rewrite (elog_pos 1), ln_1 by lra. cbn. unfold square, softplus. do 2 f_equal. rewrite Rplus_0_r. unfold Rminus. f_equal.
    - split; [|exact I]. cbn [emax emul esub eadd eneg eabs eexp]. rewrite elog_pos by (pose proof (exp_pos (- Rabs l)); lra). reflexivity.
    - unfold uniform_lp, uniform_prob in H0.
      destruct (Rle_dec a x) as [A|A]; [|destruct Req_EM_T in H0; [discriminate|lra]].
      destruct (Rlt_dec x b) as [B|B]; [|destruct Req_EM_T in H0; [discriminate|lra]].
      assert (P : 0 < 1 / (b - a) * 1) by (rewrite Rmult_1_r; apply Rdiv_lt_0_compat; lra).
      destruct Req_EM_T in H0; [lra|]. injection H0 as <-.
      split; [|now exists a, b, x]. unfold uniform_p. cbn [esub eneg eadd ediv2 ediv]. destruct (Req_EM_T (b + - a) 0); [lra|].
      cbn [bind checked eleb eltb]. destruct (Rle_dec a x); [|lra]. destruct (Rlt_dec x b); [|lra]. cbn [andb]. unfold emul. now rewrite elog_pos by exact P.
    - split; [|repeat split; [exists a|exists b|exists x]; (split; [reflexivity|auto])].
      + rewrite (elog_pos x), (elog_pos b), elgamma_pos by assumption. reflexivity.
      + intros k ->. pose proof (pos_INR k). lra.
    - split.
      + cbn [esub eneg eadd]. rewrite (elog_pos x), (elog_pos (1 + - x)), !elgamma_pos by lra. reflexivity.
      + unfold regular. repeat split; [exists a|exists b|exists (a + b)|exists x]; (split; [reflexivity|auto]); intros k E; pose proof (pos_INR k); lra.
    - pose proof (pos_INR k). split.
      + cbn [eadd]. rewrite (elog_pos r), elgamma_pos by lra. reflexivity.
      + split; [now exists r|]. exists (INR k + 1). split; [reflexivity|]. intros j E. pose proof (pos_INR j). lra.
    - pose proof (pos_INR k). pose proof (pos_INR n). apply le_INR in H. rewrite <- INR_IZR_INZ. split.
      + cbn [eadd esub eneg]. rewrite !elgamma_pos by lra. reflexivity.
      + split; [exists (INR k + 1)|exists (INR n + - INR k + 1)]; (split; [reflexivity|]); intros j E; pose proof (pos_INR j); lra.
    - split; [|repeat split; [exists a|exists b|exists x]; (split; [reflexivity|auto])].
      + rewrite (elog_pos x), (elog_pos b), elgamma_pos by assumption. cbn [ediv2 ediv]. destruct (Req_EM_T x 0); [lra|]. reflexivity.
      + intros k ->. pose proof (pos_INR k). lra.
    - split; [|now exists s]. rewrite elog_pos by assumption. cbn [esub eneg eadd eabs ediv2 ediv]. destruct (Req_EM_T s 0); [lra|]. reflexivity.
    - split; [|split; [now exists t|now exists x]]. cbn [esub eneg eadd]. rewrite (elog_pos x), (elog_pos (1 + - x)), (elog_pos t) by lra. reflexivity. }
  destruct G as (G & A). destruct check; [|exact G]. apply C53_accepts_exactly in A as (w & A). rewrite A. f_equal.
  apply C53_checks_change_nothing in A. congruence.
Qed.

(** Outside the support, without checks: minus infinity, or NaN for four classes. With
    checks the call fails, except for FoldNormal. *)
Theorem C53_outside d x : outside d x ->
  lp false d x = Returns (if answers_nan d then NaN else MInf) /\
  lp true d x = (match d with FoldNormal _ _ => Returns MInf | _ => Invalid end).
Proof.
  intros H. assert (G : lp false d x = Returns (if answers_nan d then NaN else MInf) /\ (match d with FoldNormal _ _ => accepted d x | _ => ~ accepted d x end)).
  { destruct H; cbn [log_p the_logstd bind checked accepted proper answers_nan]; cbv zeta; unfold positive, fraction.
    - split; [|now exists s]. rewrite (elog_pos s) by assumption. cbn [eleb]. destruct (Rle_dec 0 x); [lra|]. rewrite elog_0. reflexivity.
    - split; [|left; now exists l]. cbn [eleb]. destruct (Rle_dec 0 x); [lra|]. rewrite elog_0. reflexivity.
    - split; [|intros (a' & b' & x' & [= <-] & [= <-] & [= <-] & K); lra]. unfold uniform_p. cbn [esub eneg eadd ediv2 ediv]. destruct (Req_EM_T (b + - a) 0); [lra|].
      cbn [bind checked eleb eltb]. destruct (Rle_dec a x), (Rlt_dec x b); try lra; cbn [andb emul]; rewrite Rmult_0_r; now rewrite elog_0.
    - assert (E : - INR k + 1 = - INR (k - 1)) by (rewrite minus_INR by lia; cbn; lra).
      split; [|intros (_ & c & [= <-] & Q); now apply (Q (k - 1)%nat)]. cbn [eadd]. rewrite (elgamma_pole lgamma _ _ E), elog_pos by assumption. reflexivity.
    - assert (E : - INR k + 1 = - INR (k - 1)) by (rewrite minus_INR by lia; cbn; lra). apply lt_INR in H. cbn in H. rewrite <- INR_IZR_INZ.
      pose proof (pos_INR n). split; [|intros ((c & [= <-] & Q) & _); now apply (Q (k - 1)%nat)]. cbn [eadd esub eneg].
      rewrite (elgamma_pole lgamma _ _ E), !elgamma_pos by lra. reflexivity.
    - assert (E : INR n + - INR k + 1 = - INR (k - n - 1)) by (rewrite !minus_INR by lia; cbn; lra). rewrite <- INR_IZR_INZ. pose proof (pos_INR k). pose proof (pos_INR n).
      split; [|intros (_ & c & [= <-] & Q); now apply (Q (k - n - 1)%nat)]. cbn [eadd esub eneg].
      rewrite (elgamma_pole lgamma _ _ E), !elgamma_pos by lra. reflexivity.
    - split; [|intros (_ & _ & x' & [= <-] & K); lra]. rewrite (elog_neg x), (elog_pos b), elgamma_pos by assumption. reflexivity.
    - split; [|intros (_ & _ & x' & [= <-] & K); lra]. rewrite (elog_neg x), (elog_pos b), elgamma_pos by assumption. reflexivity.
    - split; [|intros (_ & _ & _ & x' & [= <-] & K); lra]. cbn [esub eneg eadd]. rewrite !elgamma_pos by lra. destruct H1.
      + now rewrite (elog_neg x).
      + rewrite (elog_neg (1 + - x)), elog_pos by lra. reflexivity.
    - split; [|intros (_ & x' & [= <-] & K); lra]. cbn [esub eneg eadd]. rewrite (elog_pos t) by assumption. destruct H0.
      + now rewrite (elog_neg x).
      + rewrite (elog_neg (1 + - x)), elog_pos by lra. reflexivity. }
  destruct G as (G & A). split; [exact G|].
  destruct d; try (destruct (lp true _ x) as [v|] eqn:E; [|reflexivity]; exfalso; apply A, C53_accepts_exactly; eauto).
  apply C53_accepts_exactly in A as (w & A). pose proof (C53_checks_change_nothing _ _ _ A) as B. rewrite A. cbn [answers_nan] in G. congruence.
Qed.

(** A NaN parameter never gives a number. A NaN value gives NaN except for the Uniform,
    where (with valid bounds) it counts as outside. *)
Theorem C53_nan_parameter d x : has_nan d -> lp false d x = Returns NaN.
Proof.
  destruct d as [m [s|l]|m [s|l]|lo|lo hi|a b|a b|rate|lo n|a b|loc sc|T lo]; cbn [has_nan log_p the_logstd bind checked]; cbv zeta; unfold uniform_p; intros H;
    repeat match goal with H : _ \/ _ |- _ => destruct H | H : Std _ = Std _ |- _ => injection H as -> | H : Logstd _ = Logstd _ |- _ => injection H as -> | H : _ = NaN |- _ => subst end;
    try discriminate;
    cbn [elog eexp elgamma emul esub eadd eneg eabs emax esoftplus ediv2 ediv bind checked];
    rewrite ?eadd_nan_r, ?esub_nan_r, ?emul_nan_r, ?ediv2_nan_r; cbn [elog eexp elgamma emul esub eadd eneg eabs emax esoftplus ediv2 ediv bind checked];
    rewrite ?eadd_nan_r, ?esub_nan_r, ?emul_nan_r, ?ediv2_nan_r; cbn [elog eexp elgamma emul esub eadd eneg eabs emax esoftplus ediv2 ediv bind checked];
    rewrite ?eadd_nan_r, ?esub_nan_r, ?emul_nan_r, ?ediv2_nan_r; try reflexivity.
  replace (ediv2 NaN sc) with NaN by now destruct sc. now rewrite esub_nan_r.
Qed.
Theorem C53_nan_value d : lp false d NaN = Returns NaN \/ (exists a b, d = Uniform a b).
Proof.
  destruct d as [m [s|l]|m [s|l]|lo|lo hi|a b|a b|rate|lo n|a b|loc sc|T lo]; try (right; now eexists _, _); left;
    cbn [log_p the_logstd bind checked]; cbv zeta;
    repeat (cbn [elog eexp elgamma emul esub eadd eneg eabs esoftplus bind checked];
            rewrite ?eadd_nan_r, ?esub_nan_r, ?emul_nan_r, ?ediv2_nan_r); try reflexivity.
  replace (ediv2 NaN sc) with NaN by now destruct sc. now rewrite esub_nan_r.
Qed.
Theorem C53_nan_is_outside_uniform a b : a < b ->
  lp false (Uniform (Fi a) (Fi b)) NaN = Returns MInf /\ p lgamma true (Uniform (Fi a) (Fi b)) NaN = Returns (Fi 0).
Proof.
  intros H. cbn [log_p p]. unfold uniform_p. cbn [esub eneg eadd ediv2 ediv]. destruct (Req_EM_T (b + - a) 0); [lra|].
  cbn [checked bind is_finite eleb eltb andb emul]. rewrite Rmult_0_r, elog_0. auto.
Qed.

(** prob is rejected exactly when log_prob is, except for the Uniform, whose prob is 0
    outside the support and whose log_prob is rejected there. *)
Theorem C53_prob check d x : (forall a b, d <> Uniform a b) ->
  p lgamma check d x = match lp check d x with Returns l => Returns (eexp l) | Invalid => Invalid end.
Proof. intros H. destruct d; try reflexivity. now destruct (H minval maxval). Qed.
Theorem C53_uniform_prob a b x : a < b ->
  p lgamma true (Uniform (Fi a) (Fi b)) (Fi x) = Returns (Fi (uniform_prob x a b)) /\
  (p lgamma true (Uniform (Fi a) (Fi a)) (Fi x) = Invalid).
Proof.
  intros H. cbn [p]. unfold uniform_p, uniform_prob. cbn [esub eneg eadd ediv2 ediv]. destruct (Req_EM_T (b + - a) 0); [lra|]. destruct (Req_EM_T (a + - a) 0); [|lra].
  cbn [checked bind is_finite eleb eltb]. split.
  - destruct (Rle_dec a x), (Rlt_dec x b); cbn [andb emul]; unfold Rminus; reflexivity.
  - destruct (Rlt_dec 0 1); [reflexivity|lra].
Qed.

(** Sampling: a Normal or FoldNormal built from std is never rejected, whatever the std;
    one built from logstd is rejected exactly for logstd = +inf and NaN. *)
Theorem C53_sampling_ignores_std mean s z :
  normal_draw true mean (Std s) z = Returns (eadd (emul (Fi z) s) mean).
Proof. reflexivity. Qed.
Theorem C53_sampling_logstd mean l z :
  normal_draw true mean (Logstd l) z = (match l with PInf | NaN => Invalid | _ => normal_draw false mean (Logstd l) z end).
Proof. destruct l; reflexivity. Qed.

(** One call for a whole batch: rejected as soon as one entry is; otherwise entry by
    entry what the unchecked call returns. *)
Theorem C53_batch cells :
  (log_probs lgamma true cells = Invalid <-> exists d x, In (d, x) cells /\ ~ accepted d x) /\
  (forall vs, log_probs lgamma true cells = Returns vs -> log_probs lgamma false cells = Returns vs) /\
  (forall check vs, log_probs lgamma check cells = Returns vs -> map Returns vs = map (fun c => lp check (fst c) (snd c)) cells).
Proof.
  induction cells as [|[d x] cells (IH1 & IH2 & IH3)]; cbn [log_probs].
  - split; [split; [discriminate|intros (d & x & [] & _)]|]. split; [auto|]. intros check vs [= <-]. reflexivity.
  - split; [|split].
    + destruct (lp true d x) as [v|] eqn:E; cbn [bind].
      * assert (A : accepted d x) by (apply C53_accepts_exactly; eauto).
        destruct (log_probs lgamma true cells) as [vs|] eqn:F; cbn [bind].
        -- split; [discriminate|]. intros (d' & x' & [[= <- <-]|H] & N); [contradiction|]. discriminate (proj2 IH1 (ex_intro _ d' (ex_intro _ x' (conj H N)))).
        -- split; [|auto]. intros _. destruct (proj1 IH1 eq_refl) as (d' & x' & H & N). exists d', x'. split; [now right|exact N].
      * split; [|auto]. intros _. exists d, x. split; [now left|]. intros A. apply C53_accepts_exactly in A as (v & A). congruence.
    + intros vs H. destruct (lp true d x) as [v|] eqn:E; cbn [bind] in H; [|discriminate]. rewrite (C53_checks_change_nothing _ _ _ E). cbn [bind].
      destruct (log_probs lgamma true cells) as [ws|]; cbn [bind] in H; [|discriminate]. now rewrite (IH2 _ eq_refl).
    + intros check vs H. destruct (lp check d x) as [v|] eqn:E; cbn [bind] in H; [|discriminate].
      destruct (log_probs lgamma check cells) as [ws|] eqn:F; cbn [bind] in H; [|discriminate]. injection H as <-. cbn [map fst snd]. rewrite E. f_equal. now apply IH3.
Qed.

(** Boundary values, without checks: some are right (minus infinity where the density is 0,
    plus infinity where it is unbounded) ... *)
Theorem C53_boundary a b : 0 < a -> 0 < b ->
  lp false (Gamma (Fi a) (Fi b)) (Fi 0) = Returns (if Rlt_dec 1 a then MInf else if Rlt_dec a 1 then PInf else NaN) /\
  lp false (Beta (Fi a) (Fi b)) (Fi 0) = Returns (if Rlt_dec 1 a then MInf else if Rlt_dec a 1 then PInf else NaN) /\
  lp false (Beta (Fi a) (Fi b)) (Fi 1) = Returns (if Rlt_dec 1 b then MInf else if Rlt_dec b 1 then PInf else NaN) /\
  lp false (InverseGamma (Fi a) (Fi b)) (Fi 0) = Returns NaN.
Proof.
  intros Ha Hb. cbn [log_p bind checked]. rewrite !elgamma_pos, !elog_0, (elog_pos b) by assumption. cbn [esub eneg eadd]. rewrite elgamma_pos by lra.
  replace (1 + - 0) with 1 by ring. replace (1 + - (1)) with 0 by ring. rewrite elog_pos, elog_0 by lra. split; [|split; [|split]].
  - cbn [emul]. destruct (Rlt_dec 0 (a + - (1))), (Rlt_dec 1 a); try lra; [reflexivity|]. destruct (Rlt_dec (a + - (1)) 0), (Rlt_dec a 1); try lra; reflexivity.
  - cbn [emul]. destruct (Rlt_dec 0 (a + - (1))), (Rlt_dec 1 a); try lra; [reflexivity|]. destruct (Rlt_dec (a + - (1)) 0), (Rlt_dec a 1); try lra; reflexivity.
  - cbn [emul]. destruct (Rlt_dec 0 (b + - (1))), (Rlt_dec 1 b); try lra; [reflexivity|]. destruct (Rlt_dec (b + - (1)) 0), (Rlt_dec b 1); try lra; reflexivity.
  - cbn [emul]. destruct (Rlt_dec 0 (a + 1)); [|lra]. cbn [ediv2 ediv]. destruct (Req_EM_T 0 0); [|lra]. destruct (Rlt_dec 0 b); [|lra]. reflexivity.
Qed.
(** A success of a Binomial that never succeeds: probability 0. *)
Theorem C53_never_succeeds n k : (1 <= k <= n)%Z -> lp false (Binomial MInf n) (Fi (IZR k)) = Returns MInf.
Proof.
  intros [H1 H2]. assert (1 <= IZR k) by (apply IZR_le; lia). assert (IZR k <= IZR n) by (apply IZR_le; lia).
  cbn [log_p bind checked]. cbv zeta. cbn [esub eneg eadd esoftplus]. rewrite !elgamma_pos by lra. cbn [emul]. destruct (Rlt_dec 0 (IZR k)); [|lra]. reflexivity.
Qed.
(** ... and some are NaN although the law gives the value a definite density or
    probability: an exponential law at 0, an inverse Gamma at 0, a Concrete fraction at 0
    and 1, a Poisson of rate 0 at 0, a sure Bernoulli at 1, a Binomial that never
    succeeds. *)
Theorem C53_boundary_refuted b t l n : 0 < b -> 0 < t ->
  lp false (Gamma (Fi 1) (Fi b)) (Fi 0) = Returns NaN /\
  lp false (BinConcrete (Fi t) (Fi l)) (Fi 0) = Returns NaN /\
  lp false (BinConcrete (Fi t) (Fi l)) (Fi 1) = Returns NaN /\
  lp false (Poisson (Fi 0)) (Fi 0) = Returns NaN /\
  lp false (Bernoulli PInf) (Fi 1) = Returns NaN /\
  lp false (Binomial MInf n) (Fi 0) = Returns NaN.
Proof.
  intros Hb Ht. split; [|split; [|split; [|split; [|split]]]].
  - rewrite (proj1 (C53_boundary 1 b ltac:(lra) Hb)). destruct (Rlt_dec 1 1); [lra|reflexivity].
  - cbn [log_p bind checked esub eneg eadd]. rewrite elog_0. replace (1 + - 0) with 1 by ring. rewrite !elog_pos by lra. cbn. destruct (Rlt_dec 0 t); [|lra]. cbn.
    destruct (Rlt_dec 0 2); [|lra]. reflexivity.
  - cbn [log_p bind checked esub eneg eadd]. replace (1 + - (1)) with 0 by ring. rewrite elog_0, !elog_pos by lra. cbn. destruct (Rlt_dec 0 t); [|lra]. cbn.
    destruct (Rlt_dec 0 2); [|lra]. reflexivity.
  - cbn [log_p bind checked]. rewrite elog_0. cbn [emul]. destruct (Rlt_dec 0 0); [lra|]. reflexivity.
  - cbn. destruct (Rlt_dec 0 1); [|lra]. cbn. reflexivity.
  - cbn [log_p bind checked]. cbv zeta. cbn [emul]. destruct (Rlt_dec 0 0); [lra|]. rewrite eadd_nan_r. reflexivity.
Qed.

(** ** Multivariate distributions *)
(** The checks change no answer, and reject exactly: a concentration at a pole of
    log-Gamma (or whose sum is) or a coordinate that is not a positive number; a
    temperature that is not a positive number; a diagonal entry of a Cholesky factor that
    is not a positive number. *)
Theorem C53_dirichlet alpha given :
  (forall v, dirichlet_log_p lgamma true alpha given = Returns v -> dirichlet_log_p lgamma false alpha given = Returns v) /\
  ((exists v, dirichlet_log_p lgamma true alpha given = Returns v) <->
    Forall regular alpha /\ regular (reduce_sum alpha) /\ Forall positive given).
Proof.
  unfold dirichlet_log_p. split.
  - intros v H. apply bind_checked in H as (_ & H). cbn [checked bind]. rewrite all_unchecked. cbn [bind].
    destruct (checked_all true (map elog given)) as [r|] eqn:E; cbn [bind] in H; [|discriminate]. apply all_finite in E as (-> & _). exact H.
  - rewrite checked_iff, finite_iff, esub_finite, sum_finite, <- (finite_iff (elgamma _ _)), elgamma_finite.
    assert (A : Forall number (map (elgamma lgamma) alpha) <-> Forall regular alpha).
    { rewrite Forall_map. split; apply Forall_impl; intros a; rewrite <- finite_iff; apply elgamma_finite. }
    assert (B : (exists v, bind (checked_all true (map elog given)) (fun log_given =>
        Returns (eadd (eneg (esub (reduce_sum (map (elgamma lgamma) alpha)) (elgamma lgamma (reduce_sum alpha))))
          (reduce_sum (map (fun q => emul (esub (fst q) (Fi 1)) (snd q)) (combine alpha log_given))))) = Returns v) <-> Forall positive given).
    { split.
      - intros (v & H). destruct (checked_all true (map elog given)) as [r|] eqn:E; cbn [bind] in H; [|discriminate]. apply all_finite in E as (_ & N).
        specialize (N eq_refl). rewrite Forall_map in N. revert N. apply Forall_impl. intros a. now rewrite <- elog_finite, finite_iff.
      - intros P. rewrite all_checked; [cbn [bind]; eauto|]. rewrite Forall_map. revert P. apply Forall_impl. intros a. now rewrite <- elog_finite, finite_iff. }
    tauto.
Qed.
Theorem C53_exp_concrete T logits given :
  (forall v, exp_concrete_log_p lgamma true T logits given = Returns v -> exp_concrete_log_p lgamma false T logits given = Returns v) /\
  ((exists v, exp_concrete_log_p lgamma true T logits given = Returns v) <-> positive T).
Proof.
  unfold exp_concrete_log_p. cbv zeta. split.
  - intros v H. now apply bind_checked in H as (_ & H).
  - rewrite checked_iff, returns_iff, elog_finite. tauto.
Qed.
Theorem C53_concrete T logits given :
  (forall v, concrete_log_p lgamma true T logits given = Returns v -> concrete_log_p lgamma false T logits given = Returns v) /\
  ((exists v, concrete_log_p lgamma true T logits given = Returns v) <-> positive T /\ Forall positive given).
Proof.
  unfold concrete_log_p. cbv zeta. split.
  - intros v H. rewrite all_unchecked. destruct (checked_all true (map elog given)) as [r|] eqn:E; cbn [bind] in *; [|discriminate].
    apply all_finite in E as (-> & _). now apply bind_checked in H as (_ & H).
  - split.
    + intros (v & H). destruct (checked_all true (map elog given)) as [r|] eqn:E; cbn [bind] in *; [|discriminate].
      apply all_finite in E as (-> & N). apply bind_checked in H as (F & _). split; [now apply elog_finite|].
      specialize (N eq_refl). rewrite Forall_map in N. revert N. apply Forall_impl. intros a. now rewrite <- elog_finite, finite_iff.
    + intros (P & G). rewrite all_checked; [cbn [bind]; apply checked_iff; split; [now apply elog_finite|eauto]|].
      rewrite Forall_map. revert G. apply Forall_impl. intros a. now rewrite <- elog_finite, finite_iff.
Qed.
Lemma emul_number c a : c <> 0 -> (number (emul (Fi c) a) <-> number a).
Proof.
  intros Hc. split; [|intros (r & ->); now eexists]. intros (r & E). destruct a; cbn in E; try destruct (Rlt_dec 0 c); try destruct (Rlt_dec c 0); try discriminate; now eexists.
Qed.
Lemma diag_positive M : number (reduce_sum (map elog (ediag M))) <-> Forall positive (ediag M).
Proof. rewrite sum_finite, Forall_map. split; apply Forall_impl; intros a; rewrite <- elog_finite, finite_iff; auto. Qed.
Theorem C53_multivariate_normal mean L given :
  (forall v, mvn_log_p true mean L given = Returns v -> mvn_log_p false mean L given = Returns v) /\
  ((exists v, mvn_log_p true mean L given = Returns v) <-> Forall positive (ediag L)).
Proof.
  unfold mvn_log_p. cbv zeta. split.
  - intros v H. now apply bind_checked in H as (_ & H).
  - rewrite checked_iff, returns_iff, finite_iff, esub_finite.
    assert (E : forall a, number (ediv a 2) <-> number a).
    { intros a. split; [|intros (r & ->); cbn; destruct (Req_EM_T 2 0); [lra|now eexists]]. intros (r & H). destruct a; cbn in H; [now eexists|destruct (Rlt_dec 2 0); discriminate|destruct (Rlt_dec 2 0); discriminate|discriminate]. }
    rewrite E, emul_number, diag_positive by lra. split; [tauto|]. intros H. repeat split; auto. now eexists.
Qed.
Theorem C53_matrix_normal mean U V given :
  (forall v, matrix_log_p true mean U V given = Returns v -> matrix_log_p false mean U V given = Returns v) /\
  ((exists v, matrix_log_p true mean U V given = Returns v) <-> Forall positive (ediag U) /\ Forall positive (ediag V)).
Proof.
  unfold matrix_log_p. cbv zeta. split.
  - intros v H. now apply bind_checked in H as (_ & H).
  - rewrite checked_iff, returns_iff, finite_iff, !esub_finite.
    assert (G : forall c a, number (emul (Fi c) a) <-> number a).
    { intros c a. split; [|intros (r & ->); now eexists]. intros (r & E). destruct a; cbn in E; try destruct (Rlt_dec 0 c); try destruct (Rlt_dec c 0); try discriminate; now eexists. }
    rewrite !G, !diag_positive. split; [tauto|]. intros (A & B). repeat split; auto. now eexists.
Qed.
(** Inside the support, with valid finite parameters: never rejected, and the answer is
    the real-number formula. *)
Lemma combine_fin (f : ext * ext -> ext) (g : R * R -> R) a b : (forall x y, f (Fi x, Fi y) = Fi (g (x, y))) ->
  map f (combine (map Fi a) (map Fi b)) = map Fi (map g (combine a b)).
Proof. intros H. revert b. induction a as [|x a IH]; intros [|y b]; cbn; [reflexivity..|]. now rewrite H, IH. Qed.
Lemma logs l : Forall (fun x => 0 < x) l -> map elog (map Fi l) = map Fi (map ln l).
Proof. induction 1; cbn [map]; [reflexivity|]. now rewrite IHForall, elog_pos. Qed.
Lemma numbers l : Forall number (map Fi l).
Proof. apply Forall_map, Forall_forall. intros x _. now exists x. Qed.
Lemma elogsumexp_fin l : l <> [] -> elogsumexp (map Fi l) = Fi (logsumexp l).
Proof.
  intros N. assert (O : Forall ordinary (map Fi l)) by (apply Forall_map, Forall_forall; intros; exact I).
  destruct (reduce_max_cases _ O) as [[_ A]|(m & E & In_m & _)].
  - destruct l as [|x l]; [contradiction|]. discriminate (A (Fi x) (or_introl eq_refl)).
  - destruct (C23_exact true (map Fi l) O) as [X _]; [now exists m|]. unfold log_sum_exp, lse_arg, shifted in X. rewrite map_map, E in X.
    unfold elogsumexp. rewrite E. cbn [is_finite]. rewrite X. unfold logsumexp. do 2 f_equal.
    clear. induction l as [|x l IH]; cbn; [reflexivity|]. now rewrite IH.
Qed.
Lemma positive_list l : Forall (fun x => 0 < x) l -> Forall positive (map Fi l).
Proof. intros H. rewrite Forall_map. revert H. apply Forall_impl. intros x H. now exists x. Qed.
Lemma sumR_pos l : l <> [] -> Forall (fun x => 0 < x) l -> 0 < sumR l.
Proof.
  intros N H. destruct H as [|x l Hx Hl]; [contradiction|]. change (0 < x + sumR l).
  assert (0 <= sumR l) by (clear - Hl; induction Hl as [|y l Hy _ IH]; [cbn; lra|change (0 <= y + sumR l); lra]). lra.
Qed.
Theorem C53_dirichlet_inside check alpha given : alpha <> [] ->
  Forall (fun a => 0 < a) alpha -> Forall (fun x => 0 < x) given -> length alpha = length given ->
  dirichlet_log_p lgamma check (map Fi alpha) (map Fi given) = Returns (Fi (dirichlet_lp lgamma given alpha)).
Proof.
  intros N A G Len. unfold dirichlet_log_p. rewrite logs by exact G.
  assert (L : map (elgamma lgamma) (map Fi alpha) = map Fi (map lgamma alpha)).
  { clear - A. induction A; cbn [map]; [reflexivity|]. now rewrite IHA, elgamma_pos. }
  rewrite L, !reduce_sum_fin, elgamma_pos by now apply sumR_pos. cbn [esub eneg eadd].
  replace (checked check (Fi (sumR (map lgamma alpha) + - lgamma (sumR alpha)))) with (Returns (Fi (sumR (map lgamma alpha) + - lgamma (sumR alpha)))) by now destruct check.
  cbn [bind]. replace (checked_all check (map Fi (map ln given))) with (Returns (map Fi (map ln given))) by (destruct check; symmetry; [apply all_checked, numbers|apply all_unchecked]).
  cbn [bind eneg]. rewrite (combine_fin _ (fun q => (fst q - 1) * snd q)) by reflexivity. rewrite reduce_sum_fin. cbn [eadd].
  unfold dirichlet_lp, lbeta. do 4 f_equal. clear. revert given. induction alpha as [|a alpha IH]; intros [|x given]; cbn; try reflexivity. now rewrite IH.
Qed.
Theorem C53_exp_concrete_inside check T logits given : logits <> [] -> 0 < T -> length logits = length given ->
  exp_concrete_log_p lgamma check (Fi T) (map Fi logits) (map Fi given) = Returns (Fi (exp_concrete_lp lgamma given T logits)).
Proof.
  intros N HT Len. unfold exp_concrete_log_p. cbv zeta. rewrite map_length, elog_pos by exact HT.
  replace (checked check (Fi (ln T))) with (Returns (Fi (ln T))) by now destruct check. cbn [bind].
  assert (PN : 0 < INR (length logits)) by (destruct logits; [contradiction|cbn [length]; apply lt_0_INR; lia]).
  rewrite (combine_fin _ (fun q => fst q - T * snd q)) by reflexivity.
  rewrite elgamma_pos, reduce_sum_fin, elogsumexp_fin by (try exact PN; destruct logits, given; cbn in *; try discriminate; try contradiction; discriminate).
  cbn [esub eneg eadd emul]. unfold exp_concrete_lp. cbv zeta.
  replace (map (fun p => snd p - T * fst p) (combine given logits)) with (map (fun q => fst q - T * snd q) (combine logits given)); [reflexivity|].
  clear. revert given. induction logits as [|a logits IH]; intros [|x given]; cbn; try reflexivity. now rewrite IH.
Qed.
Theorem C53_concrete_inside check T logits given : logits <> [] -> 0 < T -> Forall (fun x => 0 < x) given -> length logits = length given ->
  concrete_log_p lgamma check (Fi T) (map Fi logits) (map Fi given) = Returns (Fi (concrete_lp lgamma given T logits)).
Proof.
  intros N HT G Len. unfold concrete_log_p. cbv zeta. rewrite map_length, elog_pos, logs by assumption.
  replace (checked_all check (map Fi (map ln given))) with (Returns (map Fi (map ln given))) by (destruct check; symmetry; [apply all_checked, numbers|apply all_unchecked]).
  cbn [bind]. replace (checked check (Fi (ln T))) with (Returns (Fi (ln T))) by now destruct check. cbn [bind].
  assert (PN : 0 < INR (length logits)) by (destruct logits; [contradiction|cbn [length]; apply lt_0_INR; lia]).
  rewrite (combine_fin _ (fun q => fst q - T * snd q)) by reflexivity. rewrite (combine_fin _ (fun q => fst q - snd q)) by reflexivity.
  rewrite elgamma_pos, reduce_sum_fin, elogsumexp_fin by (try exact PN; destruct logits, given; cbn in *; try discriminate; try contradiction; discriminate).
  cbn [esub eneg eadd emul]. unfold concrete_lp. cbv zeta.
  replace (map (fun p => snd p - T * ln (fst p)) (combine given logits)) with (map (fun q => fst q - T * snd q) (combine logits (map ln given))).
  - assert (X : forall temp, map (fun q => fst q - snd q) (combine temp (map ln given)) = map (fun p => fst p - ln (snd p)) (combine temp given))
      by (clear; intros temp; revert given; induction temp as [|a temp IH]; intros [|x given]; cbn; try reflexivity; now rewrite IH).
    now rewrite X.
  - clear. revert given. induction logits as [|a logits IH]; intros [|x given]; cbn; try reflexivity. now rewrite IH.
Qed.

(** A negative coordinate makes the log density of Dirichlet and Concrete NaN. *)
Lemma in_combine_l {A B} (a : list A) (b : list B) y : length a = length b -> In y b -> exists x, In (x, y) (combine a b).
Proof.
  revert b. induction a as [|u a IH]; intros [|v b] Len H; cbn in *; try discriminate; [contradiction|].
  destruct H as [->|H]; [exists u; now left|]. destruct (IH b) as (x & Hx); [lia|exact H|]. exists x. now right.
Qed.
Theorem C53_rows_outside alpha T logits given x : In (Fi x) given -> x < 0 ->
  (length alpha = length given -> dirichlet_log_p lgamma false alpha given = Returns NaN) /\
  (length logits = length given -> concrete_log_p lgamma false T logits given = Returns NaN).
Proof.
  intros H Hx. assert (NL : In NaN (map elog given)) by (rewrite <- (elog_neg x Hx); now apply in_map). split; intros Len.
  - unfold dirichlet_log_p. cbn [checked bind]. rewrite all_unchecked. cbn [bind]. f_equal. rewrite (sum_nan (map (fun q => emul (esub (fst q) (Fi 1)) (snd q)) (combine alpha (map elog given)))); [apply eadd_nan_r|].
    destruct (in_combine_l alpha (map elog given) NaN) as (a & Ha); [now rewrite map_length|exact NL|].
    apply in_map_iff. exists (a, NaN). split; [apply emul_nan_r|exact Ha].
  - unfold concrete_log_p. cbv zeta. rewrite all_unchecked. cbn [checked bind]. f_equal. set (temp := map _ (combine logits _)).
    rewrite (sum_nan (map (fun q => esub (fst q) (snd q)) (combine temp (map elog given)))); [rewrite eadd_nan_r; reflexivity|].
    destruct (in_combine_l temp (map elog given) NaN) as (a & Ha); [unfold temp; rewrite !map_length, combine_length, map_length; lia|exact NL|].
    apply in_map_iff. exists (a, NaN). split; [apply esub_nan_r|exact Ha].
Qed.
(** A Multinomial category of probability zero (logit minus infinity) that is never
    counted still makes the log-probability NaN. *)
Theorem C53_zero_probability_refuted normalize n logits given :
  length logits = length given -> (exists k, nth_error logits k = Some MInf /\ nth_error given k = Some (Fi 0)) ->
  multinomial_log_p lgamma normalize n logits given = NaN.
Proof.
  intros Len (k & L & G). unfold multinomial_log_p. cbv zeta. set (ls := if normalize then _ else _).
  assert (K : exists l, nth_error ls k = Some l /\ emul (Fi 0) l = NaN).
  { unfold ls. destruct normalize.
    - rewrite nth_error_map, L. cbn [option_map]. eexists. split; [reflexivity|]. destruct (elogsumexp logits); cbn; destruct (Rlt_dec 0 0); try lra; reflexivity.
    - exists MInf. split; [exact L|]. cbn. destruct (Rlt_dec 0 0); [lra|reflexivity]. }
  clearbody ls. destruct K as (l & K & E). rewrite (sum_nan (map (fun q => emul (fst q) (snd q)) (combine given ls))); [apply eadd_nan_r|].
  apply in_map_iff. exists (Fi 0, l). split; [exact E|]. clear - G K. revert ls k G K.
  induction given as [|g given IH]; intros [|a ls] [|k] G K; cbn in *; try discriminate.
  - left. congruence.
  - right. exact (IH ls k G K).
Qed.
(** When the call is not rejected and the inputs that are not checked are numbers, the
    answer is a number. *)
Lemma as_reals l : Forall number l -> exists r, l = map Fi r.
Proof. induction 1 as [|a l (x & ->) _ (r & ->)]; [now exists []|now exists (x :: r)]. Qed.
Lemma combine_numbers (f : ext * ext -> ext) a b : (forall x y, number x -> number y -> number (f (x, y))) ->
  Forall number a -> Forall number b -> Forall number (map f (combine a b)).
Proof.
  intros H A. revert b. induction A as [|x a Hx A IH]; intros b B; [constructor|]. destruct B as [|y b Hy B]; [constructor|].
  cbn. constructor; auto.
Qed.
Lemma positive_number a : positive a -> number a.
Proof. intros (r & -> & _). now exists r. Qed.
Lemma elog_number a : positive a -> number (elog a).
Proof. intros H. now apply finite_iff, elog_finite. Qed.
Lemma ret_inj {A} (a b : A) : Returns a = Returns b -> a = b.
Proof. now intros [= ->]. Qed.
Theorem C53_rows_are_numbers alpha T logits given v : length logits = length given -> logits <> [] ->
  (dirichlet_log_p lgamma true alpha given = Returns v -> number v) /\
  (Forall number logits -> Forall number given -> exp_concrete_log_p lgamma true T logits given = Returns v -> number v) /\
  (Forall number logits -> concrete_log_p lgamma true T logits given = Returns v -> number v).
Proof.
  intros Len NE. assert (PN : at_pole (INR (length logits)) = false) by (apply at_pole_pos; destruct logits; [contradiction|cbn [length]; apply lt_0_INR; lia]).
  assert (LSE : forall l, Forall number l -> l <> [] -> number (elogsumexp l)).
  { intros l Hl N. destruct (as_reals l Hl) as (r & ->). rewrite elogsumexp_fin; [now eexists|]. now destruct r. }
  assert (MUL : forall T x y, number T -> number x -> number y -> number (esub x (emul T y))) by (intros; apply esub_finite; split; [assumption|now apply emul_finite]).
  split; [|split].
  - intros H. assert (A : exists v, dirichlet_log_p lgamma true alpha given = Returns v) by eauto. apply C53_dirichlet in A as (A & _ & G).
    pose proof H as H0. unfold dirichlet_log_p in H. apply bind_checked in H as (F & H). destruct (checked_all true (map elog given)) as [r|] eqn:E; cbn [bind] in H; [|discriminate].
    apply all_finite in E as (-> & N). apply ret_inj in H; subst v. apply eadd_finite. split; [apply finite_iff in F as (q & ->); now eexists|].
    apply sum_finite, combine_numbers; [|revert A; apply Forall_impl; intros a (q & -> & _); now eexists|apply N; reflexivity].
    intros x y Hx Hy. apply emul_finite; [|exact Hy]. apply esub_finite. split; [exact Hx|now eexists].
  - intros NL NG H. assert (A : exists v, exp_concrete_log_p lgamma true T logits given = Returns v) by eauto. apply C53_exp_concrete in A.
    unfold exp_concrete_log_p in H. cbv zeta in H. apply bind_checked in H as (_ & H). apply ret_inj in H; subst v.
    assert (NT : Forall number (map (fun q => esub (fst q) (emul T (snd q))) (combine logits given))) by (apply combine_numbers; auto; intros; apply MUL; auto; now apply positive_number).
    apply esub_finite; split; [apply eadd_finite; split; [apply eadd_finite; split|now apply sum_finite]|].
    + cbn. rewrite PN. now eexists.
    + apply emul_finite; [now eexists|now apply elog_number].
    + apply emul_finite; [now eexists|]. apply LSE; [exact NT|]. destruct logits, given; cbn in *; try discriminate; contradiction.
  - intros NL H. assert (A : exists v, concrete_log_p lgamma true T logits given = Returns v) by eauto. apply C53_concrete in A as (A & G).
    unfold concrete_log_p in H. cbv zeta in H. destruct (checked_all true (map elog given)) as [r|] eqn:E; cbn [bind] in H; [|discriminate].
    apply all_finite in E as (-> & N). specialize (N eq_refl). apply bind_checked in H as (_ & H). apply ret_inj in H; subst v.
    assert (NT : Forall number (map (fun q => esub (fst q) (emul T (snd q))) (combine logits (map elog given)))) by (apply combine_numbers; auto; intros; apply MUL; auto; now apply positive_number).
    apply esub_finite; split; [apply eadd_finite; split; [apply eadd_finite; split|]|].
    + cbn. rewrite PN. now eexists.
    + apply emul_finite; [now eexists|now apply elog_number].
    + apply sum_finite, combine_numbers; auto. intros; apply esub_finite; auto.
    + apply emul_finite; [now eexists|]. apply LSE; [exact NT|]. destruct logits, given; cbn in *; try discriminate; contradiction.
Qed.

Lemma edot_row_numbers l xs y : Forall number l -> Forall (Forall number) xs -> Forall number y -> Forall number (edot_row l xs y).
Proof.
  unfold edot_row. intros Hl. revert xs y. induction Hl as [|a l Ha Hl IH]; intros xs y X Y; [exact Y|]. destruct X as [|x xs Hx X]; [exact Y|].
  cbn. apply IH; [exact X|]. apply combine_numbers; auto. intros. apply esub_finite. split; [assumption|now apply emul_finite].
Qed.
Lemma esolve_numbers L : forall xs Y, Forall (Forall number) L -> Forall (Forall number) Y -> Forall (Forall number) xs ->
  (forall i, (i < length L)%nat -> positive (nth (length xs + i) (nth i L []) NaN)) -> Forall (Forall number) (esolve_from xs L Y).
Proof.
  induction L as [|l L IH]; intros xs Y HL HY HX D; [exact HX|]. destruct Y as [|y Y]; [exact HX|]. cbn [esolve_from].
  inversion HL; inversion HY; subst. apply IH; auto.
  - apply Forall_app. split; [exact HX|]. constructor; [|constructor]. rewrite Forall_map.
    destruct (D 0%nat ltac:(cbn; lia)) as (r & E & Hr). cbn [nth] in E. rewrite Nat.add_0_r in E. rewrite E.
    assert (N : Forall number (edot_row l xs y)) by now apply edot_row_numbers. revert N. apply Forall_impl. intros a (q & ->). cbn. destruct (Req_EM_T r 0); [lra|now eexists].
  - intros i Hi. rewrite app_length. cbn [length]. specialize (D (S i) ltac:(cbn; lia)). cbn [nth] in D. now replace (length xs + 1 + i)%nat with (length xs + S i)%nat by lia.
Qed.
Lemma diag_nth L i : (i < length L)%nat -> Forall positive (ediag L) -> positive (nth i (nth i L []) NaN).
Proof. intros Hi H. unfold ediag in H. rewrite Forall_map, Forall_forall in H. apply H, in_seq. lia. Qed.
Lemma sum_squares_number M : Forall (Forall number) M -> number (sum_squares M).
Proof.
  intros H. unfold sum_squares. apply sum_finite. rewrite Forall_map. revert H. apply Forall_impl. intros r H. apply sum_finite. rewrite Forall_map. revert H. apply Forall_impl.
  intros a H. now apply emul_finite.
Qed.
Theorem C53_multivariate_normal_is_number mean L given v :
  Forall number mean -> Forall (Forall number) L -> Forall number given ->
  mvn_log_p true mean L given = Returns v -> number v.
Proof.
  intros NM NL NG H. assert (A : exists v, mvn_log_p true mean L given = Returns v) by eauto. apply C53_multivariate_normal in A.
  unfold mvn_log_p in H. cbv zeta in H. apply bind_checked in H as (F & H). apply ret_inj in H; subst v. apply eadd_finite. split; [now apply finite_iff|].
  apply emul_finite; [now eexists|]. apply sum_squares_number, esolve_numbers; auto; [|intros i Hi; now apply diag_nth].
  rewrite Forall_map. assert (X : Forall number (map (fun q => esub (fst q) (snd q)) (combine given mean))) by (apply combine_numbers; auto; intros; apply esub_finite; auto).
  rewrite Forall_map in X. revert X. apply Forall_impl. intros q Hq. constructor; [exact Hq|constructor].
Qed.
End Any.
Print Assumptions C53_checks_change_nothing.
Print Assumptions C53_unchecked_always_returns.
Print Assumptions C53_accepts_exactly.
Print Assumptions C53_checked_answers_are_numbers.
Print Assumptions C53_inside.
Print Assumptions C53_outside.
Print Assumptions C53_nan_parameter.
Print Assumptions C53_nan_value.
Print Assumptions C53_nan_is_outside_uniform.
Print Assumptions C53_prob.
Print Assumptions C53_uniform_prob.
Print Assumptions C53_sampling_ignores_std.
Print Assumptions C53_sampling_logstd.
Print Assumptions C53_batch.
Print Assumptions C53_boundary.
Print Assumptions C53_never_succeeds.
Print Assumptions C53_boundary_refuted.
Print Assumptions C53_dirichlet.
Print Assumptions C53_exp_concrete.
Print Assumptions C53_concrete.
Print Assumptions C53_multivariate_normal.
Print Assumptions C53_matrix_normal.
Print Assumptions C53_dirichlet_inside.
Print Assumptions C53_exp_concrete_inside.
Print Assumptions C53_concrete_inside.
Print Assumptions C53_rows_outside.
Print Assumptions C53_zero_probability_refuted.
Print Assumptions C53_rows_are_numbers.
Print Assumptions C53_multivariate_normal_is_number.

(** Concrete cases. *)
Example C53_case_gamma : accepted (Gamma (Fi 2) (Fi 3)) (Fi 1) /\ ~ accepted (Gamma (Fi 2) (Fi 3)) (Fi 0) /\ accepted (Gamma (Fi (-1/2)) (Fi 3)) (Fi 1).
Proof.
  assert (P : forall r, 0 < r -> positive (Fi r)) by (intros r H; now exists r).
  split; [|split].
  - split; [exists 2; split; [reflexivity|]; intros k E; pose proof (pos_INR k); lra|]. split; apply P; lra.
  - intros (_ & _ & r & [= <-] & H). lra.
  - split; [|split; apply P; lra]. exists (-1/2). split; [reflexivity|]. intros [|k] E; [cbn in E; lra|]. rewrite S_INR in E. pose proof (pos_INR k). lra.
Qed.
Example C53_case_uniform lgamma : log_p lgamma false (Uniform (Fi 0) (Fi 2)) (Fi 5) = Returns MInf /\ log_p lgamma true (Uniform (Fi 0) (Fi 2)) (Fi 5) = Invalid /\
  log_p lgamma true (Uniform (Fi 0) (Fi 2)) (Fi 1) = Returns (Fi (ln (/ 2))).
Proof.
  destruct (C53_outside lgamma (Uniform (Fi 0) (Fi 2)) (Fi 5)) as (A & B); [constructor; lra|]. split; [exact A|]. split; [exact B|].
  apply C53_inside. constructor; [lra|]. unfold uniform_lp, uniform_prob. destruct (Rle_dec 0 1); [|lra]. destruct (Rlt_dec 1 2); [|lra].
  replace (1 / (2 - 0) * 1) with (/ 2) by field. destruct (Req_EM_T (/ 2) 0); [lra|reflexivity].
Qed.
(** A batch with one bad entry. *)
Example C53_case_batch lgamma : log_probs lgamma true [(Laplace (Fi 0) (Fi 1), Fi 3); (Laplace (Fi 0) (Fi 0), Fi 3)] = Invalid.
Proof.
  apply C53_batch. exists (Laplace (Fi 0) (Fi 0)), (Fi 3). split; [cbn; auto|]. intros (r & [= <-] & H). lra.
Qed.
(** An infinite logstd passes the checks of log_prob although sampling is rejected. *)
Example C53_case_logstd lgamma : log_p lgamma true (Normal (Fi 0) (Logstd PInf)) (Fi 1) = Returns MInf /\ normal_draw true (Fi 0) (Logstd PInf) 1 = Invalid.
Proof.
  split; [|reflexivity]. cbn. destruct (Rlt_dec 0 (-2)); [lra|]. destruct (Rlt_dec (-2) 0); [|lra]. reflexivity.
Qed.
Example C53_case_mvn : Forall positive (ediag [[Fi 1; Fi 0]; [Fi 5; Fi 2]]).
Proof. repeat constructor; [exists 1|exists 2]; (split; [reflexivity|lra]). Qed.
Example C53_case_outside : outside (Binomial (Fi 0) 3) (Fi (INR 4)) /\ outside (FoldNormal (Fi 1) (Std (Fi 2))) (Fi (-1)).
Proof. split; [apply (out_binomial_high 0 3 4); lia|constructor; lra]. Qed.
