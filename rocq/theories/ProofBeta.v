(** Euler's Beta integral: it exists, and equals Gamma(a) Gamma(b) / Gamma(a + b).
    No exchange of integrals is used: both sides satisfy the same recurrence in [a],
    and log-convexity in [a] pins the solution down. *)
From Coq Require Import List Reals Lra Lia.
From Coquelicot Require Import Coquelicot.
From Verif Require Import SpecDist SpecDensity ProofIntegral ProofDensity PropDensity ProofGammaFn.
Local Open Scope R_scope.

Lemma between_01 a b x : 0 < a < 1 -> 0 < b < 1 -> Rmin a b <= x <= Rmax a b -> 0 < x < 1.
Proof. intros A B. unfold Rmin, Rmax. destruct (Rle_dec a b); lra. Qed.
Lemma ends_01 (P : R * R -> Prop) : (forall a b, 0 < a < / 2 -> / 2 < b < 1 -> P (a, b)) ->
  filter_prod (at_right 0) (at_left 1) P.
Proof.
  intros H. apply (Filter_prod _ _ _ _ _ (at_right_lt 0 (/ 2) ltac:(lra)) (at_left_lt (/ 2) 1 ltac:(lra))).
  intros; now apply H.
Qed.
Lemma inside_01 (P : R -> Prop) : (forall x, 0 < x < 1 -> P x) ->
  filter_prod (at_right 0) (at_left 1) (fun ab => forall x, Rmin (fst ab) (snd ab) < x < Rmax (fst ab) (snd ab) -> P x).
Proof. intros H. apply ends_01. intros a b A B x X. simpl in X. apply H. apply (between_01 a b); lra. Qed.

(** A non-negative integrand has a non-negative integral. *)
Lemma mass_nonneg (f : R -> R) (Fa Fb : (R -> Prop) -> Prop) {F1 : ProperFilter Fa} {F2 : ProperFilter Fb} l :
  filter_prod Fa Fb (fun ab => fst ab <= snd ab /\ forall x, fst ab < x < snd ab -> 0 <= f x) ->
  is_RInt_gen f Fa Fb l -> 0 <= l.
Proof.
  intros H M. destruct (Rle_dec 0 l) as [|N]; [assumption|exfalso].
  assert (E : 0 < - l) by lra. specialize (M (ball l (mkposreal _ E)) (locally_ball l (mkposreal _ E))).
  unfold filtermapi in M. destruct (filter_ex _ (filter_and _ _ H M)) as ((a & b) & (L & Nn) & y & I & B). simpl in *.
  unfold ball in B; simpl in B. unfold AbsRing_ball, abs, minus, plus, opp in B; simpl in B. apply Rabs_def2 in B.
  assert (0 <= y); [|lra]. apply (is_RInt_ge_0 f a b); auto.
Qed.

(** The tangent line of a power below one lies above it. *)
Lemma power_tangent x c s : 0 < x -> 0 < c -> 0 <= s <= 1 ->
  Rpower x s <= Rpower c s + s * (Rpower c s / c) * (x - c).
Proof.
  intros X Cc S. set (v := ln (x / c)). set (m := s * v).
  assert (D : 0 < x / c) by (apply Rdiv_lt_0_compat; assumption).
  assert (E1 : Rpower x s = Rpower c s * exp m).
  { unfold Rpower, m, v. rewrite <- exp_plus. f_equal. unfold Rdiv.
    rewrite ln_mult, ln_Rinv; auto; [ring|now apply Rinv_0_lt_compat]. }
  assert (E2 : exp v = x / c) by (unfold v; now apply exp_ln).
  pose proof (exp_ineq1_le (v - m)) as H1. pose proof (exp_ineq1_le (- m)) as H2.
  pose proof (exp_pos m) as Pm.
  assert (Q1 : exp m * (1 + (v - m)) <= exp v) by (replace v with (m + (v - m)) at 2 by ring; rewrite exp_plus; nra).
  assert (Q2 : exp m * (1 - m) <= 1) by (replace 1 with (exp (m + - m)) at 2 by (rewrite Rplus_opp_r; apply exp_0); rewrite exp_plus; nra).
  assert (Q : exp m <= s * exp v + (1 - s)).
  { assert (T : exp m = s * (exp m * (1 + (v - m))) + (1 - s) * (exp m * (1 - m))) by (generalize (exp m); intros e; unfold m; ring).
    rewrite T. apply Rplus_le_compat; [apply Rmult_le_compat_l; lra|].
    rewrite <- (Rmult_1_r (1 - s)) at 2. apply Rmult_le_compat_l; lra. }
  rewrite E1. assert (0 < Rpower c s) by apply exp_pos. rewrite E2 in Q.
  replace (Rpower c s + s * (Rpower c s / c) * (x - c)) with (Rpower c s * (s * (x / c) + (1 - s))) by (field; lra).
  apply Rmult_le_compat_l; lra.
Qed.

(** Log-convexity, in the form needed: the moment of order [q + s] is at most the
    moment of order [q] times the [s]-th power of the ratio of the next one to it. *)
Lemma moment_tangent (w : R -> R) (Fa Fb : (R -> Prop) -> Prop) {F1 : ProperFilter Fa} {F2 : ProperFilter Fb} q s m0 m1 ms :
  filter_prod Fa Fb (fun ab => fst ab <= snd ab /\ forall x, fst ab < x < snd ab -> 0 < x /\ 0 <= w x) ->
  0 <= s <= 1 -> 0 < m0 -> 0 < m1 ->
  is_RInt_gen (fun x => Rpower x q * w x) Fa Fb m0 ->
  is_RInt_gen (fun x => Rpower x (q + 1) * w x) Fa Fb m1 ->
  is_RInt_gen (fun x => Rpower x (q + s) * w x) Fa Fb ms ->
  ms <= m0 * Rpower (m1 / m0) s.
Proof.
  intros H S P0 P1 M0 M1 Ms. set (c := m1 / m0). assert (Cc : 0 < c) by (now apply Rdiv_lt_0_compat).
  set (A := Rpower c s - s * (Rpower c s / c) * c). set (B := s * (Rpower c s / c)).
  pose proof (is_RInt_gen_plus (V := R_NormedModule) _ _ _ _ (mass_scal _ _ _ A _ M0) (mass_scal _ _ _ B _ M1)) as T.
  pose proof (is_RInt_gen_plus (V := R_NormedModule) _ _ _ _ T (mass_scal _ _ _ (-1) _ Ms)) as D.
  unfold plus in D; simpl in D.
  assert (Q : 0 <= A * m0 + B * m1 + -1 * ms).
  { refine (mass_nonneg _ Fa Fb _ _ D). revert H. apply filter_imp. intros [a b] (L & W). simpl in *. split; [exact L|].
    intros x X. destruct (W x X) as (Px & Pw). pose proof (power_tangent x c s Px Cc S) as Tg.
    assert (E1 : Rpower x (q + 1) = Rpower x q * x) by (rewrite Rpower_plus, Rpower_1; auto).
    assert (E2 : Rpower x (q + s) = Rpower x q * Rpower x s) by apply Rpower_plus.
    rewrite E1, E2.
    replace (A * (Rpower x q * w x) + B * (Rpower x q * x * w x) + -1 * (Rpower x q * Rpower x s * w x))
      with (Rpower x q * w x * (A + B * x - Rpower x s)) by ring.
    apply Rmult_le_pos; [apply Rmult_le_pos; [left; apply exp_pos|assumption]|]. unfold A, B. lra. }
  assert (E : A * m0 + B * m1 = m0 * Rpower c s); [|lra].
  unfold A, B. replace m1 with (c * m0) by (unfold c; field; lra). field. lra.
Qed.

(** Existence on the open unit interval, from a bound on the partial integrals. *)
Section Exists01.
Variable f : R -> R.
Hypothesis f_pos : forall x, 0 < x < 1 -> 0 < f x.
Hypothesis f_cont : forall x, 0 < x < 1 -> continuous f x.
Lemma f_int01 a b : 0 < a < 1 -> 0 < b < 1 -> ex_RInt f a b.
Proof.
  intros A B. apply (ex_RInt_continuous f). intros z Z. apply f_cont. now apply (between_01 a b).
Qed.
Lemma f_mono01 x x' y y' : 0 < x' -> x' <= x -> x <= y -> y <= y' -> y' < 1 -> RInt f x y <= RInt f x' y'.
Proof.
  intros P X XY Y Q.
  rewrite <- (RInt_Chasles f x' x y'), <- (RInt_Chasles f x y y') by (apply f_int01; lra).
  assert (0 <= RInt f x' x) by (apply RInt_ge_0; [lra|apply f_int01; lra|intros; left; apply f_pos; lra]).
  assert (0 <= RInt f y y') by (apply RInt_ge_0; [lra|apply f_int01; lra|intros; left; apply f_pos; lra]).
  unfold plus; simpl. lra.
Qed.
Lemma ex_mass01 B : (forall x y, 0 < x -> x <= / 2 -> / 2 <= y -> y < 1 -> RInt f x y <= B) ->
  exists l, 0 < l /\ is_RInt_gen f (at_right 0) (at_left 1) l.
Proof.
  intros Bd.
  destruct (completeness (fun v => exists x y, 0 < x /\ x <= / 2 /\ / 2 <= y /\ y < 1 /\ v = RInt f x y)) as (l & Ub & Lub).
  - exists B. intros v (x & y & X & Y & Z & W & ->). now apply Bd.
  - exists (RInt f (/ 2) (/ 2)), (/ 2), (/ 2). repeat split; lra.
  - exists l. split.
    + apply Rlt_le_trans with (RInt f (/ 4) (/ 2)).
      * apply RInt_gt_0; [lra|intros; apply f_pos; lra|intros; apply f_cont; lra].
      * apply Ub. exists (/ 4), (/ 2). repeat split; lra.
    + intros P (e & He). unfold filtermapi.
      assert (Near : exists x0 y0, 0 < x0 /\ x0 <= / 2 /\ / 2 <= y0 /\ y0 < 1 /\ l - e < RInt f x0 y0).
      { destruct (Classical_Prop.classic (exists x0 y0, 0 < x0 /\ x0 <= / 2 /\ / 2 <= y0 /\ y0 < 1 /\ l - e < RInt f x0 y0)) as [H|H]; [exact H|].
        exfalso. assert (l <= l - e); [|pose proof (cond_pos e); lra]. apply Lub.
        intros v (x & y & X & Y & Z & W & ->). destruct (Rle_dec (RInt f x y) (l - e)); [assumption|].
        exfalso. apply H. exists x, y. repeat split; lra. }
      destruct Near as (x0 & y0 & X0 & X1 & Y0 & Y1 & N).
      apply (Filter_prod _ _ _ _ _ (at_right_lt 0 x0 X0) (at_left_lt y0 1 Y1)). intros a b A Bb. simpl.
      exists (RInt f a b). split; [apply (RInt_correct f), f_int01; lra|]. apply He.
      assert (RInt f a b <= l) by (apply Ub; exists a, b; repeat split; lra).
      assert (RInt f x0 y0 <= RInt f a b) by (apply f_mono01; lra).
      unfold ball; simpl. unfold AbsRing_ball, abs, minus, plus, opp; simpl. apply Rabs_def1; pose proof (cond_pos e); lra.
Qed.
End Exists01.

Definition bker (a b x : R) : R := Rpower x (a - 1) * Rpower (1 - x) (b - 1).
Lemma bker_pos a b x : 0 < bker a b x.
Proof. apply Rmult_lt_0_compat; apply exp_pos. Qed.
Lemma Rpower_flip_continuous p x : x < 1 -> continuous (fun t => Rpower (1 - t) p) x.
Proof. intros X. apply (ex_derive_continuous (fun t => Rpower (1 - t) p)). unfold Rpower. auto_derive. lra. Qed.
Lemma bker_continuous a b x : 0 < x < 1 -> continuous (bker a b) x.
Proof.
  intros X. apply (continuous_mult (fun t => Rpower t (a - 1)) (fun t => Rpower (1 - t) (b - 1)));
    [apply Rpower_continuous|apply Rpower_flip_continuous]; lra.
Qed.
Lemma bker_int a b x y : 0 < x < 1 -> 0 < y < 1 -> ex_RInt (bker a b) x y.
Proof. apply f_int01. intros; now apply bker_continuous. Qed.
Lemma power_bound u c : / 2 <= u <= 1 -> Rpower u c <= 1 + Rpower (/ 2) c.
Proof.
  intros U. unfold Rpower.
  assert (L0 : ln u <= 0) by (rewrite <- ln_1; destruct (proj2 U) as [L|L]; [left; apply ln_increasing; lra|rewrite L; lra]).
  assert (L1 : ln (/ 2) <= ln u) by (destruct (proj1 U) as [L|L]; [left; apply ln_increasing; lra|rewrite L; lra]).
  destruct (Rle_dec 0 c) as [Hc|Hc].
  - assert (exp (c * ln u) <= 1) by (rewrite <- exp_0; apply exp_le; nra). pose proof (exp_pos (c * ln (/ 2))). lra.
  - assert (exp (c * ln u) <= exp (c * ln (/ 2))) by (apply exp_le; nra). lra.
Qed.
Lemma bker_low a b x : 0 < a -> 0 < x <= / 2 -> RInt (bker a b) x (/ 2) <= (1 + Rpower (/ 2) (b - 1)) * / a.
Proof.
  intros A X. set (K := 1 + Rpower (/ 2) (b - 1)). assert (PK : 0 < K) by (unfold K; pose proof (exp_pos ((b - 1) * ln (/ 2))); unfold Rpower; lra).
  assert (E : is_RInt (fun t => K * Rpower t (a - 1)) x (/ 2) (K * (/ a * Rpower (/ 2) a) - K * (/ a * Rpower x a))).
  { apply (is_RInt_derive (fun t => K * (/ a * Rpower t a)) (fun t => K * Rpower t (a - 1))); rewrite Rmin_left, Rmax_right by lra; intros t T.
    - unfold Rpower. auto_derive; [lra|]. rewrite Rmult_1_l. replace (a * ln t) with ((a - 1) * ln t + ln t) by ring.
      rewrite exp_plus, exp_ln by lra. field. lra.
    - apply (continuous_mult (fun _ => K) (fun t => Rpower t (a - 1))); [apply continuous_const|apply Rpower_continuous; lra]. }
  apply Rle_trans with (RInt (fun t => K * Rpower t (a - 1)) x (/ 2)).
  - apply RInt_le; [lra|apply bker_int; lra|eexists; exact E|]. intros t T. unfold bker.
    rewrite (Rmult_comm K). apply Rmult_le_compat_l; [left; apply exp_pos|]. apply power_bound. lra.
  - rewrite (is_RInt_unique _ _ _ _ E).
    assert (H1 : Rpower (/ 2) a <= 1).
    { unfold Rpower. rewrite <- exp_0. apply exp_le. assert (ln (/ 2) < 0) by (rewrite <- ln_1; apply ln_increasing; lra). nra. }
    assert (0 < / a) by (now apply Rinv_0_lt_compat). assert (0 < Rpower x a) by apply exp_pos.
    assert (0 < Rpower (/ 2) a) by apply exp_pos. assert (0 < K * / a) by nra. nra.
Qed.
Lemma bker_flip a b x y l : is_RInt (bker a b) x y l -> is_RInt (bker b a) (1 - y) (1 - x) l.
Proof.
  intros I. apply (is_RInt_swap (V := R_NormedModule)) in I.
  pose proof (is_RInt_comp_lin (V := R_NormedModule) (bker a b) (-1) 1 (1 - y) (1 - x) (opp l)) as E.
  replace (-1 * (1 - y) + 1) with y in E by ring. replace (-1 * (1 - x) + 1) with x in E by ring. specialize (E I).
  apply (is_RInt_opp (V := R_NormedModule)) in E. rewrite (opp_opp (G := R_NormedModule)) in E.
  revert E. apply is_RInt_ext. intros t _. unfold scal, opp, mult, bker; simpl. unfold mult; simpl.
  replace (-1 * t + 1) with (1 - t) by ring. replace (1 - (1 - t)) with t by ring. ring.
Qed.
Lemma beta_exists a b : 0 < a -> 0 < b -> exists l, 0 < l /\ is_RInt_gen (bker a b) (at_right 0) (at_left 1) l.
Proof.
  intros A B.
  apply (ex_mass01 (bker a b)) with ((1 + Rpower (/ 2) (b - 1)) * / a + (1 + Rpower (/ 2) (a - 1)) * / b);
    [intros; apply bker_pos|intros; now apply bker_continuous|].
  intros x y X X' Y' Y.
  rewrite <- (RInt_Chasles (bker a b) x (/ 2) y) by (apply bker_int; lra).
  pose proof (bker_low a b x A ltac:(lra)) as H1. pose proof (bker_low b a (1 - y) B ltac:(lra)) as H2.
  assert (E : RInt (bker a b) (/ 2) y = RInt (bker b a) (1 - y) (/ 2)).
  { symmetry. replace (/ 2) with (1 - / 2) at 1 by lra. apply is_RInt_unique. apply bker_flip.
    apply (RInt_correct (bker a b)). apply bker_int; lra. }
  rewrite E. unfold plus; simpl. lra.
Qed.

(** B(a+1,b) = a/(a+b) B(a,b) *)
Lemma power_0 a : 0 < a -> filterlim (fun t => Rpower t a) (at_right 0) (locally 0).
Proof.
  intros A. unfold Rpower. eapply (filterlim_comp _ _ _ (fun t => a * ln t) exp); [|apply is_lim_exp_m].
  eapply (filterlim_comp _ _ _ ln (fun v => a * v)); [apply is_lim_ln_0|].
  intros P (M & HM). exists (M / a). intros x Hx. apply HM. apply (Rmult_lt_compat_l a) in Hx; [|assumption].
  replace (a * (M / a)) with M in Hx by (field; lra). lra.
Qed.
Lemma flip_1 : filterlim (fun t => 1 - t) (at_left 1) (at_right 0).
Proof.
  intros P (e & He). exists e. intros y B L. apply He; [|lra].
  unfold ball in *; simpl in *. unfold AbsRing_ball, abs, minus, plus, opp in *; simpl in *.
  apply Rabs_def2 in B. apply Rabs_def1; lra.
Qed.
Lemma bparts_0 a b : 0 < a -> filterlim (fun t => Rpower t a * Rpower (1 - t) b) (at_right 0) (locally 0).
Proof.
  intros A. pose proof (power_0 a A) as L. set (K := 1 + Rpower (/ 2) b).
  assert (L' : filterlim (fun t => 0 + Rpower t a * K) (at_right 0) (locally (0 + 0 * K))).
  { eapply (filterlim_comp _ _ _ (fun t => Rpower t a) (fun v => 0 + v * K)); [exact L|apply affine_continuous]. }
  replace (0 + 0 * K) with 0 in L' by ring.
  apply (filterlim_le_le (fun _ => 0) (fun t => Rpower t a * Rpower (1 - t) b) (fun t => 0 + Rpower t a * K) 0); [|apply filterlim_const|exact L'].
  apply (filter_imp (fun t => 0 < t < / 2)); [|apply at_right_lt; lra]. intros t T.
  assert (0 < Rpower t a) by apply exp_pos. assert (0 < Rpower (1 - t) b) by apply exp_pos.
  pose proof (power_bound (1 - t) b ltac:(lra)). fold K in H1. split; nra.
Qed.
Lemma bparts_1 a b : 0 < b -> filterlim (fun t => Rpower t a * Rpower (1 - t) b) (at_left 1) (locally 0).
Proof.
  intros B. pose proof (filterlim_comp _ _ _ (fun t => 1 - t) _ _ _ _ flip_1 (bparts_0 b a B)) as L.
  revert L. apply filterlim_ext. intros t. replace (1 - (1 - t)) with t by ring. apply Rmult_comm.
Qed.
Lemma beta_step a b l : 0 < a -> 0 < b -> is_RInt_gen (bker a b) (at_right 0) (at_left 1) l ->
  is_RInt_gen (bker (a + 1) b) (at_right 0) (at_left 1) (a / (a + b) * l).
Proof.
  intros A B M.
  assert (D : is_RInt_gen (fun t => a * bker a b t - (a + b) * bker (a + 1) b t) (at_right 0) (at_left 1) (0 - 0)).
  { apply (is_RInt_gen_cdf _ (fun t => Rpower t a * Rpower (1 - t) b)); try typeclasses eauto; [|now apply bparts_0|now apply bparts_1].
    apply ends_01. intros x y X Y t T. simpl in T. assert (0 < t < 1) by (apply (between_01 x y); lra). split.
    - unfold bker, Rpower. auto_derive; [repeat split; lra|]. replace (a + 1 - 1) with a by ring.
      replace (a * ln t) with ((a - 1) * ln t + ln t) by ring.
      change (1 + - t) with (1 - t). replace (b * ln (1 - t)) with ((b - 1) * ln (1 - t) + ln (1 - t)) by ring. rewrite ?exp_plus, !exp_ln by lra. field. lra.
    - apply (continuous_minus (fun t => a * bker a b t) (fun t => (a + b) * bker (a + 1) b t));
        [apply (continuous_mult (fun _ => a) (bker a b))|apply (continuous_mult (fun _ => a + b) (bker (a + 1) b))];
        try apply continuous_const; apply bker_continuous; lra. }
  pose proof (mass_scal (bker a b) _ _ a l M) as M'.
  pose proof (is_RInt_gen_minus (V := R_NormedModule) _ _ _ _ M' D) as S.
  apply (mass_scal _ _ _ (/ (a + b))) in S.
  unfold minus, plus, opp in S; simpl in S. replace (/ (a + b) * (a * l + - (0 - 0))) with (a / (a + b) * l) in S by (field; lra).
  revert S. apply (is_RInt_gen_ext (V := R_NormedModule)). apply filter_forall_prod; try typeclasses eauto. intros ab x _.
  unfold minus, plus, opp; simpl. match goal with |- ?u = ?v => change (@eq R u v) end. field. lra.
Qed.
Lemma beta_one b : 0 < b -> is_RInt_gen (bker 1 b) (at_right 0) (at_left 1) (/ b).
Proof.
  intros B. assert (M : is_RInt_gen (bker 1 b) (at_right 0) (at_left 1) (0 - - / b)); [|now replace (0 - - / b) with (/ b) in M by ring].
  apply (is_RInt_gen_cdf _ (fun t => - / b * Rpower (1 - t) b)); try typeclasses eauto.
  - apply ends_01. intros x y X Y t T. simpl in T. assert (0 < t < 1) by (apply (between_01 x y); lra). split; [|now apply bker_continuous].
    unfold bker, Rpower. auto_derive; [lra|]. change (1 + - t) with (1 - t). replace (1 - 1) with 0 by ring. rewrite Rmult_0_l, exp_0.
    replace (b * ln (1 - t)) with ((b - 1) * ln (1 - t) + ln (1 - t)) by ring. rewrite exp_plus, exp_ln by lra. field. lra.
  - apply (filterlim_filter_le_1 (F := locally 0)); [apply filter_le_within|].
    assert (Cc : continuous (fun t => - / b * Rpower (1 - t) b) 0).
    { apply (ex_derive_continuous (fun t => - / b * Rpower (1 - t) b)). unfold Rpower. auto_derive. lra. }
    unfold continuous in Cc. replace (- / b * Rpower (1 - 0) b) with (- / b) in Cc; [exact Cc|].
    unfold Rpower. rewrite Rminus_0_r, ln_1, Rmult_0_r, exp_0. ring.
  - pose proof (filterlim_comp _ _ _ (fun t => 1 - t) _ _ _ _ flip_1 (power_0 b B)) as L.
    pose proof (filterlim_comp _ _ _ _ (fun v => 0 + v * - / b) _ _ _ L (affine_continuous 0 (- / b) 0)) as L'.
    cbv beta in L'. replace (0 + 0 * - / b) with 0 in L' by ring. revert L'. apply filterlim_ext. intros t. ring.
Qed.

(** Logarithms of the two integrals. [log_gamma] is in ProofGammaFn. *)
Definition log_beta (a b : R) : R := ln (RInt_gen (bker a b) (at_right 0) (at_left 1)).
Lemma log_beta_mass a b : 0 < a -> 0 < b -> is_RInt_gen (bker a b) (at_right 0) (at_left 1) (exp (log_beta a b)).
Proof.
  intros A B. destruct (beta_exists a b A B) as (l & P & M). unfold log_beta.
  rewrite (is_RInt_gen_unique (V := R_CompleteNormedModule) _ _ M). now rewrite exp_ln.
Qed.
Lemma log_beta_unique a b l : 0 < l -> is_RInt_gen (bker a b) (at_right 0) (at_left 1) l -> log_beta a b = ln l.
Proof. intros P M. unfold log_beta. now rewrite (is_RInt_gen_unique (V := R_CompleteNormedModule) _ _ M). Qed.
Lemma log_gamma_unique a l : 0 < l -> is_RInt_gen (eul a) (at_right 0) (Rbar_locally p_infty) l -> log_gamma a = ln l.
Proof. intros P M. unfold log_gamma. now rewrite (is_RInt_gen_unique (V := R_CompleteNormedModule) _ _ M). Qed.
Lemma lg_step a : 0 < a -> log_gamma (a + 1) = log_gamma a + ln a.
Proof.
  intros A. pose proof (gamma_step a _ A (log_gamma_euler a A)) as M.
  rewrite (log_gamma_unique (a + 1) (a * exp (log_gamma a))); [|pose proof (exp_pos (log_gamma a)); nra|exact M].
  rewrite ln_mult by (try apply exp_pos; assumption). rewrite ln_exp. ring.
Qed.
Lemma lg_one : log_gamma 1 = 0.
Proof. rewrite (log_gamma_unique 1 1); [apply ln_1|lra|apply gamma_one]. Qed.
Lemma lb_step a b : 0 < a -> 0 < b -> log_beta (a + 1) b = log_beta a b + ln a - ln (a + b).
Proof.
  intros A B. pose proof (beta_step a b _ A B (log_beta_mass a b A B)) as M.
  assert (0 < a / (a + b)) by (apply Rdiv_lt_0_compat; lra).
  rewrite (log_beta_unique (a + 1) b (a / (a + b) * exp (log_beta a b))); [|apply Rmult_lt_0_compat; [assumption|apply exp_pos]|exact M].
  rewrite ln_mult by (try apply exp_pos; assumption). rewrite ln_exp, ln_div by lra. ring.
Qed.
Lemma lb_one b : 0 < b -> log_beta 1 b = - ln b.
Proof.
  intros B. rewrite (log_beta_unique 1 b (/ b)); [now apply ln_Rinv|now apply Rinv_0_lt_compat|now apply beta_one].
Qed.
Lemma lg_tangent x s : 0 < x -> 0 <= s <= 1 -> log_gamma (x + s) <= log_gamma x + s * ln x.
Proof.
  intros X S.
  assert (T : exp (log_gamma (x + s)) <= exp (log_gamma x) * Rpower (exp (log_gamma (x + 1)) / exp (log_gamma x)) s).
  { apply (moment_tangent (fun t => exp (- t)) (at_right 0) (Rbar_locally p_infty) (x - 1) s); auto using exp_pos.
    - apply (Filter_prod _ _ _ _ _ (at_right_lt 0 1 ltac:(lra)) (p_infty_gt 1)). intros a b A B. simpl. split; [lra|].
      intros t Ht. split; [lra|left; apply exp_pos].
    - exact (log_gamma_euler x X).
    - replace (x - 1 + 1) with (x + 1 - 1) by ring. exact (log_gamma_euler (x + 1) ltac:(lra)).
    - replace (x - 1 + s) with (x + s - 1) by ring. exact (log_gamma_euler (x + s) ltac:(lra)). }
  unfold Rpower in T. rewrite ln_div, !ln_exp, <- exp_plus, lg_step in T by (try apply exp_pos; assumption).
  replace (log_gamma x + ln x - log_gamma x) with (ln x) in T by ring.
  destruct (Rle_dec (log_gamma (x + s)) (log_gamma x + s * ln x)); [assumption|].
  exfalso. apply (Rle_not_lt _ _ T), exp_increasing. lra.
Qed.
Lemma lb_tangent x b s : 0 < x -> 0 < b -> 0 <= s <= 1 -> log_beta (x + s) b <= log_beta x b + s * (ln x - ln (x + b)).
Proof.
  intros X B S.
  assert (T : exp (log_beta (x + s) b) <= exp (log_beta x b) * Rpower (exp (log_beta (x + 1) b) / exp (log_beta x b)) s).
  { apply (moment_tangent (fun t => Rpower (1 - t) (b - 1)) (at_right 0) (at_left 1) (x - 1) s); auto using exp_pos.
    - apply ends_01. intros u v U V. simpl. split; [lra|]. intros t Ht. split; [lra|left; apply exp_pos].
    - exact (log_beta_mass x b X B).
    - replace (x - 1 + 1) with (x + 1 - 1) by ring. exact (log_beta_mass (x + 1) b ltac:(lra) B).
    - replace (x - 1 + s) with (x + s - 1) by ring. exact (log_beta_mass (x + s) b ltac:(lra) B). }
  unfold Rpower in T. rewrite ln_div, !ln_exp, <- exp_plus, lb_step in T by (try apply exp_pos; assumption).
  replace (log_beta x b + ln x - ln (x + b) - log_beta x b) with (ln x - ln (x + b)) in T by ring.
  destruct (Rle_dec (log_beta (x + s) b) (log_beta x b + s * (ln x - ln (x + b)))); [assumption|].
  exfalso. apply (Rle_not_lt _ _ T), exp_increasing. lra.
Qed.

(** The logarithm of B(a,b) Gamma(a+b) / (Gamma(a) Gamma(b)). *)
Definition defect (a b : R) : R := log_beta a b + log_gamma (a + b) - log_gamma a - log_gamma b.
Lemma defect_step a b : 0 < a -> 0 < b -> defect (a + 1) b = defect a b.
Proof.
  intros A B. unfold defect. rewrite lb_step by assumption. rewrite (lg_step a) by assumption.
  replace (a + 1 + b) with (a + b + 1) by ring. rewrite (lg_step (a + b)) by lra. ring.
Qed.
Lemma defect_steps n a b : 0 < a -> 0 < b -> defect (a + INR n) b = defect a b.
Proof.
  intros A B. induction n as [|n IH]; [simpl; now rewrite Rplus_0_r|].
  rewrite S_INR, <- Rplus_assoc, defect_step; auto. pose proof (pos_INR n). lra.
Qed.
Lemma defect_one b : 0 < b -> defect 1 b = 0.
Proof.
  intros B. unfold defect. rewrite lb_one, lg_one by assumption. rewrite (Rplus_comm 1 b), lg_step by assumption. ring.
Qed.
Lemma defect_near x s b : 0 < x -> 0 < b -> 0 <= s <= 1 -> defect x b = 0 -> Rabs (defect (x + s) b) <= / x.
Proof.
  intros X B S Z.
  pose proof (lb_tangent x b s X B S) as B1. pose proof (lb_tangent (x + s) b (1 - s) ltac:(lra) B ltac:(lra)) as B2.
  pose proof (lg_tangent x s X S) as G1. pose proof (lg_tangent (x + s) (1 - s) ltac:(lra) ltac:(lra)) as G2.
  pose proof (lg_tangent (x + b) s ltac:(lra) S) as H1. pose proof (lg_tangent (x + b + s) (1 - s) ltac:(lra) ltac:(lra)) as H2.
  replace (x + s + (1 - s)) with (x + 1) in * by ring. replace (x + b + s + (1 - s)) with (x + b + 1) in H2 by ring.
  rewrite lb_step in B2 by assumption. rewrite lg_step in G2 by assumption. rewrite lg_step in H2 by lra.
  replace (x + b + s) with (x + s + b) in * by ring.
  assert (L : 0 <= ln (x + s) - ln x <= / x).
  { split.
    - destruct S as [[S|S] _]; [apply Rlt_le, Rlt_Rminus, ln_increasing; lra|rewrite <- S, Rplus_0_r; lra].
    - pose proof (ln_bound (x + s) (/ x) ltac:(lra) ltac:(now apply Rinv_0_lt_compat)) as Lb. rewrite ln_Rinv in Lb by assumption.
      replace (/ x * (x + s)) with (1 + s * / x) in Lb by (field; lra).
      assert (0 < / x) by (now apply Rinv_0_lt_compat). nra. }
  unfold defect in *.
  assert (Q : (1 - s) * (ln (x + s) - ln x) <= / x) by (assert (0 < / x) by (now apply Rinv_0_lt_compat); nra).
  apply Rabs_le. split; nra.
Qed.
Theorem beta_gamma a b : 0 < a -> 0 < b -> log_beta a b = log_gamma a + log_gamma b - log_gamma (a + b).
Proof.
  intros A B. assert (Z : defect a b = 0); [|unfold defect in Z; lra].
  destruct (Req_dec (defect a b) 0) as [|N]; [assumption|exfalso].
  assert (P : 0 < Rabs (defect a b)) by (now apply Rabs_pos_lt).
  destruct (archimed_cor1 _ P) as (n & Hn & Pn).
  (* a = m + s *)
  destruct (nfloor_ex a ltac:(lra)) as (m & Hm).
  assert (E : defect a b = defect (INR (m + n) + (a - INR m)) b).
  { rewrite <- (defect_steps n a b A B). f_equal. rewrite plus_INR. ring. }
  assert (N1 : 1 <= INR n) by (apply (le_INR 1); lia). pose proof (pos_INR m) as Pm.
  assert (ZN : defect (INR (m + n)) b = 0).
  { replace (INR (m + n)) with (1 + INR (m + n - 1)).
    - rewrite defect_steps by lra. now apply defect_one.
    - rewrite minus_INR by lia. simpl. ring. }
  pose proof (defect_near (INR (m + n)) (a - INR m) b ltac:(rewrite plus_INR; lra) B ltac:(lra) ZN) as H.
  rewrite <- E in H.
  assert (/ INR (m + n) <= / INR n) by (apply Rinv_le_contravar; rewrite ?plus_INR; lra). lra.
Qed.
