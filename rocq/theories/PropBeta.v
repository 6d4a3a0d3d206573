(** C16 for Beta and Dirichlet: the densities integrate to one over the unit interval
    and over the simplex, for all positive parameters. *)
From Coq Require Import List Reals Lra Lia.
From Coquelicot Require Import Coquelicot.
From Verif Require Import ModelDist SpecDist SpecDensity SpecSimplex ProofIntegral ProofDensity PropDensity ProofGammaFn ProofBeta.
Import List ListNotations.
Local Open Scope R_scope.

Lemma lgamma_is lgamma a : lgamma_euler lgamma a -> lgamma a = log_gamma a.
Proof.
  intros E. rewrite (log_gamma_unique a (exp (lgamma a)) (exp_pos _) E). symmetry. apply ln_exp.
Qed.
Lemma beta_normalised a b : 0 < a -> 0 < b ->
  is_RInt_gen (bker a b) (at_right 0) (at_left 1) (exp (log_gamma a + log_gamma b - log_gamma (a + b))).
Proof. intros A B. rewrite <- beta_gamma by assumption. now apply log_beta_mass. Qed.

Theorem C16_beta lgamma alpha beta : 0 < alpha -> 0 < beta ->
  lgamma_euler lgamma alpha -> lgamma_euler lgamma beta -> lgamma_euler lgamma (alpha + beta) ->
  is_density_between (fun x => exp (beta_lp lgamma x alpha beta)) (at_right 0) (at_left 1).
Proof.
  intros A B Ea Eb Eab. split; [intros; left; apply exp_pos|].
  pose proof (beta_normalised alpha beta A B) as M. apply mass_normalised in M; try typeclasses eauto; [|apply exp_pos].
  revert M. apply (is_RInt_gen_ext (V := R_NormedModule)). apply inside_01. intros x X.
  unfold beta_lp, bker, Rpower. rewrite (lgamma_is _ _ Ea), (lgamma_is _ _ Eb), (lgamma_is _ _ Eab).
  rewrite <- exp_Ropp, <- !exp_plus. f_equal. ring.
Qed.
Print Assumptions C16_beta.

(** The Beta integral over an interval of length [s]. *)
Lemma scale_01 s : 0 < s -> filterlim (fun x => / s * x) (at_left s) (at_left 1).
Proof.
  intros S P (e & He). assert (E : 0 < s * e) by (pose proof (cond_pos e); nra).
  exists (mkposreal _ E). intros y B L. apply He.
  - unfold ball in *; simpl in *. unfold AbsRing_ball, abs, minus, plus, opp in *; simpl in *.
    replace (/ s * y + - (1)) with (/ s * (y + - s)) by (field; lra).
    rewrite Rabs_mult, Rabs_pos_eq by (left; now apply Rinv_0_lt_compat).
    apply (Rmult_lt_reg_l s); [assumption|]. rewrite <- Rmult_assoc, Rinv_r, Rmult_1_l by lra. exact B.
  - apply (Rmult_lt_reg_l s); [assumption|]. rewrite <- Rmult_assoc, Rinv_r by lra. lra.
Qed.
Lemma beta_scaled s a b : 0 < s -> 0 < a -> 0 < b ->
  is_RInt_gen (fun x => Rpower x (a - 1) * Rpower (s - x) (b - 1)) (at_right 0) (at_left s)
    (Rpower s (a + b - 1) * exp (log_gamma a + log_gamma b - log_gamma (a + b))).
Proof.
  intros S A B. pose proof (beta_normalised a b A B) as M.
  assert (Is : 0 < / s) by (now apply Rinv_0_lt_compat).
  assert (M' : is_RInt_gen (fun x => / s * bker a b (/ s * x)) (at_right 0) (at_left s) (exp (log_gamma a + log_gamma b - log_gamma (a + b)))).
  { apply (is_RInt_gen_subst (bker a b) _ (fun x => / s * x) (at_right 0) (at_left 1)); try typeclasses eauto; auto.
    - now apply scale_at_right.
    - now apply scale_01.
    - apply filter_forall_prod; try typeclasses eauto. intros [u v] w W. simpl in *.
      pose proof (is_RInt_comp_lin (bker a b) (/ s) 0 u v w) as E. rewrite !Rplus_0_r in E.
      apply (is_RInt_ext (fun y => scal (/ s) (bker a b (/ s * y + 0)))); [|now apply E].
      intros x _. unfold scal; simpl; unfold mult; simpl. now rewrite Rplus_0_r. }
  apply (mass_scal _ _ _ (Rpower s (a + b - 1))) in M'. revert M'.
  apply (is_RInt_gen_ext (V := R_NormedModule)).
  apply (Filter_prod _ _ _ _ _ (at_right_lt 0 s S) (at_left_lt 0 s S)). intros u v U V x X. simpl in X.
  assert (0 < x < s) by (unfold Rmin, Rmax in X; destruct (Rle_dec u v); lra).
  unfold bker, Rpower. rewrite (ln_mult (/ s) x), ln_Rinv by lra.
  replace (1 - / s * x) with (/ s * (s - x)) by (field; lra). rewrite ln_mult, ln_Rinv by lra.
  replace (/ s) with (exp (- ln s)) by (rewrite exp_Ropp, exp_ln by assumption; reflexivity).
  rewrite <- !exp_plus. f_equal. ring.
Qed.

(** The Dirichlet integral. *)
Lemma mass_simplex_ext n : forall s f g m, (forall v, length v = S n -> Forall (fun x => 0 < x) v -> f v = g v) -> 0 < s ->
  mass_simplex n s f m -> mass_simplex n s g m.
Proof.
  induction n as [|n IH]; intros s f g m E S; simpl.
  - rewrite E; auto.
  - intros (h & H & M). exists h. split; [|exact M]. intros x X. apply (IH (s - x) (fun v => f (x :: v))); [|lra|now apply H].
    intros v L P. apply E; [simpl; now rewrite L|constructor; [lra|assumption]].
Qed.
Lemma sumR_pos v : v <> [] -> Forall (fun x => 0 < x) v -> 0 < sumR v.
Proof.
  intros N F. induction F as [|x v X F IH]; [easy|]. simpl. destruct v as [|y v]; [simpl; lra|].
  specialize (IH ltac:(discriminate)). simpl in *. lra.
Qed.
Lemma dirichlet_integral n : forall alpha s c, length alpha = S n -> Forall (fun a => 0 < a) alpha -> 0 < s ->
  mass_simplex n s (fun v => exp (c + sumR (map (fun p => (snd p - 1) * ln (fst p)) (combine v alpha))))
    (Rpower s (sumR alpha - 1) * exp (c + lbeta log_gamma alpha)).
Proof.
  induction n as [|n IH]; intros alpha s c L F S.
  - destruct alpha as [|a [|? ?]]; try discriminate. simpl. unfold lbeta, Rpower. simpl. rewrite <- exp_plus. f_equal.
    rewrite !Rplus_0_r. ring.
  - destruct alpha as [|a alpha]; [discriminate|]. injection L as L. inversion F as [|? ? Pa F']; subst.
    assert (N : alpha <> []) by (intros ->; discriminate).
    pose proof (sumR_pos alpha N F') as Ps.
    exists (fun x => exp (c + (a - 1) * ln x + lbeta log_gamma alpha) * Rpower (s - x) (sumR alpha - 1)). split.
    + intros x X. specialize (IH alpha (s - x) (c + (a - 1) * ln x) L F' ltac:(lra)).
      rewrite (Rmult_comm (Rpower _ _)) in IH. revert IH. apply mass_simplex_ext; [|lra].
      intros v _ _. simpl. f_equal. ring.
    + pose proof (beta_scaled s a (sumR alpha) S Pa Ps) as M.
      apply (mass_scal _ _ _ (exp (c + lbeta log_gamma alpha))) in M.
      replace (Rpower s (sumR (a :: alpha) - 1) * exp (c + lbeta log_gamma (a :: alpha)))
        with (exp (c + lbeta log_gamma alpha) * (Rpower s (a + sumR alpha - 1) * exp (log_gamma a + log_gamma (sumR alpha) - log_gamma (a + sumR alpha)))).
      * revert M. apply (is_RInt_gen_ext (V := R_NormedModule)). apply filter_forall_prod; try typeclasses eauto. intros ab x _.
        unfold Rpower. rewrite <- !exp_plus. f_equal. ring.
      * simpl. unfold lbeta, Rpower. simpl. rewrite <- !exp_plus. f_equal. ring.
Qed.
Theorem C16_dirichlet lgamma alpha n : length alpha = S n -> Forall (fun a => 0 < a) alpha ->
  (forall a, 0 < a -> lgamma_euler lgamma a) ->
  (forall x, 0 <= exp (dirichlet_lp lgamma x alpha)) /\
  mass_simplex n 1 (fun x => exp (dirichlet_lp lgamma x alpha)) 1.
Proof.
  intros L F E. split; [intros; left; apply exp_pos|].
  pose proof (dirichlet_integral n alpha 1 (- lbeta log_gamma alpha) L F Rlt_0_1) as M.
  assert (Eb : lbeta lgamma alpha = lbeta log_gamma alpha).
  { unfold lbeta. f_equal.
    - f_equal. clear -F E. induction F; simpl; [reflexivity|]. f_equal; [now apply lgamma_is, E|assumption].
    - apply lgamma_is, E, sumR_pos; [intros ->; discriminate|assumption]. }
  unfold dirichlet_lp. rewrite Eb.
  rewrite Rplus_opp_l, exp_0, Rmult_1_r in M. unfold Rpower in M. rewrite ln_1, Rmult_0_r, exp_0 in M. exact M.
Qed.
Print Assumptions C16_dirichlet.

(** The premises hold of one function, at parameters below and above one. *)
Example C16_beta_example : exists lgamma,
  is_density_between (fun x => exp (beta_lp lgamma x (/ 2) 3)) (at_right 0) (at_left 1) /\
  mass_simplex 2 1 (fun x => exp (dirichlet_lp lgamma x [/ 2; 2; 5])) 1.
Proof.
  destruct lgamma_premises_met as (lgamma & E & _). exists lgamma. split.
  - apply C16_beta; try apply E; lra.
  - apply (C16_dirichlet lgamma [/ 2; 2; 5] 2); [reflexivity|repeat constructor; lra|exact E].
Qed.
