(** C17 for Beta: the sampler, fed with independent standard gamma draws, has the law
    whose density log_prob reports. *)
From Coq Require Import List Reals Lra Lia.
From Coquelicot Require Import Coquelicot.
From Verif Require Import ModelDist SpecDist SpecDensity SpecPair ProofIntegral ProofDensity PropDensity ProofGammaFn ProofBeta PropBeta ProofTonelli ProofBetaLaw.
Local Open Scope R_scope.

Theorem C17_beta lgamma alpha beta : 0 < alpha -> 0 < beta ->
  lgamma_euler lgamma alpha -> lgamma_euler lgamma beta -> lgamma_euler lgamma (alpha + beta) ->
  is_density_between (gamma_noise lgamma alpha) (at_right 0) to_plus_infinity /\
  is_density_between (gamma_noise lgamma beta) (at_right 0) to_plus_infinity /\
  pair_draws_from (gamma_noise lgamma alpha) (gamma_noise lgamma beta) beta_sample
    (fun x => exp (beta_lp lgamma x alpha beta)).
Proof.
  intros A B Ea Eb Eab.
  assert (N : forall s, lgamma_euler lgamma s -> is_density_between (gamma_noise lgamma s) (at_right 0) to_plus_infinity).
  { intros s E. split; [intros x; unfold gamma_noise; left; apply Rmult_lt_0_compat; [apply Rinv_0_lt_compat, exp_pos|apply Rmult_lt_0_compat; apply exp_pos]|].
    apply mass_normalised; try typeclasses eauto; [apply exp_pos|exact E]. }
  split; [now apply N|]. split; [now apply N|].
  intros t T. destruct (beta_law alpha beta t A B T) as (T1 & m & Tl & M & J).
  set (Z := exp (lgamma alpha + lgamma beta - lgamma (alpha + beta))).
  exists (/ Z * m), (fun u => / exp (lgamma beta) * (RInt (eul beta) (u / t - u) 1 + T1)). split; [|split].
  - intros u U. assert (Q : 0 < u / t - u).
    { assert (u < u / t); [|lra]. replace u with (u / 1) at 1 by field. apply Rmult_lt_compat_l; [assumption|]. apply Rinv_lt_contravar; lra. }
    exists (u / t - u). split; [exact Q|]. split.
    + intros v V. unfold beta_sample. split; intros H.
      * assert (u / t < u + v); [|lra]. apply (Rmult_lt_reg_r t); [lra|]. unfold Rdiv at 1. rewrite Rmult_assoc, Rinv_l, Rmult_1_r by lra.
        apply (Rmult_lt_compat_r (u + v)) in H; [|lra]. unfold Rdiv in H. rewrite Rmult_assoc, Rinv_l, Rmult_1_r in H by lra. lra.
      * assert (W : u / t < u + v) by lra. apply (Rmult_lt_compat_r t) in W; [|lra]. unfold Rdiv in W. rewrite Rmult_assoc, Rinv_l, Rmult_1_r in W by lra.
        apply (Rmult_lt_reg_r (u + v)); [lra|]. unfold Rdiv. rewrite Rmult_assoc, Rinv_l, Rmult_1_r by lra. lra.
    + apply (mass_scal (eul beta)); try typeclasses eauto. now apply Tl.
  - apply (mass_scal _ _ _ (/ (exp (lgamma alpha) * exp (lgamma beta)))) in J.
    replace (/ Z * m) with (/ (exp (lgamma alpha) * exp (lgamma beta)) * (m * exp (log_gamma (alpha + beta)))).
    + revert J. apply (is_RInt_gen_ext (V := R_NormedModule)). apply filter_forall_prod; try typeclasses eauto. intros ab u _.
      unfold gamma_noise. fold (eul alpha u). match goal with |- ?p = ?q => change (@eq R p q) end. field. split; apply Rgt_not_eq, exp_pos.
    + unfold Z. rewrite <- (lgamma_is _ _ Eab). unfold Rminus. rewrite !exp_plus, exp_Ropp. field. repeat split; apply Rgt_not_eq, exp_pos.
  - apply (mass_scal _ _ _ (/ Z)) in M. revert M. apply (is_RInt_gen_ext (V := R_NormedModule)).
    apply filter_forall_prod; try typeclasses eauto. intros ab x _.
    unfold Z, beta_lp, bker, Rpower. rewrite <- exp_Ropp, <- !exp_plus. f_equal. ring.
Qed.
Print Assumptions C17_beta.
Example C17_beta_example : exists lgamma,
  pair_draws_from (gamma_noise lgamma (/ 2)) (gamma_noise lgamma 3) beta_sample (fun x => exp (beta_lp lgamma x (/ 2) 3)).
Proof.
  destruct lgamma_premises_met as (lgamma & E & _). exists lgamma. apply C17_beta; try apply E; lra.
Qed.
