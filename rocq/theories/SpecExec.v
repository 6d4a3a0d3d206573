(** One HMC iteration in program order, for C56: from the contents of the variables at its
    beginning and the number [e] taken as the content of step_size. *)
From Coq Require Import List Arith Bool Reals ZArith.
From Verif Require Import ModelShape ModelExt ModelHMC ModelHMCExec.
Import ListNotations.
Local Open Scope R_scope.

Section Sequential.
Variables (latents : nat) (given_step given_mass step_on mass_on : bool) (chain : shape).
Variables (initial_stepsize gamma t0 kappa delta decay : R) (mass_collect_iters : Z).
Variable momentum : nat -> (index -> ext) -> index -> R.
Variable find_step : (nat -> index -> ext) -> state -> state -> R -> R.
Variable trajectory : (nat -> index -> ext) -> R -> state -> state -> state * state.
Variable energy0 : (nat -> index -> ext) -> state -> state -> index -> ext.
Variable rates : (nat -> index -> ext) -> (index -> ext) -> state * state -> index -> ext.
Variable mean_rate : (index -> ext) -> R.
Variable u01 : index -> R.
Variable m : var -> value.

Definition position0 : state := fun x => if (fst x <? latents)%nat then arr (m (VQ (fst x))) (snd x) else 0.
(** The moving variance of entry [d] of latent [k] and the mass of that entry. *)
Definition seq_mass (k : nat) (d : index) : ewmv * ext :=
  hmc_mass given_mass decay mass_collect_iters
    (Ewmv (cnt (m VET)) (arr (m (VMean k)) d) (arr (m (VVar k)) d)) mass_on (S (cnt (m VT)))
    (map (fun ch => arr (m (VQ k)) (ch ++ d)) (indices chain)).
Definition mass0 : nat -> index -> ext := fun k d => if (k <? latents)%nat then snd (seq_mass k d) else Fi 1.
Definition momentum0 : state := fun x => if (fst x <? latents)%nat then momentum (fst x) (mass0 (fst x)) (snd x) else 0.

Variable e : R.
Definition found0 : R := find_step mass0 position0 momentum0 e.
Definition adaptation1 : adaptation := Adaptation (cnt (m VT)) e (Tuner (num (m VStep)) (num (m VLbar)) (num (m VHbar))).
Definition seq_adapt (r : R) : adaptation * R :=
  hmc_iter given_step given_mass initial_stepsize gamma t0 kappa delta mass_collect_iters adaptation1 step_on found0 r.
(** The step size used does not depend on the acceptance rate. *)
Definition seq_step_size : R := snd (seq_adapt 0).
Definition end0 : state * state := trajectory mass0 seq_step_size position0 momentum0.
Definition seq_rate : index -> ext := rates mass0 (energy0 mass0 position0 momentum0) end0.
Definition seq_q (k : nat) (i : index) : R :=
  let ch := firstn (length chain) i in
  if eltb (u01 ch) (seq_rate ch) then fst end0 (k, i) else arr (m (VQ k)) i.
Definition seq_state : adaptation := fst (seq_adapt (mean_rate seq_rate)).

(** The contents [m'] that the iteration leaves. *)
Definition seq_result (m' : var -> value) : Prop :=
  (forall k i, (k < latents)%nat -> arr (m' (VQ k)) i = seq_q k i) /\
  cnt (m' VT) = ad_t seq_state /\
  num (m' VEps) = ad_step_size seq_state /\
  num (m' VStep) = tn_step (ad_tuner seq_state) /\
  num (m' VHbar) = tn_h_bar (ad_tuner seq_state) /\
  num (m' VLbar) = tn_log_epsilon_bar (ad_tuner seq_state) /\
  (forall k d, (k < latents)%nat ->
     cnt (m' VET) = ew_t (fst (seq_mass k d)) /\
     arr (m' (VMean k)) d = ew_mean (fst (seq_mass k d)) /\
     arr (m' (VVar k)) d = ew_var (fst (seq_mass k d))).
End Sequential.
