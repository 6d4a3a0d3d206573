(** The step size of HMC in floating-point arithmetic (zhusuan/hmc.py): StepsizeTuner and
    the search of the initial step size. Formats and operations are those of ModelFloat.v
    and ModelFloatSample.v. *)
From Coq Require Import List Bool Reals ZArith.
From Flocq Require Import Core.
From Verif Require Import ModelExt ModelSpecial ModelNum ModelFloat ModelFloatSample.
Import ListNotations.
Local Open Scope R_scope.

Section Format.
Variables prec top : Z.
Notation fadd := (fadd prec top).
Notation fsub := (fsub prec top).
Notation fmul := (fmul prec top).
Notation fdiv := (fdiv prec top).
Notation fsum := (fsum prec top).
Notation fdivn := (fdivn prec top).
(** Library functions on finite numbers: exp, and powers of a positive base. *)
Variable libexp : R -> R.
Variable libpow : R -> R -> R.
Notation feexp := (feexp top libexp).
(** tf.sqrt is correctly rounded. *)
Definition fsqrt (a : ext) : ext :=
  match a with
  | Fi x => if Rlt_dec x 0 then NaN else rounded prec top (Fi (sqrt x))
  | PInf => PInf
  | MInf | NaN => NaN
  end.
(** tf.pow; the tuner's base is a positive number and its exponent finite, the other
    cases are not modelled (NaN). *)
Definition fpow (a k : ext) : ext :=
  match a, k with
  | Fi x, Fi y => if Rlt_dec 0 x then overflow top (libpow x y) else NaN
  | _, _ => NaN
  end.

(** ** StepsizeTuner, hmc.py:64-112 *)
Record ftuner := FTuner { ft_step : ext; ft_log_epsilon_bar : ext; ft_h_bar : ext }.
(** The variables' initial values, hmc.py:82-87. *)
Definition ftuner0 : ftuner := FTuner (Fi 0) (Fi 0) (Fi 0).
Section Tuner.
Variables mu gamma t0 kappa delta : ext.
(** tune, hmc.py:90-112: the new variables and the step size. *)
Definition ftune (s : ftuner) (adapt fresh : bool) (acceptance_rate : ext) : ftuner * ext :=
  if adapt then
    let fresh_start := if fresh then Fi 1 else Fi 0 in
    let new_step := fadd (fmul (fsub (Fi 1) fresh_start) (ft_step s)) (Fi 1) in
    let rate1 := fdiv (Fi 1) (fadd new_step t0) in
    let new_h_bar := fadd (fmul (fmul (fsub (Fi 1) fresh_start) (fsub (Fi 1) rate1)) (ft_h_bar s))
                          (fmul rate1 (fsub delta acceptance_rate)) in
    let log_epsilon := fsub mu (fmul (fdiv (fsqrt new_step) gamma) new_h_bar) in
    let rate := fpow new_step (eneg kappa) in
    let new_log_epsilon_bar := fadd (fmul rate log_epsilon)
                          (fmul (fmul (fsub (Fi 1) fresh_start) (fsub (Fi 1) rate)) (ft_log_epsilon_bar s)) in
    (FTuner new_step new_log_epsilon_bar new_h_bar, feexp log_epsilon)
  else (s, feexp (ft_log_epsilon_bar s)).
(** The variables after a sequence of calls (adapt, fresh start, acceptance rate). *)
Definition ftuned (calls : list (bool * bool * ext)) : ftuner :=
  fold_left (fun s c => fst (ftune s (fst (fst c)) (snd (fst c)) (snd c))) calls ftuner0.
End Tuner.

(** ** One trial of the search, hmc.py:315-326 *)
(** The latents are flattened: [q c i] is data entry [i] of chain [c]; there are [chains]
    chains with [entries] data entries each. The mass is shared by the chains. *)
Definition fstate := nat -> nat -> ext.
Section Trial.
Variables (chains entries : nat) (grad : fstate -> fstate) (log_posterior : fstate -> nat -> ext) (mass : nat -> ext).
(** [ps c]: plan of reduce_sum and add_n over the data entries of chain [c]; [pm]: plan of
    the mean over the chains. *)
Variables (ps : nat -> plan) (pm : plan).
(** leapfrog_integrator, hmc.py:38-43, with velocity, hmc.py:26-27 *)
Definition fleapfrog_integrator (step_size1 step_size2 : ext) (q p : fstate) : fstate * fstate :=
  let q' := fun c i => fadd (q c i) (fmul step_size1 (fdiv (p c i) (mass i))) in
  let grads := grad q' in
  (q', fun c i => fadd (p c i) (fmul step_size2 (grads c i))).
(** hamiltonian, hmc.py:30-35, of chain [c]; returns the Hamiltonian and -potential. *)
Definition fhamiltonian (q p : fstate) (c : nat) : ext * ext :=
  let potential := eneg (log_posterior q c) in
  let kinetic := fmul (Fi (1/2)) (fsum (ps c) (map (fun i => fdiv (fmul (p c i) (p c i)) (mass i)) (seq 0 entries))) in
  (fadd potential kinetic, eneg potential).
(** hmc.py:316-326: the acceptance rate of a trial with this step size. *)
Definition ftrial (q p : fstate) (step_size : ext) : ext :=
  let half := fdiv step_size (Fi 2) in
  let '(q1, p1) := fleapfrog_integrator (Fi 0) half q p in
  let '(new_q, new_p) := fleapfrog_integrator step_size half q1 p1 in
  let rate c := facceptance prec top libexp (fst (fhamiltonian q p c)) (fst (fhamiltonian new_q new_p c)) (snd (fhamiltonian new_q new_p c)) in
  fdivn (fsum pm (map rate (seq 0 chains))) chains.
End Trial.

(** ** The search, _init_step_size, hmc.py:308-345 *)
Section Search.
(** [acc]: the acceptance rate of the trial as a function of the step size. *)
Variables (acc : ext -> ext) (target : ext).
(** 1.0 / factor, rounded to the format. *)
Definition one_over_factor : ext := rounded prec top (Fi (1 / (3 / 2))).
(** The while loop; [None]: still running after [fuel] trials. *)
Fixpoint fsearch (fuel : nat) (step_size last_acceptance_rate : ext) (cond : bool) : option ext :=
  if cond then
    match fuel with
    | O => None
    | S fuel' =>
        let acceptance_rate := acc step_size in
        let new_step_size := if eltb acceptance_rate target then fmul step_size one_over_factor else fmul step_size (Fi (3 / 2)) in
        fsearch fuel' new_step_size acceptance_rate
          (negb (xorb (eltb last_acceptance_rate target) (eltb acceptance_rate target)))
    end
  else Some step_size.
Definition finit_step_size (fuel : nat) (step_size : ext) : option ext := fsearch fuel step_size (Fi 1) true.
End Search.
End Format.
