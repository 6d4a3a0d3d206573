(** The mass of HMC in floating-point arithmetic (zhusuan/hmc.py):
    ExponentialWeightedMovingVariance, and the iterations that use its precision as mass.
    Formats and operations are those of ModelFloat.v, ModelFloatSample.v and
    ModelFloatTune.v. *)
From Coq Require Import List Arith Bool Reals ZArith.
From Flocq Require Import Core.
From Verif Require Import ModelExt ModelSpecial ModelNum ModelFloat ModelFloatSample ModelFloatTune.
Import ListNotations.
Local Open Scope R_scope.

Section Format.
Variables prec top : Z.
Notation fadd := (fadd prec top).
Notation fsub := (fsub prec top).
Notation fmul := (fmul prec top).
Notation fdiv := (fdiv prec top).
Notation fsum := (fsum prec top).
Notation fdivn := (fdivn prec top).
Variable libexp : R -> R.
Variable libpow : R -> R -> R.

(** ** ExponentialWeightedMovingVariance, hmc.py:115-159 *)
(** The variables; the latents are flattened to data entries, as in [fstate]. *)
Record fmoving := FMoving { fv_t : ext; fv_mean : nat -> ext; fv_var : nat -> ext }.
(** Initial values, hmc.py:118-123 *)
Definition fmoving0 : fmoving := FMoving (Fi 0) (fun _ => Fi 0) (fun _ => Fi 0).
Section Moving.
(** [pm i] and [pv i]: plans of the two means over the chains for data entry [i]. *)
Variables (chains : nat) (pm pv : nat -> plan) (decay : ext).
(** tf.reduce_mean over the chain axes; without chain axes (one chain) it is the identity,
    here the mean of one number. *)
Definition fmean (p : plan) (f : nat -> ext) : ext := fdivn (fsum p (map f (seq 0 chains))) chains.
(** hmc.py:133 *)
Definition fweight (new_t : ext) : ext := fdiv (fsub (Fi 1) decay) (fsub (Fi 1) (fpow top libpow decay new_t)).
(** update, hmc.py:130-149 *)
Definition fupdate (s : fmoving) (x : fstate) : fmoving :=
  let new_t := fadd (fv_t s) (Fi 1) in
  let weight := fweight new_t in
  let incr c i := fmul weight (fsub (x c i) (fv_mean s i)) in
  let update_mean i := fadd (fv_mean s i) (fmean (pm i) (fun c => incr c i)) in
  let new_var i := fadd (fmul (fsub (Fi 1) weight) (fv_var s i))
                        (fmean (pv i) (fun c => fmul (incr c i) (fsub (x c i) (update_mean i)))) in
  FMoving new_t update_mean new_var.
(** get_precision, hmc.py:151-152; a zero variance is +0 in the code, because the first
    summand of the variance is. *)
Definition fprecision (s : fmoving) (i : nat) : ext := fdiv (Fi 1) (fv_var s i).
(** _adapt_mass, hmc.py:284-305, at iteration [t] (counted from 1, without the rounding of
    the counter): the new variables and the mass. *)
Definition fadapt_mass (mass_collect_iters : Z) (s : fmoving) (adapt : bool) (t : nat) (x : fstate) : fmoving * (nat -> ext) :=
  let s' := if adapt then fupdate s x else s in
  (s', if (Z.of_nat t <? mass_collect_iters)%Z then fun _ => Fi 1 else fprecision s').
End Moving.

(** ** An iteration, HMC.sample, hmc.py:425-493 *)
Section Iteration.
Variables (chains entries : nat) (grad : fstate -> fstate) (log_posterior : fstate -> nat -> ext).
Variables (ps : nat -> plan) (pm pv : nat -> plan) (decay : ext) (mass_collect_iters : Z).
(** _leapfrog, hmc.py:348-373 *)
Definition fleapfrog (mass : nat -> ext) (n_leapfrogs : nat) (step_size : ext) (q p : fstate) : fstate * fstate :=
  fold_left (fun s i =>
    let step_size1 := if (0 <? i)%nat then step_size else Fi 0 in
    let step_size2 := if (i <? n_leapfrogs)%nat && (0 <? i)%nat then step_size else fdiv step_size (Fi 2) in
    fleapfrog_integrator prec top grad mass step_size1 step_size2 (fst s) (snd s)) (seq 0 (S n_leapfrogs)) (q, p).
(** What an iteration takes from outside: the value of adapt_mass, the standard normal
    and uniform numbers, the number of leapfrog steps and the step size, which is any
    number: it comes from the search or the tuner. *)
Record input := Input { in_adapt : bool; in_normal : fstate; in_uniform : nat -> ext; in_leapfrogs : nat; in_step_size : ext }.
(** [None]: tf.check_numerics fails on the old log probability, hmc.py:52-54. *)
Definition fiteration (s : fmoving) (q : fstate) (t : nat) (x : input) : option (fmoving * fstate) :=
  let '(s', mass) := fadapt_mass chains pm pv decay mass_collect_iters s (in_adapt x) t q in
  let p : fstate := fun c i => fmul (in_normal x c i) (fsqrt prec top (mass i)) in
  let '(current_q, current_p) := fleapfrog mass (in_leapfrogs x) (in_step_size x) q p in
  let old c := fhamiltonian prec top entries log_posterior mass ps q p c in
  let new c := fhamiltonian prec top entries log_posterior mass ps current_q current_p c in
  let acceptance_rate c := facceptance prec top libexp (fst (old c)) (fst (new c)) (snd (new c)) in
  if forallb (fun c => is_finite (snd (old c))) (seq 0 chains)
  then Some (s', fun c i => if eltb (in_uniform x c) (acceptance_rate c) then current_q c i else q c i)
  else None.
(** Iterations [t + 1], [t + 2], ... *)
Fixpoint frun (s : fmoving) (q : fstate) (t : nat) (xs : list input) : option (fmoving * fstate) :=
  match xs with
  | [] => Some (s, q)
  | x :: xs' => match fiteration s q (S t) x with Some (s', q') => frun s' q' (S t) xs' | None => None end
  end.
End Iteration.
End Format.
