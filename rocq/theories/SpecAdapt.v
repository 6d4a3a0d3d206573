(** Reference definitions for the adaptation of step size and mass: the closed forms
    of the dual averaging statistics of Hoffman and Gelman (2014), and the
    exponentially weighted mean and variance. *)
From Coq Require Import List Reals Bool.
From Verif Require Import SpecDist SpecChol.
Import ListNotations.
Local Open Scope R_scope.

(** What one call of the tuner sees: the value of adapt_step_size, the acceptance
    rate, and whether a fresh start is requested. *)
Record event := Event { ev_adapt : bool; ev_rate : R; ev_fresh : bool }.
Definition restarts (e : event) : Prop := ev_adapt e = true /\ ev_fresh e = true.

(** [seg] is the part of the history [h] beginning at its last restart (all of [h]
    when there was none). *)
Definition last_segment (h seg : list event) : Prop :=
  exists pre, h = pre ++ seg /\
    ((pre = [] /\ Forall (fun e => ~ restarts e) seg) \/
     (exists e post, seg = e :: post /\ restarts e /\ Forall (fun e => ~ restarts e) post)).

(** Acceptance rates of the iterations that adapted. *)
Definition tuned_rates (seg : list event) : list R := map ev_rate (filter ev_adapt seg).

Section DualAveraging.
Variables (shrink_to gamma t0 kappa delta : R).
(** Average shortfall of the first [n] acceptance rates, damped by t0. *)
Definition shortfall (rates : list R) (n : nat) : R :=
  rsum n (fun i => delta - nth i rates 0) / (INR n + t0).
(** Log step size proposed by the n-th tuned iteration. *)
Definition log_proposal (rates : list R) (n : nat) : R :=
  shrink_to - sqrt (INR n) / gamma * shortfall rates n.
(** Weight, after [n] iterations, of the proposal of iteration [i]:
    i^-kappa (1 - (i+1)^-kappa) ... (1 - n^-kappa). *)
Fixpoint da_weight (n i : nat) : R :=
  match n with
  | O => 0
  | S n' => if Nat.eqb i n then Rpower (INR n) (- kappa)
            else (1 - Rpower (INR n) (- kappa)) * da_weight n' i
  end.
Definition averaged (rates : list R) (n : nat) : R :=
  rsum n (fun i => da_weight n (S i) * log_proposal rates (S i)).
End DualAveraging.

(** ** Exponentially weighted moments of a list of batches (oldest first) *)
Definition mean_of (l : list R) : R := total (fun x => x) l / INR (length l).
(** Weight of batch [t] (from 0) among [T]: decay^(T-1-t). *)
Definition ew_total (decay : R) (f : list R -> R) (batches : list (list R)) : R :=
  rsum (length batches) (fun t => decay ^ (length batches - 1 - t) * f (nth t batches [])).
Definition ew_average (decay : R) (f : list R -> R) (batches : list (list R)) : R :=
  ew_total decay f batches / ew_total decay (fun _ => 1) batches.
Definition ew_mean_ref (decay : R) (batches : list (list R)) : R := ew_average decay mean_of batches.
Definition ew_var_ref (decay : R) (batches : list (list R)) : R :=
  ew_average decay (fun x => mean_of (map (fun v => (v - ew_mean_ref decay batches) ^ 2) x)) batches.
