(** Autocorrelation estimates of a chain. *)
From Coq Require Import Reals List.
From Verif Require Import SpecDist.
Import ListNotations.
Local Open Scope R_scope.

Definition chain_mean (s : list R) : R := total (fun x => x) s / INR (length s).
(** Biased sample variance. *)
Definition variance (s : list R) : R := total (fun x => Rsqr (x - chain_mean s)) s / INR (length s).
(** Average product of deviations [lag] steps apart. *)
Definition autocov (s : list R) (lag : nat) : R :=
  total (fun t => (nth t s 0 - chain_mean s) * (nth (t + lag) s 0 - chain_mean s)) (seq 0 (length s - lag))
  / INR (length s - lag).
(** The code's estimate of the autocorrelation at a lag. *)
Definition rho (s : list R) (lag : nat) : R :=
  autocov s lag / variance s - 1 / (INR (length s) - 1).
Definition nonconstant (s : list R) : Prop := exists x y, In x s /\ In y s /\ x <> y.
