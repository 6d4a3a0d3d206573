(** Reference definitions for Hamiltonian Monte Carlo. *)
From Coq Require Import List Reals.
Import ListNotations.
Local Open Scope R_scope.

(** One kick-drift-kick (velocity Verlet) step. *)
Definition kick_drift_kick {I} (grad : (I -> R) -> I -> R) (mass : I -> R) (eps : R)
  (x : (I -> R) * (I -> R)) : (I -> R) * (I -> R) :=
  let '(q, p) := x in
  let p_half := fun i => p i + eps / 2 * grad q i in
  let q' := fun i => q i + eps * (p_half i / mass i) in
  (q', fun i => p_half i + eps / 2 * grad q' i).

(** Momentum flip. *)
Definition flip {I} (x : (I -> R) * (I -> R)) : (I -> R) * (I -> R) := (fst x, fun i => - snd x i).

(** Total energy of a chain: minus log-density plus kinetic energy of the (momentum,
    mass) pairs. *)
Definition energy (log_density : R) (pm : list (R * R)) : R :=
  - log_density + fold_right Rplus 0 (map (fun x => fst x * fst x / snd x) pm) / 2.
