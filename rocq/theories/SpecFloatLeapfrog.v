(** Vocabulary of C71. States of the exact integrator are functions on pairs (chain, data
    entry). *)
From Coq Require Import List Reals ZArith.
From Flocq Require Import Core.
From Verif Require Import ModelExt ModelHMC ModelFloat ModelFloatTune SpecFloat SpecFloatImportance.
Local Open Scope R_scope.

Notation vec := (nat * nat -> R).
(** The float state consists of the finite floats [x]. *)
Definition holds prec top (f : fstate) (x : vec) : Prop := forall c i, f c i = Fi (x (c, i)) /\ is_float prec top (x (c, i)).
Definition close (d : R) (x y : vec) : Prop := forall j, Rabs (x j - y j) <= d.
Definition within (m : R) (x : vec) : Prop := forall j, Rabs (x j) <= m.
Definition flipped (p : fstate) : fstate := fun c i => eneg (p c i).

(** The gradient [g] of the log posterior on states of size at most [m]: its size and its
    Lipschitz constant. [fg] computes it up to [delta]. *)
Definition smooth (m k : R) (g : vec -> vec) : Prop :=
  (forall x y d, within m x -> within m y -> close d x y -> close (k * d) (g x) (g y)).
Definition computes prec top (m delta : R) (fg : fstate -> fstate) (g : vec -> vec) : Prop :=
  forall f x, holds prec top f x -> within m x -> exists y, holds prec top (fg f) y /\ close delta y (g x) /\ within m y.
(** How errors grow in one step, and what one step adds. *)
Definition error_growth (eps k inverse_mass : R) : R := 1 + eps * (inverse_mass + k * (1 + eps * inverse_mass)).
Definition step_error prec (m eps k inverse_mass delta : R) : R :=
  2 * unit_roundoff prec * m * inverse_mass * (1 + eps * k) + eps * delta.

(** The exact integrator, with a mass for each data entry; the states after each of its
    n + 1 stages are of size at most [m] / 2. *)
Definition exact_leapfrog (g : vec -> vec) (mass : nat -> R) (n : nat) (eps : R) (q p : vec) : vec * vec :=
  leapfrog g (fun j => mass (snd j)) (Z.of_nat n) eps q p.
Definition stays (m : R) (g : vec -> vec) (mass : nat -> R) (n : nat) (eps : R) (q p : vec) : Prop :=
  forall k, (k <= S n)%nat -> let e := leapfrog_loop g (fun j => mass (snd j)) k (Z.of_nat n) eps 0 (q, p) in within (m / 2) (fst e) /\ within (m / 2) (snd e).

(** ** Energies *)
(** The log posterior [l] of each chain on states of size at most [m]: Lipschitz constant,
    and a function that computes it up to [error]. *)
Definition steady (m k : R) (l : vec -> nat -> R) : Prop :=
  forall x y d, within m x -> within m y -> close d x y -> forall c, Rabs (l x c - l y c) <= k * d.
Definition evaluates prec top (m error : R) (fl : fstate -> nat -> ext) (l : vec -> nat -> R) : Prop :=
  forall f x, holds prec top f x -> within m x -> forall c, exists v, fl f c = Fi v /\ is_float prec top v /\ Rabs (v - l x c) <= error /\ Rabs v <= m * m.
(** The energy of chain [c] with [n] data entries, and the acceptance probability of a
    move between two states. *)
Definition energy (l : vec -> nat -> R) (n : nat) (mass : nat -> R) (q p : vec) (c : nat) : R :=
  - l q c + / 2 * rsum (map (fun i => p (c, i) * p (c, i) / mass i) (seq 0 n)).
Definition metropolis (old new : R) : R := Rmin 1 (exp (old - new)).
(** Errors of a computed energy: [d] is the error of the state, 2 ^ [v] bounds the number of
    entries. *)
Definition energy_error prec (m inverse_mass entries error k d : R) : R :=
  error + 5 * entries * entries * unit_roundoff prec * (m * m * inverse_mass) + (k + entries * inverse_mass * m) * d.
