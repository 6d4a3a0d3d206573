(** Integrals over several real coordinates, as iterated improper integrals. *)
From Coq Require Import List Reals.
From Coquelicot Require Import Coquelicot.
From Verif Require Import SpecDensity.
Import List ListNotations.
Local Open Scope R_scope.

(** The integral of [f] over all vectors of [n] reals is [m]: the last coordinate is
    integrated first, the first coordinate last, each over the whole line. *)
Fixpoint mass_vec (n : nat) (f : list R -> R) (m : R) : Prop :=
  match n with
  | O => f [] = m
  | S n' => exists g, (forall x, mass_vec n' (fun v => f (x :: v)) (g x)) /\
                      mass g to_minus_infinity to_plus_infinity m
  end.

(** Density of a vector of independent standard normal draws. *)
Fixpoint normal_noise (z : list R) : R :=
  match z with [] => 1 | x :: z' => standard_normal x * normal_noise z' end.

(** The random vector [sample z], with [z] a vector of [n] independent standard
    normals, has density [f] on vectors of length [d]: every integrable statistic
    [h] of the draws has the same mean under both. *)
Definition normal_draws_from (n : nat) (sample : list R -> list R) (d : nat) (f : list R -> R) : Prop :=
  forall h m, mass_vec n (fun z => h (sample z) * normal_noise z) m <-> mass_vec d (fun x => h x * f x) m.
