(** Integrals over a simplex, as iterated improper integrals. *)
From Coq Require Import List Reals.
From Coquelicot Require Import Coquelicot.
From Verif Require Import SpecDensity.
Import List ListNotations.
Local Open Scope R_scope.

(** The integral of [f] over all vectors of [n + 1] positive reals with sum [s] is
    [m]. The first [n] coordinates are free, each ranging over what the ones before
    it leave of [s]; the last coordinate is what remains. *)
Fixpoint mass_simplex (n : nat) (s : R) (f : list R -> R) (m : R) : Prop :=
  match n with
  | O => f [s] = m
  | S n' => exists g, (forall x, 0 < x < s -> mass_simplex n' (s - x) (fun v => f (x :: v)) (g x)) /\
                      mass g (at_right 0) (at_left s) m
  end.
