(** Integrals over coordinates that stay in an open interval, and over the simplex. *)
From Coq Require Import List Reals.
From Coquelicot Require Import Coquelicot.
From Verif Require Import SpecVolume.
Import ListNotations.
Local Open Scope R_scope.

Section Spec.
Context {J : Type} (dec : forall i j : J, {i = j} + {i <> j}).

(** Integral over the box [a, b]^L, one coordinate after the other. *)
Fixpoint box_integral (a b : R) (L : list J) (F : (J -> R) -> R) (x : J -> R) : R :=
  match L with
  | [] => F x
  | i :: L' => RInt (fun t => box_integral a b L' F (upd dec x i t)) a b
  end.
(** The integral of [F], nowhere negative, over all values in [range] of the
    coordinates in [L]: the least upper bound of its integrals over boxes. *)
Definition integral_over (range : R -> Prop) (L : list J) (F : (J -> R) -> R) (v : R) : Prop :=
  is_lub (fun m => exists a b, a <= b /\ range a /\ range b /\ m = box_integral a b L F (fun _ => a)) v.

(** The mean of [F] over independent noise, uniform between 0 and 1. *)
Definition mean_over_uniform (L : list J) (F : (J -> R) -> R) (v : R) : Prop :=
  integral_over (fun u => 0 < u < 1) L F v.
(** The mean of [F] over independent positive noise, coordinate j with the density
    [density j]. *)
Definition mean_over_positive (L : list J) (density : J -> R -> R) (F : (J -> R) -> R) (v : R) : Prop :=
  integral_over (fun u => 0 < u) L (fun x => fold_right Rmult 1 (map (fun j => density j (x j)) L) * F x) v.
End Spec.

(** The integral of [h] over vectors of [n + 1] positive reals with sum [s], with respect
    to the first [n] of them: each takes between the fractions [1 - q] and [q] of what the
    ones before it leave of [s]; the last is what remains. *)
Fixpoint simplex_part (q : R) (n : nat) (s : R) (h : list R -> R) : R :=
  match n with
  | O => h [s]
  | S n' => RInt (fun t => simplex_part q n' (s - t) (fun v => h (t :: v))) ((1 - q) * s) (q * s)
  end.
(** The integral over the simplex of [n + 1] positive reals with sum one. *)
Definition simplex_integral (n : nat) (h : list R -> R) (v : R) : Prop :=
  is_lub (fun m => exists q, / 2 <= q < 1 /\ m = simplex_part q n 1 h) v.

(** Logarithms of points of the simplex, described by the differences [d] to the last
    coordinate: log x_i = d_i - log (1 + sum exp d), and d = 0 for the last one. *)
Definition log_point {I : Type} (L : list I) (d : I -> R) : list R :=
  let s := ln (1 + fold_right Rplus 0 (map (fun i => exp (d i)) L)) in
  map (fun i => d i - s) L ++ [0 - s].
(** The integral of [h] over the logarithms of the points of the simplex, with respect to
    those differences. *)
Definition log_simplex_integral {I : Type} (dec : forall i j : I, {i = j} + {i <> j}) (L : list I) (h : list R -> R) (v : R) : Prop :=
  total dec L (fun d => h (log_point L d)) v.

(** Categories: the members of a type [I], listed by [L], and a last one. *)
Definition categories {I : Type} (L : list I) : list (option I) := map Some L ++ [None].
(** A continuous function of rows that is nowhere negative. *)
Definition statistic {J : Type} (cats : list J) (f : list R -> R) : Prop :=
  cont (fun x : J -> R => f (map x cats)) /\ forall x : J -> R, 0 <= f (map x cats).
