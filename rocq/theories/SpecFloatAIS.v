(** Vocabulary of C64: the exact weight of a chain. *)
From Coq Require Import List Reals ZArith.
From Verif Require Import ModelFloat SpecFloatImportance.
Import ListNotations.
Local Open Scope R_scope.

(** What is in the old densities, minus what is in the new ones except the last, minus the
    density of the draw. *)
Definition chain_weight (prior : R) (steps : list (R * R)) : R :=
  rsum (map fst steps) - rsum (map snd (removelast steps)) - prior.
(** A library function that preserves the order of floats. *)
Definition order_preserving (prec top : Z) (f : R -> R) : Prop :=
  forall x y, is_float prec top x -> is_float prec top y -> x <= y -> f x <= f y.
