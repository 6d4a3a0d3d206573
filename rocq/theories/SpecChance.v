(** Vocabulary of C69: how far an estimate is from what it estimates. *)
From Coq Require Import List Reals.
From Coquelicot Require Import Coquelicot.
From Verif Require Import SpecDist SpecVI.
Import ListNotations.
Local Open Scope R_scope.

Section Chance.
Context {Z : Type} (q : Z -> R) (Zs : list Z).
(** The probability that [v], computed from [K] independent draws, is [eps] or more away from
    [a]. *)
Definition chance_off (K : nat) (eps : R) (v : list Z -> R) (a : R) : R :=
  expects q Zs K (fun zs => if Rle_dec eps (Rabs (v zs - a)) then 1 else 0).
(** [v] converges in probability to [a] as the number of draws grows. *)
Definition consistent (v : list Z -> R) (a : R) : Prop :=
  forall eps, 0 < eps -> is_lim_seq (fun K => chance_off K eps v a) 0.
(** The variance of one draw of [f], and the mean squared error of [v] over [K] draws. *)
Definition variance (f : Z -> R) : R := expect q Zs (fun z => (f z - expect q Zs f) ^ 2).
Definition mean_squared_error (K : nat) (v : list Z -> R) (a : R) : R := expects q Zs K (fun zs => (v zs - a) ^ 2).
End Chance.
