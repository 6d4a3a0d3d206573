(** Vocabulary of C72: probabilities of what a run reports. *)
From Coq Require Import List Reals.
From Verif Require Import SpecDist SpecVI SpecVolume SpecRun SpecExpect SpecAIS.
Import ListNotations.
Local Open Scope R_scope.

(** The probability that a random number is [b] or more, and that it is [eps] or more away
    from [a]. *)
Definition probability_above (m : E R) (b : R) : R := m (fun v => if Rle_dec b v then 1 else 0).
Definition probability_off (m : E R) (a eps : R) : R := m (fun v => if Rle_dec eps (Rabs (v - a)) then 1 else 0).
(** The expectation of [F] over [K] independent draws from the law that gives the number
    [snd p] the probability [fst p], for every [p] of the list. *)
Definition draws_of (law : list (R * R)) (K : nat) : E (list R) := fun F => expects fst law K (fun ps => F (map snd ps)).
(** The probability that [v], computed from [K] independent draws, is [b] or more. *)
Definition chance_above {Z} (q : Z -> R) (Zs : list Z) (K : nat) (b : R) (v : list Z -> R) : R :=
  expects q Zs K (fun zs => if Rle_dec b (v zs) then 1 else 0).
(** The same probability, for continuous variables, is at most [c]: every continuous function
    between 0 and 1 that vanishes outside the event has a mean of at most [c]. *)
Definition seldom_above {I} (dec : forall i j : I, {i = j} + {i <> j}) (L : list I) (q : (I -> R) -> R) (K : nat) (b : R) (v : list (I -> R) -> R) (c : R) : Prop :=
  forall phi : list (I -> R) -> R, cont (fun y => phi (as_list K y)) ->
    (forall zs, length zs = K -> 0 <= phi zs <= 1 /\ (v zs < b -> phi zs = 0)) ->
    exists m, mean_over_samples dec L q K phi m /\ m <= c.
