(** Vocabulary for laws of discrete samplers. *)
From Coq Require Import List Reals Arith.
From Verif Require Import SpecDist.
Import ListNotations.
Local Open Scope R_scope.

(** All sequences of [n] indices below [K]. *)
Fixpoint words (K n : nat) : list (list nat) :=
  match n with
  | O => [[]]
  | S n' => flat_map (fun k => map (cons k) (words K n')) (seq 0 K)
  end.
(** Probability of a sequence of independent draws, each [k] with probability [p k]. *)
Fixpoint likelihood (p : nat -> R) (w : list nat) : R :=
  match w with [] => 1 | k :: w' => p k * likelihood p w' end.
(** Probability that [n] independent draws below [K] pass the test. *)
Definition chance (K n : nat) (p : nat -> R) (test : list nat -> bool) : R :=
  total (fun w => if test w then likelihood p w else 0) (words K n).
(** The law of one draw of tf.random.categorical from a row of logits. *)
Definition softmax_law (logits : list R) (k : nat) : R := exp (nth k logits 0) / total exp logits.
(** Whether two lists of counts are equal. *)
Definition nats_eqb (a b : list nat) : bool := if list_eq_dec Nat.eq_dec a b then true else false.
(** The random source answers the sequence [w]: at a row of logits, experiment [e]
    of the draw comes out as category [nth e w]. *)
Definition answers {U} (pick : list R -> U -> nat) (logits : list R) (cells : nat -> U) (n : nat) (w : list nat) : Prop :=
  forall e, (e < n)%nat -> pick logits (cells e) = nth e w 0%nat.
