(** Vocabulary for statements about densities and mass functions. *)
From Coq Require Import List Reals Arith.
Import ListNotations.
Local Open Scope R_scope.

(** What tf.lgamma computes at positive integers: log Gamma(n+1) = log n!. *)
Definition lgamma_factorial (lgamma : R -> R) : Prop :=
  forall n : nat, lgamma (INR n + 1) = ln (INR (fact n)).

(** Sum of [f] over a finite list of points. *)
Fixpoint total {X} (f : X -> R) (l : list X) : R :=
  match l with
  | [] => 0
  | x :: l' => f x + total f l'
  end.

(** [l] lists every point of the set [P] exactly once. *)
Definition enumerates {X} (P : X -> Prop) (l : list X) : Prop :=
  NoDup l /\ forall x, In x l <-> P x.

(** [p] is a probability mass function on the finite set [P]. *)
Definition is_pmf {X} (p : X -> R) (P : X -> Prop) : Prop :=
  (forall x, P x -> 0 <= p x) /\ exists l, enumerates P l /\ total p l = 1.

(** One-hot vector of length [n] with its 1 at position [k]. *)
Definition onehot (n k : nat) : list R := map (fun j => if Nat.eqb j k then 1 else 0) (seq 0 n).

(** Vectors of [k] counts summing to [n]. *)
Definition counts (k n : nat) (l : list nat) : Prop := length l = k /\ list_sum l = n.

(** The multinomial coefficient, as the number of ways to arrange the counts:
    choose the places of the first kind, then arrange the rest. *)
Fixpoint choose (n k : nat) : nat :=
  match n, k with
  | _, O => 1
  | O, S _ => 0
  | S n', S k' => choose n' k' + choose n' k
  end.
Fixpoint arrangements (ks : list nat) : nat :=
  match ks with
  | [] => 1
  | k :: ks' => choose (list_sum ks) k * arrangements ks'
  end.
