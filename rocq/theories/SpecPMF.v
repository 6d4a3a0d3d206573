(** Vocabulary for matrix factorization: the log posterior (up to a constant) of all user rows
    [u] and movie rows [v] given the training ratings. *)
From Coq Require Import List Reals.
From Verif Require Import SpecDist ModelExamples.
Import ListNotations.
Local Open Scope R_scope.

Definition log_posterior {T} (zero : T) (log_pu log_pv : T -> R) (log_pr : T -> T -> nat -> R)
  (train : list rating) (u v : list T) : R :=
  total log_pu u + total log_pv v +
  total (fun t => log_pr (nth (r_user t) u zero) (nth (r_movie t) v zero) (r_score t)) train.
(** [lists] has, for every key, the values of its training ratings in order (what C75 proves of the
    loader). *)
Definition lists_of (key value : rating -> nat) (train : list rating) (lists : list (list nat)) : Prop :=
  forall i, nth i lists [] = map value (filter (fun t => Nat.eqb (key t) i) train).
