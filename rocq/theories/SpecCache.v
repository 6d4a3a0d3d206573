(** Vocabulary of C77. *)
From Coq Require Import List Arith.
From Verif Require Import ModelCache.
Import ListNotations.

Definition prefix (b c : bytes) : Prop := exists n, b = firstn n c.
(** A format whose reader rejects every file that is cut short, such as gzip, zip, pickle and
    npy. *)
Definition rejects_cut {A} (parse : bytes -> option A) (whole : bytes) (data : A) : Prop :=
  parse whole = Some data /\ forall n, n < length whole -> parse (firstn n whole) = None.
(** Without being stopped the run ends like this. *)
Definition ends {A} (s : files) (m : prog A) (s' : files) (o : outcome A) : Prop :=
  exists N, forall n, N <= n -> run n s m = (s', o).
(** The files after some runs of any loaders, each stopped after a number of steps, or not if
    the number is large. *)
Record job := Job { result : Type; steps : nat; program : prog result }.
Fixpoint after (history : list job) (s : files) : files :=
  match history with
  | [] => s
  | j :: rest => after rest (fst (run (steps j) s (program j)))
  end.
Definition nothing : files := fun _ => None.
