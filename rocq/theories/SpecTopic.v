(** Vocabulary for persistent chains. *)
From Coq Require Import List.
Import ListNotations.

(** [chain m x e e']: [m] transitions for the document [x] lead from [e] to [e']; [k s i] is the
    transition of a document at position [i] of its batch in the global state [s]. *)
Inductive chain {X E S : Type} (k : S -> nat -> X -> E -> E) (x : X) : nat -> E -> E -> Prop :=
| chain_0 e : chain k x 0 e e
| chain_S m e e' s i : chain k x m e e' -> chain k x (Datatypes.S m) e (k s i x e').
(** A sampler that moves the rows of a batch separately: row [i] moves by [k s i], depending on
    its own document and the state only. *)
Definition by_rows {X E S : Type} (k : S -> nat -> X -> E -> E) (sample : S -> list X -> list E -> S * list E) : Prop :=
  forall s xs es, length xs = length es ->
    length (snd (sample s xs es)) = length es /\
    forall i x e, nth_error xs i = Some x -> nth_error es i = Some e ->
      nth_error (snd (sample s xs es)) i = Some (k s i x e).
