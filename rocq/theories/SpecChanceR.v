(** Vocabulary of C69 over continuous latent variables. *)
From Coq Require Import List Reals.
From Verif Require Import SpecVolume SpecRun SpecExpect.
Import ListNotations.
Local Open Scope R_scope.

Section Spec.
Context {I : Type} (dec : forall i j : I, {i = j} + {i <> j}) (L : list I).
(** The variance of one draw of [f], whose mean is [m]; the mean squared error of [v]. *)
Definition sample_variance (q f : (I -> R) -> R) (m var : R) : Prop := mean_over_sample dec L q (fun z => (f z - m) ^ 2) var.
Definition sample_squared_error (q : (I -> R) -> R) (K : nat) (v : list (I -> R) -> R) (a e : R) : Prop := mean_over_samples dec L q K (fun zs => (v zs - a) ^ 2) e.
(** The probability that [v], computed from [K] independent draws, is [eps] or more away from
    [a] is at most [c]. As all integrals here are of continuous functions, the event is
    replaced by every continuous function between 0 and 1 that vanishes outside it. *)
Definition seldom_off (q : (I -> R) -> R) (K : nat) (eps : R) (v : list (I -> R) -> R) (a c : R) : Prop :=
  forall phi : list (I -> R) -> R, cont (fun y => phi (as_list K y)) ->
    (forall zs, length zs = K -> 0 <= phi zs <= 1 /\ (Rabs (v zs - a) < eps -> phi zs = 0)) ->
    exists m, mean_over_samples dec L q K phi m /\ m <= c.
End Spec.
