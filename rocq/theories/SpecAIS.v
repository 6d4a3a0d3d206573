(** The two readings of a run of AIS, and what its transitions must satisfy. *)
From Coq Require Import Reals List.
From Verif Require Import SpecDist SpecVI ModelAIS.
Import ListNotations.
Local Open Scope R_scope.

(** Deterministic reading: operations are functions. *)
Definition id_ret (A : Type) (a : A) : A := a.
Definition id_bind (A B : Type) (m : A) (f : A -> B) : B := f m.

(** Probabilistic reading: a random value is given by the expectation of every
    function of it. *)
Definition E (A : Type) : Type := (A -> R) -> R.
Definition e_ret (A : Type) (a : A) : E A := fun f => f a.
Definition e_bind (A B : Type) (m : E A) (k : A -> E B) : E B := fun f => m (fun a => k a f).

(** Independent draws, one from each of [qs]. *)
Fixpoint independent {X} (Xs : list X) (qs : list (X -> R)) : E (list X) := fun f =>
  match qs with
  | [] => f []
  | q :: qs' => expect q Xs (fun x => independent Xs qs' (fun xs => f (x :: xs)))
  end.

(** A session with [K] independent chains: the latent variables are drawn from the
    prior and each transition at temperature T moves every chain by the kernel
    [kernel T], reporting the tempered log density before and after. *)
Section Chains.
Context {X : Type} (Xs : list X) (log_prior log_joint : X -> R) (kernel : R -> X -> X -> R) (K : nat).
Definition draw_prior (_ : list X) : E (list X) :=
  independent Xs (repeat (fun x => exp (log_prior x)) K).
Definition move (T : R) (xs : list X) : E (list X * (list R * list R)) := fun f =>
  independent Xs (map (kernel T) xs) (fun xs' =>
    f (xs', (map (log_fn log_prior log_joint T) xs, map (log_fn log_prior log_joint T) xs'))).
Definition report (T : R) (xs : list X) : E (list R) := fun f => f (map (log_fn log_prior log_joint T) xs).

(** [k] is a transition kernel that leaves the tempered density invariant. *)
Definition transition (k : X -> X -> R) : Prop := forall x, In x Xs -> distribution (k x) Xs.
Definition invariant (T : R) (k : X -> X -> R) : Prop := forall y, In y Xs ->
  total (fun x => exp (log_fn log_prior log_joint T x) * k x y) Xs = exp (log_fn log_prior log_joint T y).
End Chains.

(** Draw the new state from the tempered density itself, whatever the old one. *)
Definition resample {X} (Xs : list X) (log_prior log_joint : X -> R) (T : R) (_ y : X) : R :=
  exp (log_fn log_prior log_joint T y) / total (fun z => exp (log_fn log_prior log_joint T z)) Xs.

(** A session whose kernel has a setting that is adapted after every transition. *)
Section Adaptive.
Context {X A : Type} (Xs : list X) (log_prior log_joint : X -> R)
  (kernel : A -> R -> X -> X -> R) (rule : list X -> A) (K : nat).
Definition draw_prior_adaptive (s : list X * A) : E (list X * A) := fun f =>
  draw_prior Xs log_prior K (fst s) (fun xs => f (xs, snd s)).
Definition move_adaptive (T : R) (s : list X * A) : E ((list X * A) * (list R * list R)) := fun f =>
  move Xs log_prior log_joint (kernel (snd s)) T (fst s) (fun r => f ((fst r, rule (fst r)), snd r)).
Definition report_adaptive (T : R) (s : list X * A) : E (list R) := report log_prior log_joint T (fst s).
End Adaptive.
