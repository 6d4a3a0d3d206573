(** Integrals over a position and the random numbers of several transitions. *)
From Coq Require Import List Reals.
From Coquelicot Require Import Coquelicot.
From Verif Require Import SpecDensity SpecVolume SpecInvariance.
Import ListNotations.
Local Open Scope R_scope.

Definition sum_dec {A B : Type} (decA : forall a b : A, {a = b} + {a <> b}) (decB : forall a b : B, {a = b} + {a <> b})
  (a b : A + B) : {a = b} + {a <> b}.
Proof. decide equality. Defined.

Section Spec.
Context {I : Type} (dec : forall i j : I, {i = j} + {i <> j}) (L : list I).

(** The coordinates of [m] vectors indexed by [I]. *)
Fixpoint vectors (m : nat) : Type :=
  match m with
  | 0%nat => Empty_set
  | S m' => (I + vectors m')%type
  end.
Fixpoint vectors_dec (m : nat) : forall a b : vectors m, {a = b} + {a <> b} :=
  match m with
  | 0%nat => fun a _ => match a with end
  | S m' => sum_dec dec (vectors_dec m')
  end.
Fixpoint all_of (m : nat) : list (vectors m) :=
  match m with
  | 0%nat => []
  | S m' => map inl L ++ map inr (all_of m')
  end.
Fixpoint as_list (m : nat) : (vectors m -> R) -> list (I -> R) :=
  match m with
  | 0%nat => fun _ => []
  | S m' => fun y => (fun i => y (inl i)) :: as_list m' (fun j => y (inr j))
  end.

(** The integral over all positions [q] and over [m] vectors [y] of independent
    standard normals of [weight q * h q y] is [v]. *)
Definition mean_over_noises (m : nat) (weight : (I -> R) -> R) (h : (I -> R) -> (vectors m -> R) -> R) (v : R) : Prop :=
  has_integral (sum_dec dec (vectors_dec m)) (map inl L ++ map inr (all_of m))
    (fun x => weight (fun i => x (inl i)) * noise_density (all_of m) (fun j => x (inr j)) *
              h (fun i => x (inl i)) (fun j => x (inr j))) v.

(** The mean of [F] over [m] independent uniform numbers is [v]. *)
Fixpoint uniform_mean (m : nat) (F : list R -> R) (v : R) : Prop :=
  match m with
  | 0%nat => F [] = v
  | S m' => exists g, (forall u, uniform_mean m' (fun us => F (u :: us)) (g u)) /\ is_RInt g 0 1 v
  end.

(** [mean_of_run m weight F v]: [v] is the integral, over all positions [q] weighted by
    [weight q], of the mean of [F] over [m] noise vectors and [m] uniform numbers. *)
Definition mean_of_run (m : nat) (weight : (I -> R) -> R) (F : (I -> R) -> list (I -> R) -> list R -> R) (v : R) : Prop :=
  exists g, (forall q y, uniform_mean m (F q (as_list m y)) (g q y)) /\ mean_over_noises m weight g v.
End Spec.
