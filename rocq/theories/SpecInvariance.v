(** Integrals over a position and a vector of standard normal noise. *)
From Coq Require Import List Reals.
From Coquelicot Require Import Coquelicot.
From Verif Require Import SpecDensity SpecVolume.
Import ListNotations.
Local Open Scope R_scope.

Section Spec.
Context {I : Type} (dec : forall i j : I, {i = j} + {i <> j}).

Definition dec2 (a b : I + I) : {a = b} + {a <> b}.
Proof. decide equality. Defined.
Definition both (L : list I) : list (I + I) := map inl L ++ map inr L.
(** The two halves of a point. *)
Definition first_half (x : I + I -> R) : I -> R := fun i => x (inl i).
Definition second_half (x : I + I -> R) : I -> R := fun i => x (inr i).

(** Density of independent standard normals, one for each coordinate in [L]. *)
Definition noise_density (L : list I) (z : I -> R) : R := fold_right Rmult 1 (map (fun i => standard_normal (z i)) L).

(** The integral over all positions [q] and all noise vectors [z] of
    [weight q * noise_density z * h q z] is [v]. *)
Definition mean_over_noise (L : list I) (weight : (I -> R) -> R) (h : (I -> R) -> (I -> R) -> R) (v : R) : Prop :=
  has_integral dec2 (both L) (fun x => weight (first_half x) * noise_density L (second_half x) * h (first_half x) (second_half x)) v.
End Spec.
