(** Means over draws from a continuous law on finitely many real coordinates. *)
From Coq Require Import List Reals.
From Coquelicot Require Import Coquelicot.
From Verif Require Import SpecVI SpecVolume SpecRun.
Import ListNotations.
Local Open Scope R_scope.

(** The integral of a continuous function of either sign over all values of the
    coordinates in [L]: that of its positive part minus that of its negative part, both
    finite. *)
Definition integral {J : Type} (dec : forall i j : J, {i = j} + {i <> j}) (L : list J) (F : (J -> R) -> R) (v : R) : Prop :=
  exists a b, has_integral dec L (fun x => Rmax (F x) 0) a /\ has_integral dec L (fun x => Rmax (- F x) 0) b /\ v = a - b.

(** A function of a parameter and of the coordinates, as a function of one coordinate more. *)
Definition joined {J : Type} (F : R -> (J -> R) -> R) (y : option J -> R) : R := F (y None) (fun j => y (Some j)).
(** [F t] is integrable at [theta], and smooth enough in the parameter for its integral to
    be differentiated there: continuous together with its derivative in the parameter and
    the coordinates, the derivative being bounded, for parameters near [theta], by an
    integrable function of the coordinates. *)
Definition smooth_integrand {J : Type} (dec : forall i j : J, {i = j} + {i <> j}) (L : list J) (F : R -> (J -> R) -> R) (theta : R) : Prop :=
  (exists v, integral dec L (F theta) v) /\
  exists F' G m r, 0 < r /\ cont (joined F) /\ cont (joined F') /\ (forall t x, is_derive (fun s => F s x) t (F' t x)) /\
    (forall t x, Rabs (t - theta) < r -> Rabs (F' t x) <= G x) /\ has_integral dec L G m.

Section Spec.
Context {I : Type} (dec : forall i j : I, {i = j} + {i <> j}) (L : list I).

(** A continuous probability density that is positive everywhere. *)
Definition probability_density (q : (I -> R) -> R) : Prop := (forall z, 0 < q z) /\ has_integral dec L q 1.
(** The mean of [f] over one draw from the density [q]. *)
Definition mean_over_sample (q f : (I -> R) -> R) (v : R) : Prop := integral dec L (fun z => q z * f z) v.
(** The joint density of independent draws. *)
Definition sample_density (q : (I -> R) -> R) (zs : list (I -> R)) : R := fold_right Rmult 1 (map q zs).
(** The mean of [f] over [K] independent draws from the density [q]. *)
Definition mean_over_samples (q : (I -> R) -> R) (K : nat) (f : list (I -> R) -> R) (v : R) : Prop :=
  integral (vectors_dec dec K) (all_of L K) (fun y => sample_density q (as_list K y) * f (as_list K y)) v.
End Spec.

(** [partial x] is the derivative of the quantity [x] at every draw. *)
Definition differentiable_everywhere {Z} (theta : R) (x : @quantity Z) : Prop :=
  forall z, is_derive (fun t => at_param x t z) theta (partial x z).
(** A differentiable family of densities, with the log probabilities of its latent nodes. *)
Record continuous_family {I} (dec : forall i j : I, {i = j} + {i <> j}) (L : list I)
    (q : R -> (I -> R) -> R) (lqs : list (@quantity (I -> R))) (theta : R) : Prop := {
  cf_density : forall t, probability_density dec L (q t);
  cf_latent : lqs <> [];
  cf_log : forall t z, log_q lqs t z = ln (q t z);
  cf_diff : forall lq, In lq lqs -> differentiable_everywhere theta lq;
  cf_smooth : smooth_integrand dec L q theta }.
