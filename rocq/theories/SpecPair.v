(** The law of a sampler that combines two independent positive noise values. *)
From Coq Require Import Reals.
From Coquelicot Require Import Coquelicot.
From Verif Require Import SpecDensity.
Local Open Scope R_scope.

(** Density of a standard gamma draw with shape [a]. *)
Definition gamma_noise (lgamma : R -> R) (a t : R) : R :=
  / exp (lgamma a) * (Rpower t (a - 1) * exp (- t)).

(** [sample U V], with [U] and [V] independent positive draws with densities
    [noise1] and [noise2], has density [f] on the unit interval: for every
    threshold [t], given [U = u] the draw falls below [t] exactly when [V] exceeds
    some [q]; the probability of that, averaged over [u], is the mass that [f] puts
    below [t]. *)
Definition pair_draws_from (noise1 noise2 : R -> R) (sample : R -> R -> R) (f : R -> R) : Prop :=
  forall t, 0 < t < 1 -> exists m below,
    (forall u, 0 < u -> exists q, 0 < q /\
       (forall v, 0 < v -> sample u v < t <-> q < v) /\
       mass noise2 (at_point q) to_plus_infinity (below u)) /\
    mass (fun u => noise1 u * below u) (at_right 0) to_plus_infinity m /\
    mass f (at_right 0) (at_point t) m.
