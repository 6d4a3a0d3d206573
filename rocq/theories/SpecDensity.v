(** Vocabulary for statements about continuous densities. Integrals are improper
    Riemann integrals; an end of the range is described by how it is approached:
    [Rbar_locally m_infty], [Rbar_locally p_infty], [at_right a], [at_left b], or
    [at_point a] for an end that is attained. *)
From Coq Require Import Reals.
From Coquelicot Require Import Coquelicot.
Local Open Scope R_scope.

(** The total mass of [f] between the two ends is [m]. *)
Definition mass (f : R -> R) (lo hi : (R -> Prop) -> Prop) (m : R) : Prop :=
  is_RInt_gen f lo hi m.

Definition to_minus_infinity := Rbar_locally m_infty.
Definition to_plus_infinity := Rbar_locally p_infty.

(** [f] is a probability density on the whole real line. *)
Definition is_density (f : R -> R) : Prop :=
  (forall x, 0 <= f x) /\ mass f to_minus_infinity to_plus_infinity 1.

(** [f] is a probability density on the open interval between [a] and [b]. *)
Definition is_density_between (f : R -> R) (lo hi : (R -> Prop) -> Prop) : Prop :=
  (forall x, 0 <= f x) /\ mass f lo hi 1.

(** Noise with density [noise] (starting at the end [nlo]) that takes values in
    [range] is turned by [sample] into draws with density [f] (starting at [lo]):
    [sample] is increasing, so a draw [sample U] is below [sample u] exactly when the
    noise [U] is below [u]; and [f] puts below [sample u] the mass that the noise law
    puts below [u]. *)
Definition draws_from (range : R -> Prop) (noise : R -> R) (nlo : (R -> Prop) -> Prop)
    (sample f : R -> R) (lo : (R -> Prop) -> Prop) : Prop :=
  (forall u v, range u -> range v -> u < v -> sample u < sample v) /\
  (forall u, range u -> exists m,
     mass noise nlo (at_point u) m /\ mass f lo (at_point (sample u)) m).

(** Uniform noise on the interval from [a] to [b]. *)
Definition uniform_noise (a b : R) : R -> R := fun _ => / (b - a).
Definition between (a b : R) : R -> Prop := fun u => a < u < b.
(** Standard normal noise. *)
Definition standard_normal (z : R) : R := / sqrt (2 * PI) * exp (- (z * z) / 2).

(** tf.lgamma at a positive real is the logarithm of Euler's integral. *)
Definition lgamma_euler (lgamma : R -> R) (a : R) : Prop :=
  mass (fun t => Rpower t (a - 1) * exp (- t)) (at_right 0) to_plus_infinity (exp (lgamma a)).
