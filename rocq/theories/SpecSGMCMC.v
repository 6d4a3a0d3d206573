(** Reference definitions for the stochastic gradient samplers. *)
From Coq Require Import List Reals.
From Verif Require Import ModelShape SpecShape.
Import ListNotations.
Local Open Scope R_scope.

(** Multiples of the period among the steps. *)
Definition multiple (n : Z) (i : nat) : Prop := n <> 0%Z /\ (n | Z.of_nat i)%Z.

(** [m] is the mean of [f] over all the entries of an array of shape [s]. *)
Definition mean_over (s : shape) (f : index -> R) (m : R) : Prop :=
  exists entries, NoDup entries /\ (forall i, In i entries <-> valid s i) /\
    m = fold_right Rplus 0 (map f entries) / INR (length entries).

Section Equations.
(** Latent variables are numbered 0 .. n-1; an entry is a number and an index. *)
Definition entry := (nat * index)%type.
Variables (n : nat) (grad : (entry -> R) -> entry -> R) (lr : R).

(** Langevin dynamics (Welling and Teh 2011), also with a preconditioner [g]. *)
Definition langevin (g : entry -> R) (xi q q' : entry -> R) : Prop :=
  forall x, (fst x < n)%nat -> q' x = q x + lr * g x / 2 * grad q x + sqrt (lr * g x) * xi x.

(** The momentum a step starts from: fresh, with variance [lr], for the latents that
    are resampled. *)
Definition entering (resampled : nat -> bool) (v zeta : entry -> R) : entry -> R :=
  fun x => if resampled (fst x) then sqrt lr * zeta x else v x.

(** Stochastic gradient HMC: (15) of Chen et al. 2014, or the symmetric splitting of
    Chen et al. 2015: half a drift; half a decay, kick and noise, half a decay; half a
    drift. *)
Definition sghmc_equations (alpha beta : R) (second_order : bool) (v xi q q' v' : entry -> R) : Prop :=
  let noise := sqrt (2 * (alpha - beta) * lr) in
  let mid := fun x => q x + v x / 2 in
  forall x, (fst x < n)%nat ->
  if second_order then
    v' x = exp (- alpha) * v x + exp (- alpha / 2) * (lr * grad mid x + noise * xi x) /\ q' x = mid x + v' x / 2
  else
    v' x = (1 - alpha) * v x + lr * grad q x + noise * xi x /\ q' x = q x + v' x.

(** The thermostat (Ding et al. 2014): the friction moves with the kinetic energy, per
    entry or, for a scalar friction kept at index [], averaged over the latent. *)
Variable shapes : list shape.
Definition temperature (vector : bool) (v : entry -> R) (x : entry) (m : R) : Prop :=
  if vector then m = v x * v x
  else mean_over (nth (fst x) shapes []) (fun i => v (fst x, i) * v (fst x, i)) m.
Definition sgnht_equations (a tune : R) (second_order vector : bool) (v xi q al q' v' al' : entry -> R) : Prop :=
  let noise := sqrt (2 * a * lr) in
  let mid := fun x => q x + v x / 2 in
  forall x, (fst x < n)%nat ->
  let fx := if vector then x else (fst x, []) in
  if second_order then
    exists m m', temperature vector v x m /\ temperature vector v' x m' /\
      let half := al fx + tune / 2 * (m - lr) in
      v' x = exp (- half) * v x + exp (- half / 2) * (lr * grad mid x + noise * xi x) /\
      q' x = mid x + v' x / 2 /\ al' fx = half + tune / 2 * (m' - lr)
  else
    exists m', temperature vector v' x m' /\
      v' x = (1 - al fx) * v x + lr * grad q x + noise * xi x /\
      q' x = q x + v' x /\ al' fx = al fx + tune * (m' - lr).
End Equations.
