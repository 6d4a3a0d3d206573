(** C24: the HMC integrator. *)
From Coq Require Import Reals Lra ZArith Lia FunctionalExtensionality.
From Coquelicot Require Import Coquelicot.
From mathcomp Require Import all_ssreflect all_algebra.
From Verif Require Import ProofRing SpecJacobian ProofJacobian ModelHMC SpecHMC ProofHMC.
Local Open Scope R_scope.
Set Bullet Behavior "Strict Subproofs".

(** n leapfrogs are n kick-drift-kick steps. *)
Theorem C24_leapfrog_scheme {I} (grad : (I -> R) -> I -> R) mass (n : nat) eps q p : (0 < n)%coq_nat ->
  leapfrog grad mass (Z.of_nat n) eps q p = Nat.iter n (kick_drift_kick grad mass eps) (q, p).
Proof. case: n => [|n] H; first by lia. exact: leapfrog_S. Qed.
Print Assumptions C24_leapfrog_scheme.

(** n_leapfrogs = 0 does not leave the state alone: it applies half a kick; a negative
    number does nothing. *)
Theorem C24_zero_leapfrogs {I} (grad : (I -> R) -> I -> R) mass eps q p :
  leapfrog grad mass Z0 eps q p = (q, fun i => (p i + eps / 2 * grad q i)).
Proof. exact: leapfrog_0. Qed.
Print Assumptions C24_zero_leapfrogs.
Theorem C24_negative_leapfrogs {I} (grad : (I -> R) -> I -> R) mass n eps q p : Z.lt n Z0 ->
  leapfrog grad mass n eps q p = (q, p).
Proof. exact: leapfrog_neg. Qed.
Print Assumptions C24_negative_leapfrogs.

(** Integrating, flipping the momentum and integrating again returns to the start. *)
Theorem C24_reversible {I} (grad : (I -> R) -> I -> R) mass n eps q p q' p' :
  Z.le Z0 n -> leapfrog grad mass n eps q p = (q', p') ->
  leapfrog grad mass n eps q' (fun i => - p' i) = (q, fun i => - p i).
Proof.
  move=> Hn. have [k ->] : exists k, n = Z.of_nat k by exists (Z.to_nat n); lia.
  case: k => [|k].
  - rewrite leapfrog_0 => H. rewrite [Z.of_nat 0]/= leapfrog_0.
    rewrite -[(q', _)]/(flip (q', p')) -[RHS]/(flip (q, p)) -H. exact: kick_flip.
  - rewrite !leapfrog_S => H. rewrite -[(q', _)]/(flip (q', p')) -H. exact: iter_flip.
Qed.
Print Assumptions C24_reversible.

(** ** Volume preservation *)

(** The partial derivatives are the entries of the Jacobian matrix. *)
Theorem C24_jacobian_entries m n (F : ('I_n -> R) -> ('I_m -> R)) x J : has_jacobian F x J ->
  forall i j, is_derive (fun t => F (fun k => if k == j then (x k + t) else x k) i) R0 (J i j).
Proof.
  move=> H i j.
  pose v : 'I_n -> R := fun k => if k == j then R1 else R0.
  have E : mulv J v i = J i j.
  { rewrite /mulv (bigD1 j) //= /v eqxx big1 ?R_addE ?R_mulE.
    - rewrite R_zeroE. ring.
    - move=> k /negbTE ->. rewrite R_mulE R_zeroE. ring. }
  rewrite -E. apply: (H (fun t k => if k == j then (x k + t) else x k) v).
  - apply: functional_extensionality => k. case: (k == j) => //. ring.
  - move=> k. rewrite /v. case: (k == j).
    + auto_derive; [done|ring].
    + apply: is_derive_const.
Qed.
Print Assumptions C24_jacobian_entries.

Section Volume.
Variables (d : nat) (grad : ('I_d -> R) -> 'I_d -> R) (mass : 'I_d -> R).
Hypothesis smooth : forall x, exists H, has_jacobian grad x H.

Local Open Scope ring_scope.
Local Open Scope R_scope.
(** The integrator as a map of phase space R^(d+d). *)
Definition phase_map (F : ('I_d -> R) * ('I_d -> R) -> ('I_d -> R) * ('I_d -> R)) : ('I_(d + d) -> R) -> 'I_(d + d) -> R :=
  fun x => let y := F (first_half x, second_half x) in pair_up (fst y) (snd y).

Lemma phase_kick c x : exists J, has_jacobian (phase_map (kick grad c)) x J /\ determinant J = R1.
Proof.
  have [H HH] := smooth (first_half x).
  exists (block_mx (scalar_mx R1) (GRing.zero _) (\matrix_(i, j) (c * H i j)) (scalar_mx R1)). split.
  - exact: (jac_shear2 (fun q i => c * grad q i) x _ (jac_scale _ _ _ (fun _ => c) HH)).
  - exact: det_shear2.
Qed.
Lemma phase_drift c x : exists J, has_jacobian (phase_map (drift mass c)) x J /\ determinant J = R1.
Proof.
  exists (block_mx (scalar_mx R1) (\matrix_(i, j) (c / mass i * (scalar_mx R1 : 'M[R]_d) i j)) (GRing.zero _) (scalar_mx R1)). split.
  - apply: (jac_ext (fun y => pair_up (fun i => first_half y i + c / mass i * second_half y i) (second_half y))).
    + move=> y. rewrite /phase_map /drift /=. f_equal. apply: functional_extensionality => i.
      rewrite /Rdiv. ring.
    + apply: (jac_shear1 (fun p i => c / mass i * p i)). apply: (jac_scale (fun y => y)). exact: jac_id.
  - exact: det_shear1.
Qed.
Lemma phase_comp F G : (forall x, exists J, has_jacobian (phase_map F) x J /\ determinant J = R1) ->
  (forall x, exists J, has_jacobian (phase_map G) x J /\ determinant J = R1) ->
  forall x, exists J, has_jacobian (phase_map (fun y => G (F y))) x J /\ determinant J = R1.
Proof.
  move=> HF HG x. have [J [HJ DJ]] := HF x. have [K [HK DK]] := HG (phase_map F x).
  exists (mulmx K J). split.
  - apply: (jac_ext (fun y => phase_map G (phase_map F y))).
    + move=> y. by rewrite /phase_map first_pair second_pair -surjective_pairing.
    + exact: jac_comp.
  - rewrite det_mulmx DK DJ. exact: Rmult_1_l.
Qed.
Lemma phase_loop fuel n eps i x :
  exists J, has_jacobian (phase_map (leapfrog_loop grad mass fuel n eps i)) x J /\ determinant J = R1.
Proof.
  elim: fuel i x => [|fuel IH] i x.
  - exists (scalar_mx R1). split.
    + apply: (jac_ext (fun y => y)); [|exact: jac_id]. move=> y. by rewrite /phase_map /= pair_halves.
    + rewrite det_scalar. exact: GRing.expr1n.
  - rewrite [leapfrog_loop _ _ _ _ _ _]/=. case: (Z.ltb i (n + 1)).
    + apply: (phase_comp (fun y => leapfrog_body grad mass n eps i (fst y) (snd y))); last exact: IH.
      have E a b : (fun y => leapfrog_integrator grad mass a b (fst y) (snd y)) = (fun y => kick grad b (drift mass a y)).
      { apply: functional_extensionality => -[q p]. exact: integrator_kick_drift. }
      move=> y. rewrite /leapfrog_body E. exact: (phase_comp _ _ (phase_drift _) (phase_kick _)).
    + exists (scalar_mx R1). split.
      * apply: (jac_ext (fun y => y)); [|exact: jac_id]. move=> y. by rewrite /phase_map /= pair_halves.
      * rewrite det_scalar. exact: GRing.expr1n.
Qed.

(** For every differentiable gradient field the integrator is differentiable and its
    Jacobian determinant is one: it preserves volume in phase space. *)
Theorem C24_volume_preserving n eps x :
  exists J, has_jacobian (fun y => let r := leapfrog grad mass n eps (first_half y) (second_half y) in
                                   pair_up (fst r) (snd r)) x J /\ determinant J = R1.
Proof. exact: phase_loop. Qed.
End Volume.
Print Assumptions C24_volume_preserving.

(** Non-vacuity: the gradient field -sin of a one-dimensional density is differentiable. *)
Example smooth_case : forall x, exists H, has_jacobian (fun (q : 'I_1 -> R) i => - sin (q i)) x H.
Proof.
  move=> x. exists (const_mx (- cos (x ord0))). move=> c v Hc Hv i. rewrite /mulv big_ord1 mxE.
  have -> : i = ord0 by apply: ord1.
  rewrite R_mulE. have Hv0 := Hv ord0.
  have -> : - cos (x ord0) * v ord0 = - (v ord0 * cos (x ord0)) by ring.
  apply: (is_derive_opp (K := R_AbsRing) (V := R_NormedModule) (fun t => sin (c t ord0))).
  rewrite -Hc. apply: (is_derive_comp sin (fun t => c t ord0)) => //.
  apply/is_derive_Reals. apply: derivable_pt_lim_sin.
Qed.
