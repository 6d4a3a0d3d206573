(** C25: one transition of HMC leaves the target distribution unchanged, as a
    statement about real integrals. *)
From Coq Require Import List Reals Lra Lia ZArith Bool FunctionalExtensionality.
From Coquelicot Require Import Coquelicot.
From Verif Require Import ModelShape SpecShape ProofShape ModelTensor ModelExt ModelHMC SpecHMC ProofHMC PropMetropolis SpecDensity SpecVolume ProofVolume ProofChange SpecInvariance ProofPhase.
Import ListNotations.
Local Open Scope R_scope.

Section Invariant.
Context {I : Type} (dec : forall i j : I, {i = j} + {i <> j}) (L : list I).
Context (mass : I -> R) (log_density : (I -> R) -> R) (grad : (I -> R) -> I -> R) (n : Z) (eps : R).

(** The position after one transition from [q], with standard normal noise [z] and a
    uniform number [u]: momenta of variance the mass, the integrator and the acceptance
    rate of the code, acceptance when [u] is below the rate. *)
Definition next (q z : I -> R) (u : R) : I -> R :=
  let p := fun i => z i * sqrt (mass i) in
  if Rlt_dec u (step_rate L mass log_density grad n eps (q, p)) then fst (leapfrog grad mass n eps q p) else q.

Lemma choice_mean (a A B : R) : 0 <= a <= 1 -> is_RInt (fun u => if Rlt_dec u a then A else B) 0 1 (a * A + (1 - a) * B).
Proof.
  intros Ha. apply (is_RInt_Chasles (V := R_NormedModule) _ 0 a 1).
  - apply (is_RInt_ext (fun _ => A)).
    + rewrite Rmin_left, Rmax_right by lra. intros u U. destruct (Rlt_dec u a); [reflexivity|lra].
    + replace (a * A) with (scal (a - 0) A) by (unfold scal; simpl; unfold mult; simpl; ring). apply (is_RInt_const (V := R_NormedModule)).
  - apply (is_RInt_ext (fun _ => B)).
    + rewrite Rmin_left, Rmax_right by lra. intros u U. destruct (Rlt_dec u a); [lra|reflexivity].
    + apply (is_RInt_const (V := R_NormedModule)).
Qed.

Hypothesis L_once : NoDup L.
Hypothesis L_all : forall i, In i L.
Hypothesis mass_pos : forall i, 0 < mass i.
Hypothesis n_nonneg : (0 <= n)%Z.
Hypothesis density_cont : cont log_density.
Hypothesis grad_cont : forall i, cont (fun q => grad q i).

Notation J := (I + I)%type.
Notation decJ := (dec2 dec).
Notation LJ := (both L).
Notation joint := (fun x => joint_density L mass log_density (pair_of x)).
Notation rate := (fun x => step_rate L mass log_density grad n eps (pair_of x)).
Notation prop := (lift (proposal mass grad n eps)).
Let both_once' := both_once L L_once.
Let both_all' := both_all L L_all.

Lemma prop_moves : moves decJ LJ prop (fun _ => 1).
Proof.
  eapply moves_ext; [| |apply (moves_comp_one dec L L_all _ _ (moves_leapfrog dec L L_once L_all mass grad grad_cont eps n n_nonneg) (moves_flip dec L L_once L_all))]; [|reflexivity].
  intros x. cbv beta. now rewrite lift_comp.
Qed.
Lemma prop_twice x : prop (prop x) = x.
Proof. rewrite lift_comp. unfold lift. rewrite proposal_involutive by assumption. apply join_pair. Qed.
Lemma cont_exp F : cont F -> cont (fun x : J -> R => exp (F x)).
Proof. apply (cont_fun exp). intros t. apply continuous_exp. Qed.
Lemma cont_Rmin1 F : cont F -> cont (fun x : J -> R => Rmin 1 (F x)).
Proof.
  intros C. apply (cont_ext (fun x => (1 + F x - Rabs (1 - F x)) * / 2)).
  - intros x. unfold Rmin. destruct (Rle_dec 1 (F x)) as [H|H]; [rewrite Rabs_left1 by lra|rewrite Rabs_pos_eq by lra]; lra.
  - apply cont_mult; [|apply cont_const]. apply cont_minus; [apply cont_plus; [apply cont_const|exact C]|]. apply cont_abs, cont_minus; [apply cont_const|exact C].
Qed.
Lemma cont_energy : cont (fun x => energy (log_density (first_half x)) (pairs_of L mass (second_half x))).
Proof.
  unfold energy. apply cont_plus; [apply cont_opp, cont_first, density_cont|]. unfold Rdiv at 1. apply cont_mult; [|apply cont_const].
  unfold pairs_of. clear. induction L as [|i l IH]; [exact (cont_const 0)|]. cbn [map fold_right fst snd]. apply cont_plus; [|exact IH].
  unfold Rdiv. apply cont_mult; [|apply cont_const]. apply cont_mult; apply cont_coord.
Qed.
Lemma cont_joint : cont joint.
Proof. unfold joint_density. apply cont_exp, cont_opp, cont_energy. Qed.
Lemma cont_rate : cont rate.
Proof.
  apply (cont_ext (fun x => Rmin 1 (exp (energy (log_density (first_half x)) (pairs_of L mass (second_half x)) -
     energy (log_density (first_half (prop x))) (pairs_of L mass (second_half (prop x))))))).
  - intros x. symmetry. apply step_rate_formula. exact mass_pos.
  - apply cont_Rmin1, cont_exp, cont_minus; [apply cont_energy|].
    apply (cont_comp LJ both_all' (fun x => energy (log_density (first_half x)) (pairs_of L mass (second_half x))) prop); [apply cont_energy|]. apply prop_moves.
Qed.
Lemma rate_range x : 0 <= rate x <= 1.
Proof.
  cbv beta. rewrite step_rate_formula by exact mass_pos. unfold Rmin. destruct (Rle_dec _ _) as [H|H]; [lra|]. split; [left; apply exp_pos|lra].
Qed.
Lemma joint_pos x : 0 < joint x.
Proof. apply exp_pos. Qed.

(** The joint density is invariant. *)
Lemma joint_invariant (k : R) (f : (I -> R) -> R) v : 0 < k -> cont f -> (forall q, 0 <= f q) ->
  total decJ LJ (fun x => k * (joint x * f (first_half x))) v ->
  total decJ LJ (fun x => k * (joint x * (rate x * f (fst (leapfrog grad mass n eps (first_half x) (second_half x))) + (1 - rate x) * f (first_half x)))) v.
Proof.
  intros Hk Cf Pf V.
  set (F := fun x => k * (joint x * f (first_half x))) in *. set (G := fun x => rate x * F x).
  assert (CF : cont F) by (apply cont_mult; [apply cont_const|]; apply cont_mult; [apply cont_joint|now apply cont_first]).
  assert (CG : cont G) by (apply cont_mult; [apply cont_rate|exact CF]).
  assert (PF : forall x, 0 <= F x) by (intros x; apply Rmult_le_pos; [lra|]; apply Rmult_le_pos; [left; apply joint_pos|apply Pf]).
  assert (PG : forall x, 0 <= G x <= F x).
  { intros x. unfold G. pose proof (rate_range x) as Rr. cbv beta in Rr. specialize (PF x). nra. }
  destruct (total_dominated decJ LJ F G v CF CG PG V) as (w & W).
  assert (W' : total decJ LJ (fun x => 1 * G (prop x)) w).
  { apply (total_moves decJ LJ both_once' both_all' prop (fun _ => 1) prop (fun _ => 1)); auto using prop_moves, prop_twice; [intros; ring|]. intros x; apply PG. }
  apply (total_ext decJ LJ (fun x => (F x - G x) + 1 * G (prop x))).
  - intros x. unfold G. cbv beta.
    replace (rate (prop x) * F (prop x)) with (k * (joint x * rate x * f (first_half (prop x)))).
    + unfold F. cbv beta. change (first_half (prop x)) with (fst (leapfrog grad mass n eps (first_half x) (second_half x))). ring.
    + unfold F. cbv beta. rewrite <- (balanced L mass log_density grad n eps mass_pos n_nonneg (pair_of x)).
      unfold lift. rewrite pair_join. ring.
  - replace v with (v - w + w) by ring. apply total_plus; auto.
    + now apply cont_minus.
    + apply cont_mult; [apply cont_const|]. apply (cont_comp LJ both_all' G prop); [exact CG|apply prop_moves].
    + intros x. specialize (PG x). lra.
    + intros x. specialize (PG (prop x)). lra.
    + apply total_minus; auto.
Qed.

Let scale : (J -> R) -> J -> R := lift (fun s => (fst s, fun i => sqrt (mass i) * snd s i + 0)).
Let unscale : (J -> R) -> J -> R := lift (fun s => (fst s, fun i => / sqrt (mass i) * snd s i + 0)).
Let W := prodf L (fun i => Rabs (sqrt (mass i))).
Let W' := prodf L (fun i => Rabs (/ sqrt (mass i))).
Lemma sqrt_mass i : 0 < sqrt (mass i).
Proof. apply sqrt_lt_R0, mass_pos. Qed.
Lemma scale_moves : moves decJ LJ scale (fun _ => W).
Proof. apply (moves_second dec L L_once L_all (fun i => sqrt (mass i)) (fun _ _ => 0)); [intros i; pose proof (sqrt_mass i); lra|intros; apply cont_const]. Qed.
Lemma unscale_moves : moves decJ LJ unscale (fun _ => W').
Proof.
  apply (moves_second dec L L_once L_all (fun i => / sqrt (mass i)) (fun _ _ => 0)); [intros i; apply Rinv_neq_0_compat; pose proof (sqrt_mass i); lra|intros; apply cont_const].
Qed.
Lemma unscale_scale x : unscale (scale x) = x.
Proof.
  unfold unscale, scale. rewrite lift_comp. unfold lift. cbn [fst snd]. transitivity (join (pair_of x)); [|apply join_pair]. f_equal. unfold pair_of. f_equal.
  extensionality i. pose proof (sqrt_mass i). cbn. field. lra.
Qed.
Lemma scale_unscale x : scale (unscale x) = x.
Proof.
  unfold unscale, scale. rewrite lift_comp. unfold lift. cbn [fst snd]. transitivity (join (pair_of x)); [|apply join_pair]. f_equal. unfold pair_of. f_equal.
  extensionality i. pose proof (sqrt_mass i). cbn. field. lra.
Qed.
Lemma weights : W * W' = 1.
Proof.
  unfold W, W', prodf. clear W W' scale unscale both_once' both_all'. clear L_once L_all. induction L as [|i l IH]; cbn [map fold_right]; [ring|].
  match goal with |- ?a * ?b * (?c * ?d) = 1 => replace (a * b * (c * d)) with ((a * c) * (b * d)) by ring end. rewrite IH.
  pose proof (sqrt_mass i). rewrite !Rabs_pos_eq by (try (left; apply Rinv_0_lt_compat); lra). field. lra.
Qed.
Lemma W_pos : 0 < W.
Proof. destruct scale_moves as (_ & _ & P & _). apply (P (fun _ => 0)). Qed.

Let k := prodf L (fun _ => / sqrt (2 * PI)).
Lemma k_pos : 0 < k.
Proof.
  unfold k, prodf. generalize L. intros l. induction l; cbn [map fold_right]; [lra|]. apply Rmult_lt_0_compat; [|assumption]. apply Rinv_0_lt_compat, sqrt_lt_R0. pose proof PI_RGT_0. lra.
Qed.
(** Density of position and noise from the joint density of position and momentum. *)
Lemma joint_scale x : k * joint (scale x) = exp (log_density (first_half x)) * noise_density L (second_half x).
Proof.
  unfold joint_density, energy. cbn [pair_of fst snd scale lift join].
  change (first_half (scale x)) with (first_half x). rewrite Ropp_plus_distr, Ropp_involutive, exp_plus.
  replace (k * (exp (log_density (first_half x)) * exp (- (fold_right Rplus 0 (map (fun y => fst y * fst y / snd y) (pairs_of L mass (second_half (scale x)))) / 2))))
    with (exp (log_density (first_half x)) * (k * exp (- (fold_right Rplus 0 (map (fun y => fst y * fst y / snd y) (pairs_of L mass (second_half (scale x)))) / 2)))) by ring.
  f_equal. unfold k, noise_density, pairs_of, prodf. rewrite map_map. cbn [fst snd].
  clear both_once' both_all' L_once L_all W W' k unscale. induction L as [|i l IH]; cbn [map fold_right].
  - rewrite Rmult_1_l. unfold Rdiv. rewrite Rmult_0_l, Ropp_0. apply exp_0.
  - rewrite <- IH. unfold standard_normal.
    change (second_half (scale x) i) with (sqrt (mass i) * second_half x i + 0).
    set (s := fold_right Rplus 0 _). set (c := fold_right Rmult 1 _).
    replace (- (((sqrt (mass i) * second_half x i + 0) * (sqrt (mass i) * second_half x i + 0) / mass i + s) / 2))
      with (- (second_half x i * second_half x i) / 2 + - (s / 2)).
    + rewrite exp_plus. ring.
    + pose proof (mass_pos i). rewrite <- (sqrt_sqrt (mass i)) at 3 by lra. pose proof (sqrt_mass i). field. lra.
Qed.

(** For every target with a continuous log-density and every continuous [f >= 0]: if
    the position is distributed as the target, the noise is standard normal and the
    uniform number uniform, then the mean of [f] after the transition is its mean under
    the target. [grad] may be any continuous function. *)
Theorem C25_invariant (f : (I -> R) -> R) v :
  has_integral dec L (fun q => exp (log_density q) * f q) v -> cont f ->
  exists g, (forall q z, is_RInt (fun u => f (next q z u)) 0 1 (g q z)) /\
            mean_over_noise dec L (fun q => exp (log_density q)) g v.
Proof.
  intros (_ & Pf' & V) Cf.
  assert (Pf : forall q, 0 <= f q).
  { intros q. specialize (Pf' q). pose proof (exp_pos (log_density q)). destruct (Rle_dec 0 (f q)); [assumption|nra]. }
  pose (a := fun q z => step_rate L mass log_density grad n eps (q, fun i => z i * sqrt (mass i))).
  exists (fun q z => a q z * f (fst (leapfrog grad mass n eps q (fun i => z i * sqrt (mass i)))) + (1 - a q z) * f q).
  assert (Ra : forall q z, 0 <= a q z <= 1).
  { intros q z. exact (rate_range (join (q, fun i => z i * sqrt (mass i)))). }
  split.
  { intros q z. apply (is_RInt_ext (fun u => if Rlt_dec u (a q z) then f (fst (leapfrog grad mass n eps q (fun i => z i * sqrt (mass i)))) else f q)); [|now apply choice_mean].
    intros u _. unfold next. cbv zeta. fold (a q z). destruct (Rlt_dec u (a q z)); reflexivity. }
  pose proof k_pos as Kp. pose proof W_pos as Wp. pose proof weights as Ww.
  assert (Cd : cont (fun q => exp (log_density q) * f q)).
  { apply cont_mult; [|exact Cf]. apply (cont_fun exp); [intros; apply continuous_exp|exact density_cont]. }
  assert (V1 : total decJ LJ (fun x => k * (joint (scale x) * f (first_half (scale x)))) v).
  { apply (total_ext decJ LJ (fun x => exp (log_density (first_half x)) * f (first_half x) * noise_density L (second_half x))).
    - intros x. change (first_half (scale x)) with (first_half x).
      transitivity (k * joint (scale x) * f (first_half x)); [rewrite joint_scale|]; ring.
    - replace v with (v * 1) by ring. apply (total_product dec L L_all (fun q => exp (log_density q) * f q) (noise_density L)); auto; [apply cont_noise|..].
      + intros q. left. apply noise_pos.
      + now apply total_noise. }
  assert (V2 : total decJ LJ (fun x => W' * (k * (joint x * f (first_half x)))) v).
  { apply (total_ext decJ LJ (fun x => (fun _ => W') x * (fun x => k * (joint (scale x) * f (first_half (scale x)))) (unscale x))).
    - intros x. cbv beta. now rewrite scale_unscale.
    - apply (total_moves decJ LJ both_once' both_all' unscale (fun _ => W') scale (fun _ => W) (fun x => k * (joint (scale x) * f (first_half (scale x)))) v); auto using scale_moves, unscale_moves, unscale_scale.
      + apply cont_mult; [apply cont_const|]. apply cont_mult.
        * apply (cont_comp LJ both_all' joint scale); [apply cont_joint|apply scale_moves].
        * apply (cont_comp LJ both_all' (fun x => f (first_half x)) scale); [now apply cont_first|apply scale_moves].
      + intros x. apply Rmult_le_pos; [lra|]. apply Rmult_le_pos; [left; apply exp_pos|apply Pf]. }
  assert (W'p : 0 < W') by (destruct unscale_moves as (_ & _ & P & _); apply (P (fun _ => 0))).
  assert (V3 := joint_invariant (W' * k) f v (Rmult_lt_0_compat _ _ W'p Kp) Cf Pf
    (total_ext decJ LJ _ _ v (fun x => eq_sym (Rmult_assoc W' k (joint x * f (first_half x)))) V2)).
  set (H := fun x => W' * k * (joint x * (rate x * f (fst (leapfrog grad mass n eps (first_half x) (second_half x))) + (1 - rate x) * f (first_half x)))) in V3.
  assert (CH : cont H).
  { apply cont_mult; [apply cont_const|]. apply cont_mult; [apply cont_joint|]. apply cont_plus; apply cont_mult.
    - apply cont_rate.
    - apply (cont_comp LJ both_all' (fun x => f (first_half x)) prop); [now apply cont_first|apply prop_moves].
    - apply cont_minus; [apply cont_const|apply cont_rate].
    - now apply cont_first. }
  assert (PH : forall x, 0 <= H x).
  { intros x. apply Rmult_le_pos; [nra|]. apply Rmult_le_pos; [left; apply exp_pos|]. pose proof (rate_range x) as Rr. cbv beta in Rr.
    apply Rplus_le_le_0_compat; apply Rmult_le_pos; try apply Pf; lra. }
  assert (E : forall x, W * H (scale x) = exp (log_density (first_half x)) * noise_density L (second_half x) *
     (a (first_half x) (second_half x) * f (fst (leapfrog grad mass n eps (first_half x) (fun i => second_half x i * sqrt (mass i)))) + (1 - a (first_half x) (second_half x)) * f (first_half x))).
  { intros x. rewrite <- joint_scale. unfold H.
    assert (Es : pair_of (scale x) = (first_half x, fun i => second_half x i * sqrt (mass i))).
    { unfold scale, lift. rewrite pair_join. unfold pair_of. cbn [fst snd]. f_equal. extensionality i. ring. }
    cbv beta. change (first_half (scale x)) with (fst (pair_of (scale x))). change (second_half (scale x)) with (snd (pair_of (scale x))).
    rewrite Es. cbn [fst snd]. fold (a (first_half x) (second_half x)).
    set (A := a _ _ * _ + _). set (D := joint_density _ _ _ _). replace (k * D * A) with ((W * W') * (k * D * A)) by (rewrite Ww; ring). ring. }
  assert (V4 : total decJ LJ (fun x => (fun _ => W) x * H (scale x)) v).
  { apply (total_moves decJ LJ both_once' both_all' scale (fun _ => W) unscale (fun _ => W')); auto using scale_moves, unscale_moves, scale_unscale. intros; lra. }
  split; [|split].
  - apply (cont_ext (fun x => W * H (scale x))); [exact E|]. apply cont_mult; [apply cont_const|].
    apply (cont_comp LJ both_all' H scale); [exact CH|apply scale_moves].
  - intros x. rewrite <- E. apply Rmult_le_pos; [lra|apply PH].
  - apply (total_ext decJ LJ (fun x => W * H (scale x)) _ v E V4).
Qed.
End Invariant.
Print Assumptions C25_invariant.

(** ** The transition of one chain among several *)
Section Chain.
Context {I : Type} (dec : forall i j : I, {i = j} + {i <> j}) (L : list I).
Context (chain : shape) (data : list shape) (log_post : state -> index -> ext) (grad : state -> state) (mass : nat -> index -> R).
Context (n : Z) (eps : R) (c : index).
(** [name i]: the entry of the latents that coordinate [i] stands for. *)
Context (name : I -> nat * index).
Definition place (i : I) : nat * index := (fst (name i), c ++ snd (name i)).
(** A state of all chains, a noise and a vector of uniforms whose part for chain [c] is
    given; the other chains may hold anything. *)
Context (state_of : (I -> R) -> state) (noise_of : (I -> R) -> state) (uniforms : R -> index -> R).
Context (lp : (I -> R) -> R).

Hypothesis L_once : NoDup L.
Hypothesis L_all : forall i, In i L.
Hypothesis names : lists_entries data (map name L).
Hypothesis mass_pos : forall i, 0 < mass (fst (name i)) (snd (name i)).
Hypothesis n_nonneg : (0 <= n)%Z.
Hypothesis c_valid : valid chain c.
Hypothesis state_at : forall q i, state_of q (place i) = q i.
Hypothesis noise_at : forall z i, noise_of z (place i) = z i.
Hypothesis uniform_at : forall u, uniforms u c = u.
Hypothesis chains_apart : chainwise data log_post.
Hypothesis gradients_apart : chainwise_gradient data grad.
Hypothesis lp_is : forall q, log_post (state_of q) c = Fi (lp q).
Hypothesis lp_cont : cont lp.
Hypothesis grad_cont : forall i, cont (fun q => grad (state_of q) (place i)).

Let m : I -> R := fun i => mass (fst (name i)) (snd (name i)).
Let G : (I -> R) -> I -> R := fun q i => grad (state_of q) (place i).

Lemma agree_places s s' : (forall i, s (place i) = s' (place i)) -> agree data c s s'.
Proof.
  intros H k ds d Hk V. assert (E : In (k, d) (map name L)) by (apply names; eauto).
  apply in_map_iff in E. destruct E as (i & E & _). specialize (H i). unfold place in H. rewrite E in H. exact H.
Qed.
Lemma places_agree s s' i : agree data c s s' -> s (place i) = s' (place i).
Proof.
  intros H. assert (E : In (name i) (map name L)) by (apply in_map, L_all). unfold place. destruct (name i) as [k d]. apply names in E.
  destruct E as (ds & Hk & V). exact (H k ds d Hk V).
Qed.
Lemma full_mass_place i : full_mass chain mass (place i) = m i.
Proof. unfold full_mass, place, m. cbn [fst snd]. f_equal. destruct c_valid as [E _]. rewrite <- E. rewrite skipn_app, skipn_all, Nat.sub_diag. reflexivity. Qed.
Lemma leapfrog_places s p q r : (forall i, s (place i) = q i) -> (forall i, p (place i) = r i) ->
  (forall i, fst (leapfrog grad (full_mass chain mass) n eps s p) (place i) = fst (leapfrog G m n eps q r) i) /\
  (forall i, snd (leapfrog grad (full_mass chain mass) n eps s p) (place i) = snd (leapfrog G m n eps q r) i).
Proof.
  unfold leapfrog. generalize (Z.to_nat (n + 1)) as f, 0%Z as b. intros f.
  revert s p q r. induction f as [|f IH]; intros s p q r b Hq Hp; [split; assumption|].
  rewrite !loop_S. destruct (b <? n + 1)%Z; [|split; assumption].
  cbn [fst snd]. unfold leapfrog_body, leapfrog_integrator. cbv zeta.
  match goal with |- context[leapfrog_loop grad _ f n eps (b + 1) (?a1, _)] => match goal with
    |- context[leapfrog_loop G _ f n eps (b + 1) (?a2, _)] => assert (Q : forall i, a1 (place i) = a2 i) end end.
  { intros i. unfold velocity. now rewrite Hq, Hp, full_mass_place. }
  apply IH; [exact Q|]. intros i. rewrite Hp. f_equal. f_equal. apply places_agree, gradients_apart, agree_places.
  intros j. now rewrite Q, state_at.
Qed.

(** What the step leaves in chain [c]. *)
Lemma step_places q z u : exists info,
  sample_step chain data log_post grad mass n eps (state_of q) (noise_of z) (uniforms u) = info /\
  forall i, exists t, nth_error (i_samples info) (fst (name i)) = Some (Some t) /\
    t_at t (c ++ snd (name i)) = next L m lp G n eps q z u i.
Proof.
  destruct (sample_step chain data log_post grad mass n eps (state_of q) (noise_of z) (uniforms u)) as [ac ra sa ol nl] eqn:S. set (info := Info ac ra sa ol nl) in *. clearbody info.
  exists info. split; [reflexivity|].
  pose (p := fun i => z i * sqrt (m i)).
  destruct (leapfrog_places (state_of q) (random_momentum chain mass (noise_of z)) q p) as (Fq & Fp); [apply state_at| |].
  { intros i. unfold random_momentum, p. now rewrite noise_at, full_mass_place. }
  set (q' := fst (leapfrog G m n eps q p)) in *. set (p' := snd (leapfrog G m n eps q p)) in *.
  assert (E' : log_post (fst (leapfrog grad (full_mass chain mass) n eps (state_of q) (random_momentum chain mass (noise_of z)))) c = Fi (lp q')).
  { rewrite <- lp_is. apply chains_apart, agree_places. intros i. now rewrite Fq, state_at. }
  assert (Mp : forall k d, In (k, d) (map name L) -> 0 < mass k d).
  { intros k d H. apply in_map_iff in H. destruct H as (i & E & _). pose proof (mass_pos i) as P. now rewrite E in P. }
  pose proof (C25_transition chain data log_post grad mass n eps (state_of q) (noise_of z) (uniforms u) info (map name L) c (lp q) (lp q') names c_valid Mp S (lp_is q) E') as (_ & T).
  intros i. destruct (T (fst (name i)) (snd (name i))) as (t & Ht & At).
  { rewrite <- surjective_pairing. apply in_map, L_all. }
  exists t. split; [exact Ht|]. rewrite At. clear At Ht T t.
  rewrite uniform_at. unfold next. cbv zeta. fold p. fold q'.
  rewrite step_rate_formula by exact mass_pos. cbn [fst snd]. unfold proposal. cbn [flip fst snd]. rewrite energy_flip. fold q' p'.
  change (fun x => mass (fst x) (skipn (length chain) (snd x))) with (full_mass chain mass).
  change (fun x => noise_of z x * sqrt (full_mass chain mass x)) with (random_momentum chain mass (noise_of z)).
  assert (En : forall v (s : state) (r : I -> R), (forall i, s (place i) = r i) ->
    energy v (map (fun x : nat * index => (s (fst x, c ++ snd x), mass (fst x) (snd x))) (map name L)) = energy v (pairs_of L m r)).
  { intros v s r H. unfold pairs_of. rewrite map_map. f_equal. apply map_ext. intros j. change ((s (place j), m j) = (r j, m j)). now rewrite H. }
  match goal with |- (if Rlt_dec u ?A then _ else _) = (if Rlt_dec u ?B then _ else _) _ => replace A with B end.
  - destruct (Rlt_dec u _); [apply Fq|apply state_at].
  - do 2 f_equal. f_equal; symmetry.
    + apply (En (lp q) (random_momentum chain mass (noise_of z)) p). intros j; unfold random_momentum, p; now rewrite noise_at, full_mass_place.
    + exact (En (lp q') _ p' Fp).
Qed.

(** Whatever the other chains hold: with the values of chain [c] drawn from its target,
    standard normal noise and a uniform number, the values that the step leaves in chain
    [c] have the target's means. *)
Theorem C25_chain_invariant (f : (I -> R) -> R) v :
  has_integral dec L (fun q => exp (lp q) * f q) v -> cont f ->
  exists after g,
    (forall q z u, exists info,
       sample_step chain data log_post grad mass n eps (state_of q) (noise_of z) (uniforms u) = info /\
       forall i, exists t, nth_error (i_samples info) (fst (name i)) = Some (Some t) /\
         t_at t (c ++ snd (name i)) = after q z u i) /\
    (forall q z, is_RInt (fun u => f (after q z u)) 0 1 (g q z)) /\
    mean_over_noise dec L (fun q => exp (lp q)) g v.
Proof.
  intros V Cf. destruct (C25_invariant dec L m lp G n eps L_once L_all mass_pos n_nonneg lp_cont grad_cont f v V Cf) as (g & Hg & M).
  exists (next L m lp G n eps), g. split; [apply step_places|]. split; assumption.
Qed.
End Chain.
Print Assumptions C25_chain_invariant.

(** Two chains of two scalar latents with a standard normal target, seen from the second
    chain: the hypotheses of both theorems hold, for a function that is not constant. *)
Example invariant_case :
  let L := [false; true] in
  let data := [[]; []] : list shape in
  let log_post := fun (s : state) (c : index) => Fi (- (s (0%nat, c) * s (0%nat, c)) / 2 - s (1%nat, c) * s (1%nat, c) / 2) in
  let grad := fun (s : state) x => - s x in
  let mass := fun (k : nat) (_ : index) => INR k + 1 in
  let name := fun i : bool => ((if i then 1 else 0)%nat, [] : index) in
  let state_of := fun (q : bool -> R) (x : nat * index) => if list_eq_dec Nat.eq_dec (snd x) [1%nat] then q (Nat.eqb (fst x) 1) else 5 in
  let lp := fun q : bool -> R => - (q false * q false) / 2 - q true * q true / 2 in
  let f := fun q : bool -> R => / (1 + q false * q false) in
  NoDup L /\ (forall i, In i L) /\ lists_entries data (map name L) /\
  (forall i, 0 < mass (fst (name i)) (snd (name i))) /\ valid [2%nat] [1%nat] /\
  (forall q i, state_of q (place [1%nat] name i) = q i) /\
  chainwise data log_post /\ chainwise_gradient data grad /\
  (forall q, log_post (state_of q) [1%nat] = Fi (lp q)) /\
  cont lp /\ (forall i, cont (fun q => grad (state_of q) (place [1%nat] name i))) /\
  cont f /\ exists v, has_integral bool_dec L (fun q => exp (lp q) * f q) v.
Proof.
  intros L data log_post grad mass name state_of lp f.
  assert (Nd : NoDup L) by (repeat constructor; cbn; intuition discriminate).
  assert (All : forall i, In i L) by (intros []; cbn; auto).
  assert (Clp : cont lp).
  { unfold lp, Rdiv. apply cont_minus; apply cont_mult; try apply cont_const; [apply cont_opp|]; apply cont_mult; apply cont_coord. }
  assert (Sq : forall q : bool -> R, 0 <= q false * q false) by (intros; nra).
  assert (Cf : cont f).
  { apply cont_inv; [|intros q; specialize (Sq q); lra]. apply cont_plus; [apply cont_const|]. apply cont_mult; apply cont_coord. }
  assert (Sa : forall q i, state_of q (place [1%nat] name i) = q i) by (intros q []; reflexivity).
  assert (Same : forall s s' c, agree data c s s' -> s (0%nat, c) = s' (0%nat, c) /\ s (1%nat, c) = s' (1%nat, c)).
  { intros s s' c H. pose proof (H 0%nat [] [] eq_refl) as H0. pose proof (H 1%nat [] [] eq_refl) as H1. rewrite !app_nil_r in *.
    split; [apply H0|apply H1]; (split; [reflexivity|cbn; intros; lia]). }
  repeat match goal with |- _ /\ _ => split end; auto.
  - exact (entries_listed [] data (fun _ _ => 1)).
  - intros i. unfold mass. pose proof (pos_INR (fst (name i))). lra.
  - split; [reflexivity|]. cbn. intros k Hk. destruct k; cbn in *; lia.
  - intros s s' c H. destruct (Same s s' c H) as (E0 & E1). unfold log_post. now rewrite E0, E1.
  - intros s s' c H k ds d Hk Vd. unfold grad. now rewrite (H k ds d Hk Vd).
  - intros i. apply (cont_ext (fun q => - q i)); [intros q; unfold grad; now rewrite Sa|]. apply cont_opp, cont_coord.
  - assert (E : forall q, exp (lp q) = (2 * PI) * noise_density L q).
    { intros q. unfold lp, noise_density, L. cbn [map fold_right]. unfold standard_normal, Rminus. rewrite exp_plus.
      replace (- (q true * q true / 2)) with (- (q true * q true) / 2) by lra.
      pose proof PI_RGT_0. assert (0 < sqrt (2 * PI)) by (apply sqrt_lt_R0; lra).
      rewrite <- (sqrt_sqrt (2 * PI)) at 1 by lra. field. lra. }
    assert (C0 : cont (fun q => 2 * PI * noise_density L q)) by (apply cont_mult; [apply cont_const|apply cont_noise]).
    assert (T : total bool_dec L (fun q => 2 * PI * noise_density L q) (2 * PI * 1)).
    { apply total_scal; [pose proof PI_RGT_0; lra|apply cont_noise|]. now apply total_noise. }
    assert (C1 : cont (fun q => exp (lp q) * f q)) by (apply cont_mult; [apply (cont_ext _ _ (fun q => eq_sym (E q)) C0)|exact Cf]).
    assert (P1 : forall q, 0 <= exp (lp q) * f q <= 2 * PI * noise_density L q).
    { intros q. rewrite <- E. pose proof (exp_pos (lp q)). assert (0 < f q <= 1); [|nra]. unfold f. specialize (Sq q).
      split; [apply Rinv_0_lt_compat; lra|]. rewrite <- Rinv_1 at 2. apply Rinv_le_contravar; lra. }
    destruct (total_dominated bool_dec L _ _ _ C0 C1 P1 T) as (v & V). exists v. split; [exact C1|]. split; [intros q; apply P1|exact V].
Qed.
