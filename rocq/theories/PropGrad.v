(** C47: is_reparameterized and use_path_derivative change which gradients flow, not
    which values are computed. *)
From Coq Require Import List Arith Lia Bool Reals Lra.
From Coquelicot Require Import Coquelicot.
From Verif Require Import ModelTensor ModelDist ModelChol ModelGrad SpecDist SpecChol SpecDensity SpecGrad ProofGrad ProofIntegral ProofGauss ProofDensity ProofChol.
Import List ListNotations.
Local Open Scope R_scope.

(** The flags a constructed distribution reports. *)
Theorem C47_flags c rep path :
  (takes_reparam c = true ->
   exists d, gnew c rep path = Some d /\ g_class d = c /\
     g_reparam d = match rep with Some b => b | None => true end /\
     g_path d = match path with Some b => b | None => false end) /\
  (takes_reparam c = false -> rep <> None -> gnew c rep path = None) /\
  (takes_reparam c = false ->
   exists d, gnew c None path = Some d /\ g_class d = c /\ g_reparam d = false /\
     g_path d = match path with Some b => b | None => false end).
Proof.
  unfold gnew. destruct (takes_reparam c); destruct rep, path; repeat split; try discriminate; try congruence;
    intros; eexists; repeat split; reflexivity.
Qed.
Print Assumptions C47_flags.

Section Gradients.
Variables lgamma digamma : R -> R.
Variables draw ddraw pois : R -> R -> R.
Notation value := (value lgamma draw).
Notation grad := (grad lgamma digamma draw ddraw).
Notation held := (held lgamma draw).
Notation regular := (regular lgamma digamma draw ddraw).

(** Values of samples and log densities are the formulas of the class, whatever the
    flags. *)
Theorem C47_values c rep path d e z given :
  gnew c rep path = Some d ->
  map (value e) (g_sample pois d z) = sampler draw pois (value e) c z /\
  (fits_class c given -> inside (value e) c (map (value e) given) ->
   value e (g_log_prob d given) = density lgamma (value e) c (map (value e) given)).
Proof.
  intros G. assert (C : g_class d = c).
  { unfold gnew in G. destruct (takes_reparam c), rep; inversion G; reflexivity. }
  assert (H : forall l, map (held e e) l = map (value e) l) by (intros; apply map_ext, held_value).
  assert (HV : forall m, held e e m = value e m) by (apply held_value).
  split.
  - rewrite <- H, held_sample, C.
    assert (E : in_sample lgamma draw d e e = value e).
    { apply FunctionalExtensionality.functional_extensionality. intros a. unfold in_sample.
      destruct (g_class d); try reflexivity; destruct (takes_reparam _ && _); auto. }
    now rewrite E.
  - intros F I.
    assert (E : in_log_prob lgamma draw d e e = value e).
    { apply FunctionalExtensionality.functional_extensionality. intros a. unfold in_log_prob.
      destruct (_ && _); auto. }
    rewrite <- HV, held_log_prob; rewrite ?C, ?E, ?H; auto.
Qed.

(** With is_reparameterized=False no gradient flows from a sample into anything. *)
Theorem C47_blocked c path d z k e de :
  takes_reparam c = true -> gnew c (Some false) path = Some d ->
  grad e de (nth k (g_sample pois d z) (Cst 0)) = 0.
Proof.
  intros T G. unfold gnew in G. rewrite T in G. inversion_clear G.
  assert (F := flat_sample lgamma digamma draw ddraw pois
    (GDist c false match path with Some b => b | None => false end) z T eq_refl).
  destruct (Nat.lt_ge_cases k (length (g_sample pois (GDist c false match path with Some b => b | None => false end) z))) as [H|H].
  - rewrite Forall_forall in F. apply F. now apply nth_In.
  - rewrite nth_overflow by assumption. reflexivity.
Qed.

Lemma nth_map_held e0 e l k : nth k (map (held e0 e) l) 0 = held e0 e (nth k l (Cst 0)).
Proof. change 0 with (held e0 e (Cst 0)) at 1. apply map_nth. Qed.

(** With is_reparameterized=True, or not given, the gradient of each entry of a sample
    is the derivative of the sampling formula along any motion of the inputs. *)
Theorem C47_reparameterized c rep path d z k motion t v :
  takes_reparam c = true -> rep <> Some false -> gnew c rep path = Some d ->
  moves motion t v ->
  (forall m, parameters c m -> regular (motion t) m) ->
  sampler_differentiable (value (motion t)) c ->
  is_derive (fun s => nth k (sampler draw pois (held (motion t) (motion s)) c z) 0) t
            (grad (motion t) v (nth k (g_sample pois d z) (Cst 0))).
Proof.
  intros T Rp G M RP D. unfold gnew in G. rewrite T in G.
  assert (E : g_class d = c /\ g_reparam d = true).
  { destruct rep as [[]|]; try congruence; inversion_clear G; auto. }
  destruct E as [C Rd].
  eapply is_derive_ext; [|apply grad_sound; [exact M|]].
  - intros s. cbv beta. rewrite <- nth_map_held, held_sample, C. f_equal. f_equal.
    apply FunctionalExtensionality.functional_extensionality. intros a. unfold in_sample. rewrite C, Rd.
    destruct c; try discriminate; reflexivity.
  - assert (F := regular_sample lgamma digamma draw ddraw pois (motion t) d z). rewrite C in F.
    specialize (F T RP D). apply regular_nth. exact F.
Qed.

Lemma stays_above f t l : is_derive f t l -> forall b : R, b < f t -> locally t (fun s => b < f s).
Proof.
  intros D b H. assert (Cn : continuous f t) by (apply ex_derive_continuous; eexists; exact D).
  apply Cn. apply (open_gt b). exact H.
Qed.
Lemma stays_inside c motion t v given (val : R -> tm -> R) :
  (forall m, parameters c m -> regular (motion t) m) -> Forall (regular (motion t)) given ->
  moves motion t v -> (forall m, val t m = value (motion t) m) ->
  (forall m, parameters c m -> exists l, is_derive (fun s => val s m) t l) ->
  inside (value (motion t)) c (map (value (motion t)) given) ->
  locally t (fun s => inside (val s) c (map (held (motion t) (motion s)) given)).
Proof.
  intros RP RG M V DV I.
  assert (DX : is_derive (fun s => nth 0 (map (held (motion t) (motion s)) given) 0) t (grad (motion t) v (nth 0 given (Cst 0)))).
  { eapply is_derive_ext; [|apply grad_sound; [exact M|]]; [intros s; cbv beta; now rewrite nth_map_held|]. now apply regular_nth. }
  assert (X0 : nth 0 (map (held (motion t) (motion t)) given) 0 = nth 0 (map (value (motion t)) given) 0).
  { f_equal. apply map_ext. intros. apply held_value. }
  unfold inside in *. destruct c; try (now apply filter_forall).
  - apply (stays_above _ _ _ DX). rewrite X0. exact I.
  - destruct (DV minval) as [l1 D1]. { simpl; auto. } destruct (DV maxval) as [l2 D2]. { simpl; auto. }
    assert (A : locally t (fun s => 0 < nth 0 (map (held (motion t) (motion s)) given) 0 - val s minval)).
    { eapply stays_above; [apply (is_derive_minus (V := R_NormedModule)); [exact DX|exact D1]|].
      unfold minus, plus, opp; simpl. rewrite X0, V. lra. }
    assert (B : locally t (fun s => 0 < val s maxval - nth 0 (map (held (motion t) (motion s)) given) 0)).
    { eapply stays_above; [apply (is_derive_minus (V := R_NormedModule)); [exact D2|exact DX]|].
      unfold minus, plus, opp; simpl. rewrite X0, V. lra. }
    generalize (filter_and _ _ A B). apply filter_imp. intros s [A' B']. lra.
Qed.
Lemma differentiable_inside e c given : differentiable_at (value e) c given -> inside (value e) c given.
Proof. unfold differentiable_at, inside. destruct c; auto. Qed.

Lemma log_prob_derive d given motion t v :
  (forall x, 0 < x -> is_derive lgamma x (digamma x)) ->
  moves motion t v -> fits_class (g_class d) given ->
  (forall m, parameters (g_class d) m -> regular (motion t) m) -> Forall (regular (motion t)) given ->
  differentiable_at (value (motion t)) (g_class d) (map (value (motion t)) given) ->
  is_derive (fun s => density lgamma (in_log_prob lgamma draw d (motion t) (motion s)) (g_class d) (map (held (motion t) (motion s)) given)) t
            (grad (motion t) v (g_log_prob d given)).
Proof.
  intros LG M F RP RG D. assert (I := differentiable_inside _ _ _ D).
  eapply is_derive_ext_loc; [|apply grad_sound; [exact M|now apply regular_log_prob]].
  assert (L := stays_inside (g_class d) motion t v given (fun s => in_log_prob lgamma draw d (motion t) (motion s)) RP RG M).
  cbv beta in L. apply (filter_imp _ _ (fun s H => held_log_prob lgamma draw d (motion t) (motion s) given F H I)).
  apply L; auto.
  - intros m. unfold in_log_prob. destruct (_ && _); [reflexivity|apply held_value].
  - intros m Hm. unfold in_log_prob. destruct (_ && _).
    + eexists. apply (is_derive_const (V := R_NormedModule)).
    + eexists. apply grad_sound; [exact M|auto].
Qed.

(** With use_path_derivative=False, or not given, the gradient of log_prob is the
    derivative of the log density in the parameters and the value together. *)
Theorem C47_full_gradient c rep path d given motion t v :
  (forall x, 0 < x -> is_derive lgamma x (digamma x)) ->
  path <> Some true -> gnew c rep path = Some d ->
  moves motion t v -> fits_class c given ->
  (forall m, parameters c m -> regular (motion t) m) -> Forall (regular (motion t)) given ->
  differentiable_at (value (motion t)) c (map (value (motion t)) given) ->
  is_derive (fun s => density lgamma (held (motion t) (motion s)) c (map (held (motion t) (motion s)) given)) t
            (grad (motion t) v (g_log_prob d given)).
Proof.
  intros LG Pt G M F RP RG D.
  assert (E : g_class d = c /\ g_path d = false).
  { unfold gnew in G. destruct path as [[]|]; try congruence; destruct (takes_reparam c), rep; inversion_clear G; auto. }
  destruct E as [C Pd].
  pose proof (log_prob_derive d given motion t v LG M) as H. rewrite C in H. specialize (H F RP RG D).
  unfold in_log_prob in H. rewrite Pd in H. cbn [andb] in H. exact H.
Qed.

(** With use_path_derivative=True, on the classes that document it, the parameters
    are constants: the gradient is the derivative in the value alone. *)
Theorem C47_path_gradient c rep d given motion t v :
  (forall x, 0 < x -> is_derive lgamma x (digamma x)) ->
  documents_path c = true -> gnew c rep (Some true) = Some d ->
  moves motion t v -> fits_class c given ->
  (forall m, parameters c m -> regular (motion t) m) -> Forall (regular (motion t)) given ->
  differentiable_at (value (motion t)) c (map (value (motion t)) given) ->
  is_derive (fun s => density lgamma (value (motion t)) c (map (held (motion t) (motion s)) given)) t
            (grad (motion t) v (g_log_prob d given)).
Proof.
  intros LG Dp G M F RP RG D.
  assert (E : g_class d = c /\ g_path d = true).
  { unfold gnew in G. destruct (takes_reparam c), rep; inversion_clear G; auto. }
  destruct E as [C Pd].
  pose proof (log_prob_derive d given motion t v LG M) as H. rewrite C in H. specialize (H F RP RG D).
  unfold in_log_prob in H. rewrite C, Pd, Dp in H. exact H.
Qed.

(** What use_path_derivative=True leaves out is exactly the score: the gradient of
    log_prob at the value held fixed. *)
Theorem C47_path_drops_score c rep d0 d1 given e de :
  documents_path c = true -> gnew c rep (Some false) = Some d0 -> gnew c rep (Some true) = Some d1 ->
  grad e de (g_log_prob d0 given) = grad e de (g_log_prob d1 given) + grad e de (g_log_prob d0 (map Stop given)).
Proof.
  intros D G0 G1. unfold gnew in G0, G1.
  assert (E : exists r, d0 = GDist c r false /\ d1 = GDist c r true).
  { destruct (takes_reparam c), rep as [r|]; inversion_clear G0; inversion_clear G1;
      [exists r|exists true|exists false]; auto. }
  destruct E as (r & -> & ->).
  apply (split_log_prob lgamma digamma draw ddraw e de c given r D).
Qed.

(** Gamma, Beta, InverseGamma and Dirichlet report is_reparameterized = False, yet
    their samples carry gradients into the parameters: the rate divides the draw, and
    tf.random_gamma has a gradient in its shape. *)
Theorem C47_gamma_sample_gradient alpha beta path d z e de :
  gnew (GGamma alpha beta) None path = Some d ->
  g_reparam d = false /\
  grad e de (nth 0 (g_sample pois d z) (Cst 0)) =
  (grad e de alpha * ddraw (z 0%nat) (value e alpha) * value e beta
   - draw (z 0%nat) (value e alpha) * grad e de beta) / (value e beta) ^ 2.
Proof. intros G. inversion_clear G. split; reflexivity. Qed.

Theorem C47_not_reparameterized_refuted : (exists u a, 0 < draw u a) ->
  ~ (forall c path d z k e de, gnew c None path = Some d -> g_reparam d = false ->
     grad e de (nth k (g_sample pois d z) (Cst 0)) = 0).
Proof.
  intros (u & a & P) H.
  specialize (H (GGamma (Cst a) (Var 0)) None _ (fun _ => u) 0%nat (fun _ => 1) (fun _ => 1) eq_refl eq_refl).
  simpl in H. lra.
Qed.

(** The classes that do not document use_path_derivative accept it and ignore it. *)
Theorem C47_path_ignored c rep d0 d1 given : documents_path c = false ->
  gnew c rep (Some false) = Some d0 -> gnew c rep (Some true) = Some d1 ->
  g_path d1 = true /\ g_log_prob d1 given = g_log_prob d0 given.
Proof.
  intros D G0 G1. unfold gnew in *. destruct (takes_reparam c), rep; inversion_clear G0; inversion_clear G1;
    split; auto; destruct c; try discriminate; reflexivity.
Qed.
Theorem C47_path_everywhere_refuted :
  ~ (forall c rep d given e de, gnew c rep (Some true) = Some d ->
     (forall m, In m given -> grad e de m = 0) -> grad e de (g_log_prob d given) = 0).
Proof.
  intros H. specialize (H (GUniform (Cst 0) (Var 0)) None _ [Cst (1/2)] (fun _ => 1) (fun _ => 1) eq_refl).
  assert (E : grad (fun _ => 1) (fun _ => 1) (g_log_prob (GDist (GUniform (Cst 0) (Var 0)) true true) [Cst (1/2)]) = -1).
  { simpl. unfold uniform_mask. simpl. destruct (Rle_dec 0 (1/2)); [|lra]. destruct (Rlt_dec (1/2) 1); [|lra]. field. }
  rewrite H in E; [lra|]. intros m [<-|[]]. reflexivity.
Qed.

(** ** The dropped score has mean zero *)
Lemma vanishing (f : R -> R) : (forall y, y <> 0 -> Rabs (f y) <= / Rabs y) ->
  filterlim f (Rbar_locally p_infty) (locally 0) /\ filterlim f (Rbar_locally m_infty) (locally 0).
Proof.
  intros B. split; apply filterlim_locally; intros eps.
  - exists (/ eps). intros y Hy. pose proof (cond_pos eps) as Pe. pose proof (Rinv_0_lt_compat _ Pe) as Pi.
    change (Rabs (f y - 0) < eps). rewrite Rminus_0_r. apply Rle_lt_trans with (/ Rabs y); [apply B; lra|].
    rewrite Rabs_pos_eq by lra. rewrite <- (Rinv_inv eps). apply Rinv_lt_contravar; [nra|assumption].
  - exists (- / eps). intros y Hy. pose proof (cond_pos eps) as Pe. pose proof (Rinv_0_lt_compat _ Pe) as Pi.
    change (Rabs (f y - 0) < eps). rewrite Rminus_0_r. apply Rle_lt_trans with (/ Rabs y); [apply B; lra|].
    rewrite Rabs_left by lra. rewrite <- (Rinv_inv eps). apply Rinv_lt_contravar; [nra|lra].
Qed.
Lemma g_small y : y <> 0 -> 0 < g y /\ g y <= / (1 + y * y).
Proof.
  intros N. unfold g. split; [apply exp_pos|]. rewrite exp_Ropp. apply Rinv_le_contravar; [nra|].
  left. apply exp_ineq1. nra.
Qed.
Lemma poly_g_vanishes a b : filterlim (fun y => (a + b * y) * g y) (Rbar_locally p_infty) (locally 0) /\
  filterlim (fun y => (a + b * y) * g y) (Rbar_locally m_infty) (locally 0).
Proof.
  assert (V : forall y, y <> 0 -> Rabs (g y) <= / Rabs y).
  { intros y N. destruct (g_small y N) as [P Q]. rewrite Rabs_pos_eq by lra. eapply Rle_trans; [exact Q|].
    apply Rinv_le_contravar; [now apply Rabs_pos_lt|]. unfold Rabs; destruct (Rcase_abs y); nra. }
  assert (W : forall y, y <> 0 -> Rabs (y * g y) <= / Rabs y).
  { intros y N. destruct (g_small y N) as [P Q]. rewrite Rabs_mult, (Rabs_pos_eq (g y)) by lra.
    pose proof (Rabs_pos_lt y N) as A.
    apply Rle_trans with (Rabs y * / (1 + y * y)); [apply Rmult_le_compat_l; lra|].
    apply (Rmult_le_reg_r (Rabs y * (1 + y * y))); [nra|].
    replace (Rabs y * / (1 + y * y) * (Rabs y * (1 + y * y))) with (Rabs y * Rabs y) by (field; nra).
    replace (/ Rabs y * (Rabs y * (1 + y * y))) with (1 + y * y) by (field; lra).
    rewrite <- Rabs_mult, Rabs_pos_eq by nra. lra. }
  destruct (vanishing _ V) as [V1 V2]. destruct (vanishing _ W) as [W1 W2].
  assert (K : forall F, Filter F -> filterlim g F (locally 0) -> filterlim (fun y => y * g y) F (locally 0) ->
              filterlim (fun y => (a + b * y) * g y) F (locally 0)).
  { intros F FF A B. replace 0 with (a * 0 + b * 0) by ring.
    apply (filterlim_ext (fun y => a * g y + b * (y * g y))); [intros; ring|].
    apply (filterlim_comp_2 (fun y => a * g y) (fun y => b * (y * g y)) Rplus (G := locally (a * 0)) (H := locally (b * 0))).
    - apply (filterlim_comp _ _ _ g (fun u => a * u) F (locally 0)); [exact A|]. apply (filterlim_scal_r a 0).
    - apply (filterlim_comp _ _ _ (fun y => y * g y) (fun u => b * u) F (locally 0)); [exact B|]. apply (filterlim_scal_r b 0).
    - apply (filterlim_plus (a * 0) (b * 0)). }
  split; apply K; auto; apply Rbar_locally_filter.
Qed.

(** For the Normal: integrated against the density, the score is zero, so the
    gradient estimate with use_path_derivative=True has the same mean as the full one. *)
Theorem C47_normal_score_mean_zero mean std logstd rep d e de :
  gnew (GNormal mean std logstd) rep (Some false) = Some d ->
  mass (fun x => exp (density lgamma (value e) (GNormal mean std logstd) [x])
                 * grad e de (g_log_prob d [Stop (Cst x)])) to_minus_infinity to_plus_infinity 0.
Proof.
  intros G. assert (E : exists r, d = GDist (GNormal mean std logstd) r false).
  { unfold gnew in G. simpl in G. destruct rep; inversion_clear G; eauto. }
  destruct E as (r & ->). clear G rep.
  unfold mass, to_minus_infinity, to_plus_infinity, density. cbn [nth].
  set (m := value e mean). set (l := value e logstd). set (dm := grad e de mean). set (dl := grad e de logstd).
  pose (N x := exp (normal_lp x m l)).
  pose (F x := (- dm - dl * (x - m)) * N x).
  assert (Sc : forall x, grad e de (g_log_prob (GDist (GNormal mean std logstd) r false) [Stop (Cst x)])
     = dm * (x - m) * exp (-2 * l) + dl * (exp (-2 * l) * ((x - m) * (x - m)) - 1)).
  { intros x. unfold g_log_prob, path_param, tnth. simpl. fold m l dm dl. unfold square. field. }
  assert (DN : forall x, is_derive N x (- (x - m) * exp (-2 * l) * N x)).
  { intros x. unfold N, normal_lp, square. auto_derive; [auto|]. unfold Rminus. field. }
  apply (is_RInt_gen_ext (fun x => N x * (dm * (x - m) * exp (-2 * l) + dl * (exp (-2 * l) * ((x - m) * (x - m)) - 1)))).
  { apply filter_forall_prod; try typeclasses eauto. intros [a b] x _. simpl. rewrite <- Sc. reflexivity. }
  replace 0 with (0 - 0) by ring.
  apply (is_RInt_gen_cdf _ F); try typeclasses eauto.
  - apply filter_forall_prod; try typeclasses eauto. intros ab x _. split.
    + unfold F. evar_last.
      * apply (is_derive_mult (fun x => - dm - dl * (x - m)) N); [auto_derive; [auto|reflexivity]|apply DN|intros; apply Rmult_comm].
      * unfold plus, mult; simpl. ring.
    + apply (continuous_mult N).
      * apply normal_continuous.
      * apply (ex_derive_continuous (fun x => dm * (x - m) * exp (-2 * l) + dl * (exp (-2 * l) * ((x - m) * (x - m)) - 1))). auto_derive. auto.
  - pose proof sqrt2_pos as S. pose proof sqrt_pi_pos as Sp. pose proof (exp_pos l) as El.
    apply (filterlim_ext (fun x => (fun y => ((- dm / (sqrt PI * (exp l * sqrt 2))) + (- dl / sqrt PI) * y) * g y) ((x - m) / (exp l * sqrt 2)))).
    { intros x. unfold F, N. rewrite normal_density. field. lra. }
    eapply (filterlim_comp _ _ _ (fun x => (x - m) / (exp l * sqrt 2)) (fun y => ((- dm / (sqrt PI * (exp l * sqrt 2))) + (- dl / sqrt PI) * y) * g y)); [apply standardise_m; nra|apply poly_g_vanishes].
  - pose proof sqrt2_pos as S. pose proof sqrt_pi_pos as Sp. pose proof (exp_pos l) as El.
    apply (filterlim_ext (fun x => (fun y => ((- dm / (sqrt PI * (exp l * sqrt 2))) + (- dl / sqrt PI) * y) * g y) ((x - m) / (exp l * sqrt 2)))).
    { intros x. unfold F, N. rewrite normal_density. field. lra. }
    eapply (filterlim_comp _ _ _ (fun x => (x - m) / (exp l * sqrt 2)) (fun y => ((- dm / (sqrt PI * (exp l * sqrt 2))) + (- dl / sqrt PI) * y) * g y)); [apply standardise_p; nra|apply poly_g_vanishes].
Qed.
End Gradients.

(** The two normal densities by forward substitution are the densities of C21. *)
Theorem C47_mvn_density n mean L z : cholesky_factor n L ->
  mvn_formula n mean L (map (fun r => mean r + rsum n (fun k => L r k * z k)) (seq 0 n)) = mvn_reference n L z.
Proof.
  intros C. unfold mvn_formula, mvn_reference.
  rewrite (fsub_factor n L _ z C).
  - rewrite map_map, sumR_map_seq. unfold square. field.
  - intros r Hr. rewrite (nth_map_seq (fun r => mean r + rsum n (fun k => L r k * z k))) by assumption. lra.
Qed.
Theorem C47_mvmn_density nr nc mean U V Z : cholesky_factor nr U -> cholesky_factor nc V ->
  mvmn_formula nr nc mean U V
    (map (fun i => mean (i / nc)%nat (i mod nc)%nat +
            rsum nc (fun q => rsum nr (fun p => U (i / nc)%nat p * Z p q) * V (i mod nc)%nat q)) (seq 0 (nr * nc)))
  = mvmn_reference nr nc U V Z.
Proof.
  intros CU CV. unfold mvmn_formula, mvmn_reference. cbv zeta.
  set (given := map _ (seq 0 (nr * nc))).
  assert (Gv : forall r c, (r < nr)%nat -> (c < nc)%nat -> nth (r * nc + c) given 0 - mean r c =
               rsum nr (fun p => U r p * rsum nc (fun q => Z p q * V c q))).
  { intros r c Hr Hc. unfold given. rewrite nth_map_seq by nia.
    replace ((r * nc + c) / nc)%nat with r by (symmetry; rewrite Nat.div_add_l by lia; rewrite Nat.div_small; lia).
    replace ((r * nc + c) mod nc)%nat with c
      by (symmetry; rewrite Nat.add_comm, Nat.mod_add by lia; now apply Nat.mod_small).
    transitivity (rsum nc (fun q => rsum nr (fun p => U r p * (Z p q * V c q)))).
    - unfold Rminus. rewrite Rplus_comm, <- Rplus_assoc, Rplus_opp_l, Rplus_0_l.
      apply rsum_ext. intros q Hq. rewrite Rmult_comm, <- rsum_scal. apply rsum_ext. intros; lra.
    - rewrite rsum_swap. apply rsum_ext. intros p Hp. now rewrite rsum_scal. }
  assert (X : forall c, (c < nc)%nat -> fsub U (fun r => nth (r * nc + c) given 0 - mean r c) nr =
              map (fun p => rsum nc (fun q => Z p q * V c q)) (seq 0 nr)).
  { intros c Hc. apply fsub_factor; [assumption|]. intros r Hr. now apply Gv. }
  assert (Y : forall r, (r < nr)%nat ->
    fsub V (fun c => nth r (fsub U (fun r => nth (r * nc + c) given 0 - mean r c) nr) 0) nc = map (fun q => Z r q) (seq 0 nc)).
  { intros r Hr. apply fsub_factor; [assumption|]. intros c Hc. rewrite X by assumption. rewrite nth_map_seq by assumption.
    apply rsum_ext. intros; lra. }
  match goal with |- _ - 1 / 2 * ?q = _ =>
    replace q with (rsum nc (fun c => rsum nr (fun r => Z r c * Z r c))) end.
  - rewrite (rsum_swap nc nr (fun c r => Z r c * Z r c)). field.
  - apply rsum_ext. intros c Hc. apply rsum_ext. intros r Hr. rewrite Y by assumption. rewrite nth_map_seq by assumption. reflexivity.
Qed.
Print Assumptions C47_values.
Print Assumptions C47_blocked.
Print Assumptions C47_reparameterized.
Print Assumptions C47_full_gradient.
Print Assumptions C47_path_gradient.
Print Assumptions C47_path_drops_score.
Print Assumptions C47_gamma_sample_gradient.
Print Assumptions C47_not_reparameterized_refuted.
Print Assumptions C47_path_ignored.
Print Assumptions C47_path_everywhere_refuted.
Print Assumptions C47_normal_score_mean_zero.
Print Assumptions C47_mvn_density.
Print Assumptions C47_mvmn_density.

(** The normal family takes the standard deviation or its logarithm, not both and not
    neither; the other one is computed from it, and moves with it as it should. *)
Theorem C47_std_logstd std logstd lg dg dr ddr e de :
  match std_of std logstd with
  | Some (a, b) =>
      (forall s, std = Some s -> logstd = None /\
         value lg dr e a = value lg dr e s /\ value lg dr e b = ln (value lg dr e s) /\
         grad lg dg dr ddr e de a = grad lg dg dr ddr e de s /\
         grad lg dg dr ddr e de b = grad lg dg dr ddr e de s / value lg dr e s) /\
      (forall l, logstd = Some l -> std = None /\
         value lg dr e b = value lg dr e l /\ value lg dr e a = exp (value lg dr e l) /\
         grad lg dg dr ddr e de b = grad lg dg dr ddr e de l /\
         grad lg dg dr ddr e de a = grad lg dg dr ddr e de l * exp (value lg dr e l))
  | None => (std = None <-> logstd = None)
  end.
Proof.
  destruct std as [s|], logstd as [l|]; simpl.
  - split; discriminate.
  - split; [intros ? [= <-]; repeat split; reflexivity|discriminate].
  - split; [discriminate|intros ? [= <-]; repeat split; reflexivity].
  - split; reflexivity.
Qed.
(** So both ways of giving it make the same density and the same gradients. *)
Theorem C47_std_logstd_agree s l b lg dg dr ddr e de : 0 < value lg dr e s ->
  value lg dr e l = ln (value lg dr e s) ->
  grad lg dg dr ddr e de l = grad lg dg dr ddr e de s / value lg dr e s ->
  std_of (Some s) None = Some b -> forall b', std_of None (Some l) = Some b' ->
  value lg dr e (fst b) = value lg dr e (fst b') /\ value lg dr e (snd b) = value lg dr e (snd b') /\
  grad lg dg dr ddr e de (fst b) = grad lg dg dr ddr e de (fst b') /\
  grad lg dg dr ddr e de (snd b) = grad lg dg dr ddr e de (snd b').
Proof.
  intros P V G [= <-] b' [= <-]. simpl. rewrite V, exp_ln, G by assumption. repeat split. field. lra.
Qed.
Print Assumptions C47_std_logstd.
Print Assumptions C47_std_logstd_agree.

(** Hypotheses are satisfiable: a Normal whose mean and log standard deviation are two
    inputs, both moving, evaluated at its own reparameterised sample. The full
    gradient in the log standard deviation is -1 whatever was drawn, the path gradient
    is minus the square of the draw. *)
Definition own (b : bool) : gdist := GDist (GNormal (Var 0) (Ex (Var 1)) (Var 1)) true b.
Example C47_normal_new :
  option_map (fun p => GNormal (Var 0) (fst p) (snd p)) (std_of None (Some (Var 1))) = Some (g_class (own true)) /\
  gnew (GNormal (Var 0) (Ex (Var 1)) (Var 1)) None (Some true) = Some (own true).
Proof. split; reflexivity. Qed.
Example C47_own_sample lg dg dr ddr pois z e :
  let de k := if Nat.eqb k 1 then 1 else 0 in
  grad lg dg dr ddr e de (g_log_prob (own false) (g_sample pois (own false) z)) = -1 /\
  grad lg dg dr ddr e de (g_log_prob (own true) (g_sample pois (own true) z)) = - (z 0%nat * z 0%nat).
Proof.
  assert (E : exp (-2 * e 1%nat) * (exp (e 1%nat) * exp (e 1%nat)) = 1).
  { rewrite <- !exp_plus. rewrite <- exp_0. f_equal. ring. }
  unfold g_log_prob, g_sample, path_param, block, own, square. simpl. unfold square. split.
  - replace (-1) with (- exp (-2 * e 1%nat) * (exp (e 1%nat) * exp (e 1%nat))) by lra. 
    replace (-1) with (- (exp (-2 * e 1%nat) * (exp (e 1%nat) * exp (e 1%nat)))) by lra. field_simplify. nra.
  - replace (- (z 0%nat * z 0%nat)) with (- (z 0%nat * z 0%nat) * (exp (-2 * e 1%nat) * (exp (e 1%nat) * exp (e 1%nat)))) by (rewrite E; ring).
    field.
Qed.
Example C47_hypotheses :
  let c := GConcrete (Var 2) [Var 0; Var 1] in
  let motion s k := if Nat.eqb k 2 then 1/2 else s + INR k in
  moves motion 0 (fun k => if Nat.eqb k 2 then 0 else 1) /\
  takes_reparam c = true /\ documents_path c = true /\
  (forall lg dg dr ddr m, parameters c m -> regular lg dg dr ddr (motion 0) m) /\
  (forall lg dr, sampler_differentiable (value lg dr (motion 0)) c /\
     differentiable_at (value lg dr (motion 0)) c [1/3; 2/3]).
Proof.
  cbv zeta. split; [|split; [reflexivity|split; [reflexivity|split]]].
  - intros k. destruct (Nat.eqb k 2); auto_derive; auto; lra.
  - intros lg dg dr ddr m [->|[<-|[<-|[]]]]; exact Logic.I.
  - intros lg dr. split; simpl; [lra|]. split; [lra|]. split; [discriminate|]. repeat constructor; lra.
Qed.
