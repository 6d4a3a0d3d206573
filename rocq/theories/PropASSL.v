(** C85: the unlabeled terms of the semi-supervised example with an adapted proposal. *)
From Coq Require Import List Arith Bool Reals Lra Lia.
From Coquelicot Require Import Coquelicot.
From Verif Require Import SpecDist ModelVI SpecVI ProofDiscrete ProofVI PropELBO PropIW ModelASSL.
Import ListNotations.
Local Open Scope R_scope.

Lemma lme_shift (l : list dual) c : l <> [] ->
  log_mean_exp (map (fun x => dadd x c) l) = dadd (log_mean_exp l) c.
Proof.
  intros N. pose proof (total_exp_pos val l N) as P. pose proof (len_pos l N) as HN.
  assert (ES : total (fun x => exp (val (dadd x c))) l = total (fun x => exp (val x)) l * exp (val c)).
  { rewrite <- total_scal_r. apply total_ext. intros x _. cbn [val dadd]. now rewrite exp_plus. }
  pose proof (exp_pos (val c)) as Pc.
  pose proof (val_lme (fun x : dual => x) l N) as V0. pose proof (tan_lme (fun x : dual => x) l N) as T0. rewrite map_id in V0, T0.
  apply dual_eq.
  - rewrite val_lme, ES by exact N. cbn [val dadd]. rewrite V0.
    replace (total (fun x => exp (val x)) l * exp (val c) / INR (length l)) with (total (fun x => exp (val x)) l / INR (length l) * exp (val c)) by (field; lra).
    rewrite ln_mult, ln_exp; [reflexivity|now apply Rdiv_lt_0_compat|exact Pc].
  - rewrite tan_lme, ES by exact N. cbn [tan dadd]. rewrite T0.
    rewrite (total_ext _ (fun x => (tan x * exp (val x) + exp (val x) * tan c) * exp (val c))).
    2:{ intros x _. cbn [val dadd]. rewrite exp_plus. ring. }
    rewrite total_scal_r, total_plus, total_scal_r. field. lra.
Qed.

(** One label is drawn for all the particles of an image. The bound is therefore the bound of the
    labeled case at that label minus log q(y), and so is the cost of the proposal. *)
Theorem C85_one_label : forall log_joint log_qy log_qz, log_joint <> [] -> length log_joint = length log_qz ->
  exists b c, labeled_lower_bound log_joint log_qz = Some b /\ labeled_q_cost log_joint log_qz = Some [c] /\
    unlabeled_bound_is log_joint log_qy log_qz = Some (dsub b log_qy) /\
    unlabeled_q_cost log_joint log_qy log_qz = Some [dsub c log_qy].
Proof.
  intros lj qy lqz N L.
  assert (exists ps, ps <> [] /\ lj = map fst ps /\ lqz = map snd ps) as (ps & Np & -> & ->).
  { exists (combine lj lqz). split; [|split].
    - destruct lj, lqz; discriminate || contradiction.
    - clear N. revert lqz L. induction lj as [|a l IH]; intros [|b m] L; try discriminate; [reflexivity|]. cbn. f_equal. apply IH. now injection L.
    - clear N. revert lqz L. induction lj as [|a l IH]; intros [|b m] L; try discriminate; [reflexivity|]. cbn. f_equal. apply IH. now injection L. }
  clear N L. set (w := fun p : dual * dual => dadd (fst p) (dneg (dadd (dconst 0) (snd p)))).
  assert (El : entropy_term (labeled_latent (map snd ps)) = Some (map (fun p => dneg (dadd (dconst 0) (snd p))) ps)).
  { unfold entropy_term, labeled_latent. cbn [fold_left]. now rewrite !map_map. }
  assert (Eu : entropy_term (unlabeled_latent qy (map snd ps)) = Some (map (fun p => dneg (dadd (dadd (dconst 0) qy) (snd p))) ps)).
  { unfold entropy_term, unlabeled_latent. cbn [fold_left]. now rewrite !map_map, zip_with_map, map_map. }
  assert (W : map (fun p => dadd (fst p) (dneg (dadd (dadd (dconst 0) qy) (snd p)))) ps = map (fun x => dadd x (dneg qy)) (map w ps)).
  { rewrite map_map. apply map_ext. intros p. unfold w. apply dual_eq; cbn [val tan dadd dneg dconst]; ring. }
  assert (Nw : map w ps <> []) by (destruct ps; [contradiction|discriminate]).
  do 2 eexists. split; [|split; [|split]].
  - unfold labeled_lower_bound, iw_objective. rewrite El, zip_with_map. reflexivity.
  - unfold labeled_q_cost, klpq_importance. rewrite El, zip_with_map. reflexivity.
  - unfold unlabeled_bound_is, iw_objective. rewrite Eu, zip_with_map, W, lme_shift by exact Nw. reflexivity.
  - unfold unlabeled_q_cost, klpq_importance. rewrite Eu, zip_with_map, W, C37_shift_invariant. do 2 f_equal. fold w.
    rewrite weights_eq, map_map, !zip_with_map. pose proof (total_exp_pos val (map w ps) Nw) as P.
    set (T := total (fun y => exp (val y)) (map w ps)) in *.
    assert (S1 : total (fun p => exp (val (w p)) / T) ps = 1).
    { unfold Rdiv. rewrite total_scal_r. replace (total (fun p => exp (val (w p))) ps) with T by (unfold T; now rewrite total_map). field. lra. }
    apply dual_eq.
    + cbn [val dsub]. rewrite !val_dsum. cbn [val dmul dneg dadd dconst].
      rewrite (total_ext _ (fun p => exp (val (w p)) / T * - (0 + val (snd p)) - exp (val (w p)) / T * val qy)) by (intros; ring).
      rewrite total_minus, total_scal_r, S1. ring.
    + cbn [tan dsub]. rewrite !tan_dsum. cbn [val tan dmul dneg dadd dconst].
      rewrite (total_ext _ (fun p => (0 * - (0 + val (snd p)) + exp (val (w p)) / T * - (0 + tan (snd p))) - exp (val (w p)) / T * tan qy)) by (intros; ring).
      rewrite total_minus, total_scal_r, S1. ring.
Qed.
Print Assumptions C85_one_label.
Example C85_one_label_case : exists b, unlabeled_bound_is [Dual (-3) 1; Dual (-5) 2] (Dual (-1) 4) [Dual (-2) 0; Dual (-1) 1] = Some (dsub b (Dual (-1) 4)).
Proof.
  destruct (C85_one_label [Dual (-3) 1; Dual (-5) 2] (Dual (-1) 4) [Dual (-2) 0; Dual (-1) 1] ltac:(discriminate) eq_refl) as (b & _ & _ & _ & H & _).
  now exists b.
Qed.

Section Images.
Context {Y Z : Type} (Ys : list Y) (Zs : list Z) (p : Y -> Z -> R) (qy : Y -> R) (qz : Y -> Z -> R).
(** Every label and every latent value is possible, under the model and the proposal. *)
Definition proposal_for : Prop :=
  distribution qy Ys /\ (forall y, In y Ys -> distribution (qz y) Zs) /\
  (forall y, In y Ys -> 0 < qy y) /\ (forall y z, In y Ys -> In z Zs -> 0 < qz y z) /\
  (forall y z, In y Ys -> In z Zs -> 0 < p y z).
(** p(x, y) *)
Definition with_label (y : Y) : R := evidence (p y) Zs.
(** The mean over the label and [K] particles drawn by the proposal. *)
Definition mean_over_draws (K : nat) (f : Y -> list Z -> R) : R := expect qy Ys (fun y => expects (qz y) Zs K (f y)).
(** The numbers the objective is given are the log densities. *)
Definition log_densities (lj : Y -> Z -> dual) (lqy : Y -> dual) (lqz : Y -> Z -> dual) : Prop :=
  forall y z, In y Ys -> In z Zs -> val (lj y z) = ln (p y z) /\ val (lqy y) = ln (qy y) /\ val (lqz y z) = ln (qz y z).

Lemma as_tensor (f : Y -> Z -> dual) y zs : map (f y) zs = tensor_of 0 (Quantity (fun _ z => val (f y z)) (fun z => tan (f y z))) zs.
Proof. unfold tensor_of. apply map_ext. intros z. cbn. now destruct (f y z). Qed.

(** However many particles are used, the mean of the bound stays below log p(x) by at least the
    divergence of q(y|x) from p(y|x), which is positive unless they agree on every label. *)
Theorem C85_ceiling : forall lj lqy lqz K u, proposal_for -> log_densities lj lqy lqz -> (1 <= K)%nat ->
  (forall y zs, In y Ys -> length zs = K -> unlabeled_bound_is (map (lj y) zs) (lqy y) (map (lqz y) zs) = Some (u y zs)) ->
  mean_over_draws K (fun y zs => val (u y zs)) <= ln (evidence with_label Ys) - kl qy (posterior with_label Ys) Ys /\
  0 <= kl qy (posterior with_label Ys) Ys /\
  ((exists y, In y Ys /\ qy y <> posterior with_label Ys y) ->
    mean_over_draws K (fun y zs => val (u y zs)) < ln (evidence with_label Ys)).
Proof.
  intros lj lqy lqz K u (Dy & Dz & Py & Pz & Pp) LD HK U.
  assert (NZ : forall y, In y Ys -> Zs <> []).
  { intros y Hy E. destruct (Dz y Hy) as [_ T]. rewrite E in T. cbn in T. lra. }
  assert (PW : forall y, In y Ys -> 0 < with_label y).
  { intros y Hy. unfold with_label, evidence. apply total_pos; [now apply (NZ y)|]. intros z Hz. now apply Pp. }
  assert (NY : Ys <> []) by (intros E; destruct Dy as [_ T]; rewrite E in T; cbn in T; lra).
  assert (PE : 0 < evidence with_label Ys) by (unfold evidence at 1; apply total_pos; [exact NY|exact PW]).
  assert (PP : forall y, In y Ys -> 0 < posterior with_label Ys y) by (intros y Hy; now apply Rdiv_lt_0_compat; [apply PW|]).
  assert (SP : total (posterior with_label Ys) Ys = 1).
  { unfold posterior, Rdiv. rewrite total_scal_r. fold (evidence with_label Ys). field. lra. }
  assert (B : mean_over_draws K (fun y zs => val (u y zs)) <= ln (evidence with_label Ys) - kl qy (posterior with_label Ys) Ys).
  { replace (ln (evidence with_label Ys) - kl qy (posterior with_label Ys) Ys) with (expect qy Ys (fun y => ln (with_label y) - ln (qy y))).
    2:{ unfold kl. rewrite <- (expect_const qy Ys Dy (ln (evidence with_label Ys))). unfold expect. rewrite <- total_minus.
        apply total_ext. intros y Hy. pose proof (Py y Hy). pose proof (PW y Hy). pose proof (PP y Hy).
        unfold posterior in *. unfold Rdiv in *. rewrite ln_mult, ln_Rinv, ln_mult, ln_Rinv by (auto; try (apply Rinv_0_lt_compat; auto)). ring. }
    unfold mean_over_draws. apply expect_le; [exact Dy|]. intros y Hy _.
    assert (Nn : forall zs : list Z, length zs = K -> zs <> []) by (intros zs E ->; cbn in E; lia).
    assert (Q : forall zs, length zs = K -> exists b, labeled_lower_bound (map (lj y) zs) (map (lqz y) zs) = Some b /\ val (u y zs) = val b - val (lqy y)).
    { intros zs E. destruct (C85_one_label (map (lj y) zs) (lqy y) (map (lqz y) zs)) as (b & c & E1 & _ & E3 & _).
      - intros F. apply (Nn zs E). now apply map_eq_nil in F.
      - now rewrite !map_length.
      - exists b. split; [exact E1|]. rewrite (U y zs Hy E) in E3. injection E3 as ->. reflexivity. }
    set (v := fun zs => match labeled_lower_bound (map (lj y) zs) (map (lqz y) zs) with Some b => b | None => dconst 0 end).
    assert (V : forall zs, length zs = K -> labeled_lower_bound (map (lj y) zs) (map (lqz y) zs) = Some (v zs)).
    { intros zs E. destruct (Q zs E) as (b & H & _). unfold v. now rewrite H. }
    rewrite (expects_ext (qz y) Zs K _ (fun zs => val (v zs) - val (lqy y))).
    2:{ intros zs [E _]. destruct (Q zs E) as (b & H & ->). unfold v. now rewrite H. }
    rewrite expects_minus, (expects_const (qz y) Zs (Dz y Hy)).
    destruct Zs as [|z0 Zs'] eqn:EZ; [now destruct (NZ y Hy)|]. rewrite <- EZ in *.
    destruct (LD y z0 Hy ltac:(rewrite EZ; now left)) as (_ & -> & _).
    apply Rplus_le_compat_r. unfold with_label.
    apply (C35_lower_bound Zs (qz y) (Quantity (fun _ z => val (lj y z)) (fun z => tan (lj y z))) [Quantity (fun _ z => val (lqz y z)) (fun z => tan (lqz y z))] 0 (p y) K v).
    - now apply Dz.
    - split; [discriminate|]. intros z Hz _. unfold log_q. cbn. destruct (LD y z Hy Hz) as (_ & _ & ->). ring.
    - intros z Hz. split; [now apply Pp|]. cbn. now destruct (LD y z Hy Hz) as (-> & _).
    - exact HK.
    - intros zs E. rewrite <- (V zs E). unfold labeled_lower_bound, labeled_latent, entropy_of. cbn [map]. now rewrite !as_tensor. }
  split; [exact B|]. split; [now apply kl_nonneg|]. intros (y & Hy & Ne).
  assert (0 < kl qy (posterior with_label Ys) Ys); [|lra].
  destruct (Rle_lt_or_eq_dec 0 _ (kl_nonneg qy (posterior with_label Ys) Ys Dy PP SP)) as [H|H]; [exact H|].
  symmetry in H. apply (kl_zero qy (posterior with_label Ys) Ys Dy PP SP) with (z := y) in H; [now destruct Ne|exact Hy].
Qed.

(** The ceiling is reached, with any number of particles, when q(z|x,y) is p(z|x,y). *)
Theorem C85_reached : forall lj lqy lqz K u, proposal_for -> log_densities lj lqy lqz -> (1 <= K)%nat ->
  (forall y zs, In y Ys -> length zs = K -> unlabeled_bound_is (map (lj y) zs) (lqy y) (map (lqz y) zs) = Some (u y zs)) ->
  (forall y z, In y Ys -> In z Zs -> qz y z = posterior (p y) Zs z) ->
  mean_over_draws K (fun y zs => val (u y zs)) = ln (evidence with_label Ys) - kl qy (posterior with_label Ys) Ys.
Proof.
  intros lj lqy lqz K u (Dy & Dz & Py & Pz & Pp) LD HK U EX.
  assert (NZ : forall y, In y Ys -> Zs <> []).
  { intros y Hy E. destruct (Dz y Hy) as [_ T]. rewrite E in T. cbn in T. lra. }
  assert (PW : forall y, In y Ys -> 0 < with_label y).
  { intros y Hy. unfold with_label, evidence. apply total_pos; [now apply (NZ y)|]. intros z Hz. now apply Pp. }
  assert (NY : Ys <> []) by (intros E; destruct Dy as [_ T]; rewrite E in T; cbn in T; lra).
  assert (PE : 0 < evidence with_label Ys) by (unfold evidence at 1; apply total_pos; [exact NY|exact PW]).
  replace (ln (evidence with_label Ys) - kl qy (posterior with_label Ys) Ys) with (expect qy Ys (fun y => ln (with_label y) - ln (qy y))).
  2:{ unfold kl. rewrite <- (expect_const qy Ys Dy (ln (evidence with_label Ys))). unfold expect. rewrite <- total_minus.
      apply total_ext. intros y Hy. pose proof (Py y Hy). pose proof (PW y Hy).
      assert (0 < posterior with_label Ys y) by (now apply Rdiv_lt_0_compat).
      unfold posterior in *. unfold Rdiv in *. rewrite ln_mult, ln_Rinv, ln_mult, ln_Rinv by (auto; try (apply Rinv_0_lt_compat; auto)). ring. }
  unfold mean_over_draws. apply expect_ext. intros y Hy.
  rewrite (expects_ext (qz y) Zs K _ (fun _ => ln (with_label y) - ln (qy y))); [apply expects_const; auto|].
  intros zs [E F]. rewrite List.Forall_forall in F.
  assert (Nn : zs <> []) by (intros ->; cbn in E; lia).
  destruct (C85_one_label (map (lj y) zs) (lqy y) (map (lqz y) zs)) as (b & c & E1 & _ & E3 & _).
  { intros G. apply map_eq_nil in G. contradiction. }
  { now rewrite !map_length. }
  rewrite (U y zs Hy E) in E3. injection E3 as ->. cbn [val dsub].
  assert (Hz0 : exists z, In z zs) by (destruct zs as [|z zs]; [contradiction|exists z; now left]). destruct Hz0 as (z0 & Hz0).
  destruct (LD y z0 Hy (F z0 Hz0)) as (_ & -> & _). f_equal.
  unfold labeled_lower_bound, labeled_latent in E1.
  change (entropy_term [map (lqz y) zs]) with (entropy_term [map (lqz y) zs]) in E1. rewrite !as_tensor in E1.
  change (entropy_term [tensor_of 0 (Quantity (fun _ z => val (lqz y z)) (fun z => tan (lqz y z))) zs])
    with (entropy_of 0 [Quantity (fun _ z => val (lqz y z)) (fun z => tan (lqz y z))] zs) in E1.
  rewrite iw_eq in E1 by discriminate. injection E1 as <-. rewrite val_weighted by exact Nn.
  rewrite lme_form. rewrite (total_ext _ (fun _ => with_label y)).
  - rewrite total_const. f_equal. pose proof (len_pos zs Nn). field. lra.
  - intros z Hz. specialize (F z Hz). unfold log_weight, log_q. cbn. destruct (LD y z Hy F) as (-> & _ & ->).
    pose proof (Pp y z Hy F). pose proof (Pz y z Hy F) as Q. pose proof (PW y Hy).
    rewrite Rplus_0_r. unfold Rminus. rewrite exp_plus, exp_Ropp, !exp_ln by auto.
    rewrite (EX y z Hy F). unfold posterior. fold (with_label y). field. lra.
Qed.

End Images.
Print Assumptions C85_ceiling.
Print Assumptions C85_reached.

(** Two labels and two latent values: log p(x) is 0, the proposal of z is exact, and q(y|x) is
    uniform while p(y|x) is (3/4, 1/4). Drawing one label, the mean of the bound is the same negative
    number for every number of particles: it does not approach log p(x). *)
Theorem C85_gap_refuted :
  let Bs := [true; false] in
  let p := fun (y : bool) (_ : bool) => if y then 3 / 8 else 1 / 8 in
  let half := fun _ : bool => 1 / 2 in
  let u := fun (y : bool) (zs : list bool) =>
    unlabeled_bound_is (map (fun z => Dual (ln (p y z)) 0) zs) (Dual (ln (half y)) 0) (map (fun z => Dual (ln (half z)) 0) zs) in
  ln (evidence (with_label Bs p) Bs) = 0 /\
  forall K, (1 <= K)%nat -> exists v, (forall y zs, length zs = K -> u y zs = Some (v y zs)) /\
    mean_over_draws Bs Bs half (fun _ => half) K (fun y zs => val (v y zs)) = - (ln (4 / 3) / 2) /\ - (ln (4 / 3) / 2) < 0.
Proof.
  intros Bs p half u.
  assert (W : forall y, with_label Bs p y = if y then 3 / 4 else 1 / 4).
  { intros y. unfold with_label, evidence, Bs, p. cbn. destruct y; field. }
  assert (E1 : evidence (with_label Bs p) Bs = 1).
  { unfold evidence at 1. unfold Bs at 2. cbn [total]. rewrite !W. field. }
  split; [rewrite E1; apply ln_1|]. intros K HK.
  set (v := fun y zs => match u y zs with Some b => b | None => dconst 0 end).
  assert (V : forall y zs, length zs = K -> u y zs = Some (v y zs)).
  { intros y zs E. destruct (C85_one_label (map (fun z => Dual (ln (p y z)) 0) zs) (Dual (ln (half y)) 0) (map (fun z => Dual (ln (half z)) 0) zs)) as (b & _ & _ & _ & H & _).
    - intros F. apply map_eq_nil in F. subst zs. cbn in E. lia.
    - now rewrite !map_length.
    - unfold v. fold (u y zs) in H. now rewrite H. }
  assert (DH : distribution half Bs) by (split; [intros; unfold half; lra|unfold Bs, half; cbn; lra]).
  exists v. split; [exact V|]. split.
  - rewrite (C85_reached Bs Bs p half (fun _ => half) (fun y z => Dual (ln (p y z)) 0) (fun y => Dual (ln (half y)) 0) (fun _ z => Dual (ln (half z)) 0) K v).
    + rewrite E1, ln_1. unfold kl, expect, posterior. rewrite E1.
      rewrite (total_ext _ (fun y : bool => 1 / 2 * ln (1 / 2 / ((if y then 3 / 4 else 1 / 4) / 1)))) by (intros y _; now rewrite W).
      unfold Bs. cbn [total].
      replace (1 / 2 / (3 / 4 / 1)) with (2 / 3) by field. replace (1 / 2 / (1 / 4 / 1)) with 2 by field.
      replace (4 / 3) with (2 / 3 * 2) by field. rewrite ln_mult by lra. field.
    + split; [exact DH|]. split; [intros; exact DH|]. split; [intros; unfold half; lra|]. split; [intros; unfold half; lra|].
      intros y z _ _. unfold p. destruct y; lra.
    + intros y z _ _. cbn. easy.
    + exact HK.
    + intros y zs _ E. exact (V y zs E).
    + intros y z _ _. unfold posterior. fold (with_label Bs p y). rewrite W. unfold half, p. destruct y; field.
  - assert (0 < ln (4 / 3)) by (rewrite <- ln_1; apply ln_increasing; lra). lra.
Qed.
Print Assumptions C85_gap_refuted.

(** A parameter of q(y|x) alone gets, from the cost of an unlabeled image, minus the score of the
    label that was drawn: nothing of the model enters, and the mean is zero. *)
Theorem C85_classifier_refuted : forall {Y Z} (Ys : list Y) (Zs : list Z) qy lqy (qz : Y -> Z -> R) theta (lj lqz : Y -> Z -> dual) K c,
  family Ys qy [lqy] theta -> (forall y, In y Ys -> distribution (qz y) Zs) -> (1 <= K)%nat ->
  (forall y z, tan (lqz y z) = 0) ->
  (forall y zs, In y Ys -> length zs = K ->
    unlabeled_q_cost (map (lj y) zs) (Dual (at_param lqy theta y) (partial lqy y)) (map (lqz y) zs) = Some [c y zs]) ->
  (forall y zs, In y Ys -> length zs = K -> tan (c y zs) = - partial lqy y) /\
  expect (qy theta) Ys (fun y => expects (qz y) Zs K (fun zs => tan (c y zs))) = 0.
Proof.
  intros Y Z Ys Zs qy lqy qz theta lj lqz K c [P S Lq Dq] Dz HK T C.
  assert (G : forall y zs, In y Ys -> length zs = K -> tan (c y zs) = - partial lqy y).
  { intros y zs Hy E. assert (Nn : zs <> []) by (intros ->; cbn in E; lia).
    destruct (C85_one_label (map (lj y) zs) (Dual (at_param lqy theta y) (partial lqy y)) (map (lqz y) zs)) as (b & d & _ & E2 & _ & E4).
    { intros F. apply map_eq_nil in F. contradiction. }
    { now rewrite !map_length. }
    rewrite (C y zs Hy E) in E4. injection E4 as ->. cbn [tan dsub].
    assert (tan d = 0); [|lra].
    unfold labeled_q_cost, labeled_latent in E2. rewrite !as_tensor in E2.
    destruct (C37_gradient 0 (Quantity (fun _ z => val (lj y z)) (fun z => tan (lj y z))) [Quantity (fun _ z => val (lqz y z)) (fun z => tan (lqz y z))] zs ltac:(discriminate) Nn) as (d' & H1 & H2 & _).
    unfold entropy_of in H1. cbn [map] in H1. rewrite E2 in H1. injection H1 as <-. rewrite H2.
    rewrite (total_zero (fun z => exp _ * score _ z)); [unfold Rdiv; ring|].
    intros z _. unfold score. cbn [total partial]. rewrite T. ring. }
  split; [exact G|].
  assert (Z0 : expect (qy theta) Ys (score [lqy]) = 0) by (apply (score_mean_zero Ys qy [lqy] theta P S Lq Dq)).
  replace 0 with (-1 * expect (qy theta) Ys (score [lqy])) by (rewrite Z0; ring). rewrite <- expect_scal. apply expect_ext.
  intros y Hy. rewrite (expects_ext (qz y) Zs K _ (fun _ => - partial lqy y)).
  - rewrite expects_const by auto. unfold score. cbn. ring.
  - intros zs [E _]. now apply G.
Qed.
Print Assumptions C85_classifier_refuted.
Example C85_classifier_case : expect (coin 0) [true; false] (fun y => expects (fun _ : bool => 1 / 2) [true; false] 2 (fun zs => - partial coin_lq y)) = 0.
Proof.
  set (c := fun y (zs : list bool) => match unlabeled_q_cost (map (fun z : bool => Dual (if z then 1 else 3) 5) zs) (Dual (at_param coin_lq 0 y) (partial coin_lq y)) (map (fun _ => Dual (ln (1 / 2)) 0) zs) with
    | Some [d] => d | _ => dconst 0 end).
  destruct (C85_classifier_refuted [true; false] [true; false] coin coin_lq (fun _ _ => 1 / 2) 0 (fun _ z => Dual (if z then 1 else 3) 5) (fun _ _ => Dual (ln (1 / 2)) 0) 2 c coin_family) as [G E].
  - intros y _. split; [intros; lra|cbn; lra].
  - lia.
  - easy.
  - intros y zs _ L. unfold c. unfold unlabeled_q_cost, klpq_importance, unlabeled_latent, entropy_term. reflexivity.
  - refine (eq_trans _ E). apply expect_ext. intros y Hy. apply expects_ext. intros zs [L _]. symmetry. now apply G.
Qed.
