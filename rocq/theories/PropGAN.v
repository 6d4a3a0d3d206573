(** C82: the adversarial examples (examples/generative_adversarial_nets). *)
From Coq Require Import List Reals Lra Lia.
From Verif Require Import SpecDist SpecVI SpecExamples SpecGAN ModelDist ModelExamples ModelTrain ModelGAN ProofDiscrete ProofVI ProofExamples PropTowers.
Import ListNotations.
Local Open Scope R_scope.

(** ** Losses of dcgan.py *)
Lemma real_probability_range l : 0 < real_probability l < 1.
Proof.
  unfold real_probability. pose proof (exp_pos l). split.
  - apply Rmult_lt_0_compat; [assumption|]. apply Rinv_0_lt_compat. lra.
  - apply (Rmult_lt_reg_r (1 + exp l)); [lra|]. unfold Rdiv. rewrite Rmult_assoc, Rinv_l by lra. lra.
Qed.
Lemma xent_one l : sigmoid_cross_entropy 1 l = - ln (real_probability l).
Proof.
  unfold sigmoid_cross_entropy, real_probability. pose proof (exp_pos l). pose proof (exp_pos (- l)).
  unfold Rdiv. rewrite ln_mult, ln_Rinv, ln_exp; try lra; [|apply Rinv_0_lt_compat; lra].
  unfold Rmax, Rabs. destruct (Rle_dec l 0), (Rcase_abs l); try lra.
  - rewrite Ropp_involutive. lra.
  - assert (l = 0) by lra. subst l. rewrite Ropp_0. lra.
  - assert (E : 1 + exp l = exp l * (1 + exp (- l))) by (rewrite exp_Ropp; field; lra).
    rewrite E, ln_mult, ln_exp by lra. lra.
Qed.
Lemma xent_zero l : sigmoid_cross_entropy 0 l = - ln (1 - real_probability l).
Proof.
  assert (E : sigmoid_cross_entropy 0 l = sigmoid_cross_entropy 1 l + l) by (unfold sigmoid_cross_entropy; lra).
  rewrite E, xent_one. unfold real_probability. pose proof (exp_pos l).
  replace (1 - exp l / (1 + exp l)) with (/ (1 + exp l)) by (field; lra).
  rewrite ln_Rinv by lra. unfold Rdiv. rewrite ln_mult, ln_Rinv, ln_exp; try lra. apply Rinv_0_lt_compat; lra.
Qed.
(** The losses are those of the original game (with the non-saturating generator loss), and
    positive for all logits. *)
Theorem C82_losses : forall real fake, real <> [] -> fake <> [] ->
  gen_loss fake = - mean_of (fun l => ln (real_probability l)) fake /\
  disc_loss real fake = - (mean_of (fun l => ln (real_probability l)) real + mean_of (fun l => ln (1 - real_probability l)) fake) / 2 /\
  0 < gen_loss fake /\ 0 < disc_loss real fake.
Proof.
  intros real fake Nr Nf.
  assert (A : forall l, reduce_mean (fun x => sigmoid_cross_entropy 1 x) l = - mean_of (fun x => ln (real_probability x)) l).
  { intros l. unfold reduce_mean, mean_of. rewrite (total_ext _ (fun x => - ln (real_probability x))) by (intros; apply xent_one).
    rewrite total_opp. unfold Rdiv. ring. }
  assert (B : forall l, reduce_mean (fun x => sigmoid_cross_entropy 0 x) l = - mean_of (fun x => ln (1 - real_probability x)) l).
  { intros l. unfold reduce_mean, mean_of. rewrite (total_ext _ (fun x => - ln (1 - real_probability x))) by (intros; apply xent_zero).
    rewrite total_opp. unfold Rdiv. ring. }
  assert (P : forall (f : R -> R) l, l <> [] -> (forall x, f x < 0) -> mean_of f l < 0).
  { intros f l N H. unfold mean_of. assert (0 < INR (length l)) by (apply lt_0_INR; destruct l; [contradiction|cbn; lia]).
    assert (0 < total (fun x => - f x) l) by (apply total_pos; [exact N|]; intros x _; pose proof (H x); lra).
    rewrite total_opp in *. assert (0 < / INR (length l)) by now apply Rinv_0_lt_compat. unfold Rdiv. nra. }
  assert (L1 : forall x, ln (real_probability x) < 0) by (intros x; destruct (real_probability_range x); rewrite <- ln_1; apply ln_increasing; lra).
  assert (L2 : forall x, ln (1 - real_probability x) < 0) by (intros x; destruct (real_probability_range x); rewrite <- ln_1; apply ln_increasing; lra).
  unfold gen_loss, disc_loss. rewrite !A, B.
  pose proof (P _ real Nr L1). pose proof (P _ fake Nf L1). pose proof (P _ fake Nf L2).
  repeat split; lra.
Qed.
Print Assumptions C82_losses.
Example C82_losses_case : gen_loss [0] = ln 2.
Proof.
  destruct (C82_losses [0] [0] ltac:(discriminate) ltac:(discriminate)) as [E _]. rewrite E.
  unfold mean_of, real_probability. cbn. rewrite exp_0. replace (1 / (1 + 1)) with (/ 2) by lra. rewrite ln_Rinv by lra. lra.
Qed.

Lemma ln_le_minus_1 x : 0 < x -> ln x <= x - 1.
Proof. intros H. pose proof (exp_ineq1_le (ln x)) as E. rewrite exp_ln in E by exact H. lra. Qed.
Lemma best_logit p q l : 0 < p -> 0 < q ->
  p * sigmoid_cross_entropy 1 (ln (p / q)) + q * sigmoid_cross_entropy 0 (ln (p / q))
  <= p * sigmoid_cross_entropy 1 l + q * sigmoid_cross_entropy 0 l.
Proof.
  intros P Q. rewrite !xent_one, !xent_zero.
  assert (E : real_probability (ln (p / q)) = p / (p + q)).
  { unfold real_probability. rewrite exp_ln by (apply Rmult_lt_0_compat; [assumption|now apply Rinv_0_lt_compat]). field. lra. }
  rewrite E. replace (1 - p / (p + q)) with (q / (p + q)) by (field; lra).
  destruct (real_probability_range l) as [D0 D1]. set (D := real_probability l) in *. clearbody D.
  assert (I : 0 < / (p + q)) by (apply Rinv_0_lt_compat; lra).
  assert (A : ln D - ln (p / (p + q)) <= D * (p + q) / p - 1).
  { assert (0 < p / (p + q)) by (now apply Rmult_lt_0_compat).
    assert (X : 0 < D * (p + q) / p) by (apply Rmult_lt_0_compat; [nra|now apply Rinv_0_lt_compat]).
    replace (ln D - ln (p / (p + q))) with (ln (D * (p + q) / p)); [now apply ln_le_minus_1|].
    replace (D * (p + q) / p) with (D * / (p / (p + q))) by (field; lra).
    rewrite ln_mult, ln_Rinv; try lra. now apply Rinv_0_lt_compat. }
  assert (B : ln (1 - D) - ln (q / (p + q)) <= (1 - D) * (p + q) / q - 1).
  { assert (0 < q / (p + q)) by (now apply Rmult_lt_0_compat).
    assert (X : 0 < (1 - D) * (p + q) / q) by (apply Rmult_lt_0_compat; [nra|now apply Rinv_0_lt_compat]).
    replace (ln (1 - D) - ln (q / (p + q))) with (ln ((1 - D) * (p + q) / q)); [now apply ln_le_minus_1|].
    replace ((1 - D) * (p + q) / q) with ((1 - D) * / (q / (p + q))) by (field; lra).
    rewrite ln_mult, ln_Rinv; try lra. now apply Rinv_0_lt_compat. }
  assert (A2 : p * (ln D - ln (p / (p + q))) <= p * (D * (p + q) / p - 1)) by (apply Rmult_le_compat_l; lra).
  assert (B2 : q * (ln (1 - D) - ln (q / (p + q))) <= q * ((1 - D) * (p + q) / q - 1)) by (apply Rmult_le_compat_l; lra).
  replace (p * (D * (p + q) / p - 1)) with (D * (p + q) - p) in A2 by (field; lra).
  replace (q * ((1 - D) * (p + q) / q - 1)) with ((1 - D) * (p + q) - q) in B2 by (field; lra). nra.
Qed.
(** Over a real image drawn with probabilities [p] and a generated one drawn with [q], no
    discriminator has a smaller expected loss than the log ratio of the two. *)
Theorem C82_optimal : forall {X} (images : list X) p q (d : X -> R),
  (forall x, In x images -> 0 < p x /\ 0 < q x) -> total p images = 1 -> total q images = 1 ->
  total (fun x => total (fun y => p x * q y * disc_loss [ln (p x / q x)] [ln (p y / q y)]) images) images
  <= total (fun x => total (fun y => p x * q y * disc_loss [d x] [d y]) images) images.
Proof.
  intros X images p q d H Tp Tq.
  assert (G : forall e : X -> R, total (fun x => total (fun y => p x * q y * disc_loss [e x] [e y]) images) images
    = / 2 * total (fun x => p x * sigmoid_cross_entropy 1 (e x) + q x * sigmoid_cross_entropy 0 (e x)) images).
  { intros e. rewrite total_plus.
    rewrite (total_ext _ (fun x => (/ 2 * total (fun y => q y * sigmoid_cross_entropy 0 (e y)) images) * p x + / 2 * (p x * sigmoid_cross_entropy 1 (e x)))).
    - rewrite total_plus, !total_scal, Tp. ring.
    - intros x _. unfold disc_loss, reduce_mean. cbn [total length INR].
      rewrite (total_ext _ (fun y => (/ 2 * p x) * (q y * sigmoid_cross_entropy 0 (e y)) + (/ 2 * (p x * sigmoid_cross_entropy 1 (e x))) * q y)).
      + rewrite total_plus, !total_scal, Tq. ring.
      + intros y _. field. }
  rewrite (G (fun x => ln (p x / q x))), (G d). apply Rmult_le_compat_l; [lra|]. apply total_le.
  intros x Hx. destruct (H x Hx). now apply best_logit.
Qed.
Print Assumptions C82_optimal.
Example C82_optimal_case : exists p q : bool -> R, (forall x, In x [true; false] -> 0 < p x /\ 0 < q x) /\
  total p [true; false] = 1 /\ total q [true; false] = 1 /\ p true <> q true.
Proof.
  exists (fun b : bool => if b then 3 / 4 else 1 / 4), (fun b : bool => if b then 1 / 4 else 3 / 4). cbn. split; [|lra].
  intros [|] _; lra.
Qed.

(** ** wasserstein_gan.py *)
(** With towers of one size the reported distance is the difference of the critic's means over
    the whole batch of real and of generated images, and the generator's loss is minus the
    second mean. *)
Theorem C82_distance : forall {X} (critic : X -> R) towers b, (0 < b)%nat -> towers <> [] ->
  (forall s, In s towers -> length s = b) ->
  w_distance critic towers = mean_of critic (map fst (concat towers)) - mean_of critic (map snd (concat towers)) /\
  nth 0 (w_losses critic towers) 0 = - mean_of critic (map snd (concat towers)).
Proof.
  intros X critic towers b Hb N L.
  set (losses := [fun p : X * X => - critic (snd p); fun p => - (critic (fst p) - critic (snd p))]).
  assert (E : w_losses critic towers = map (fun f => mean (map f (concat towers))) losses).
  { rewrite <- (C73_losses losses towers b Hb N L). unfold w_losses. f_equal. apply map_ext. intros s. unfold losses. cbn [map].
    assert (M : forall (f : X * X -> R), mean (map (fun p => - f p) s) = - (total f s / INR (length s))).
    { intros f. unfold mean. rewrite map_length, total_map, total_opp. unfold Rdiv. ring. }
    f_equal; [|f_equal].
    - rewrite (M (fun p => critic (snd p))). unfold w_gen_loss, reduce_mean. now rewrite map_length, total_map.
    - rewrite (M (fun p => critic (fst p) - critic (snd p))). unfold w_disc_loss, reduce_mean.
      assert (C : combine (map (fun p => critic (fst p)) s) (map (fun p => critic (snd p)) s) = map (fun p => (critic (fst p), critic (snd p))) s).
      { clear. induction s as [|p s IH]; [reflexivity|]. cbn. now rewrite IH. }
      rewrite C, map_length, total_map. reflexivity. }
  unfold w_distance. rewrite E. unfold losses. cbn [map nth]. unfold mean_of, mean. rewrite !map_length, !total_map, !total_opp, total_minus.
  split; unfold Rdiv; ring.
Qed.
Print Assumptions C82_distance.
Example C82_distance_case : w_distance INR [[(3, 1)]; [(5, 2)]]%nat = (3 + 5) / 2 - (1 + 2) / 2.
Proof.
  destruct (C82_distance INR [[(3, 1)]; [(5, 2)]]%nat 1 ltac:(lia) ltac:(discriminate)) as [E _].
  - intros s [<-|[<-|[]]]; reflexivity.
  - rewrite E. unfold mean_of. cbn. lra.
Qed.

Lemma clip_range lo hi t : lo <= hi -> lo <= clip_by_value lo hi t <= hi /\
  (lo <= t <= hi -> clip_by_value lo hi t = t) /\ (t < lo -> clip_by_value lo hi t = lo) /\ (hi < t -> clip_by_value lo hi t = hi).
Proof.
  intros H. unfold clip_by_value, Rmax, Rmin. destruct (Rle_dec t hi).
  - destruct (Rle_dec t lo); repeat split; intros; lra.
  - destruct (Rle_dec hi lo); repeat split; intros; lra.
Qed.
(** After every run of one or more training steps, whatever the optimizer does, all entries of
    the critic's variables lie in [-0.01, 0.01]; each is the entry nearest to the optimizer's in
    that range, and nothing else is touched. *)
Theorem C82_clipped : forall {O B} (infer_op : B -> nets O -> nets O) s batches last,
  let before := infer_op last (wgan_train infer_op s batches) in
  let after := wgan_train infer_op s (batches ++ [last]) in
  (forall v a, In v (disc_vars after) -> In a v -> - (1 / 100) <= a <= 1 / 100) /\
  Forall2 (Forall2 (fun old new => forall a, - (1 / 100) <= a <= 1 / 100 -> Rabs (old - new) <= Rabs (old - a)))
    (disc_vars before) (disc_vars after) /\
  gen_vars after = gen_vars before /\ other after = other before.
Proof.
  intros O B infer_op s batches last before after.
  assert (E : after = clip_op before) by (unfold after, wgan_train; rewrite fold_left_app; reflexivity).
  rewrite E. unfold clip_op. cbn [disc_vars gen_vars other]. split; [|split; [|split; reflexivity]].
  - intros v a Hv Ha. apply in_map_iff in Hv. destruct Hv as [u [<- _]]. apply in_map_iff in Ha. destruct Ha as [t [<- _]].
    apply clip_range. lra.
  - generalize (disc_vars before). induction l as [|u l IH]; constructor; [|exact IH]. clear.
    induction u as [|t u IH]; constructor; [|exact IH]. intros a Ha.
    destruct (clip_range (- (1 / 100)) (1 / 100) t ltac:(lra)) as [R1 [R2 [R3 R4]]].
    destruct (Rlt_dec t (- (1 / 100))) as [K|K]; [rewrite (R3 K); unfold Rabs; repeat destruct (Rcase_abs _); lra|].
    destruct (Rlt_dec (1 / 100) t) as [K'|K']; [rewrite (R4 K'); unfold Rabs; repeat destruct (Rcase_abs _); lra|].
    rewrite R2 by lra. unfold Rminus. rewrite Rplus_opp_r, Rabs_R0. apply Rabs_pos.
Qed.
Print Assumptions C82_clipped.
Example C82_clipped_case : disc_vars (wgan_train (fun b s => Nets (gen_vars s) [[b]] (other s)) (Nets [] [[0]] tt) [5]) = [[1 / 100]].
Proof. cbn. repeat f_equal. unfold clip_by_value. rewrite Rmin_right, Rmax_left by lra. reflexivity. Qed.

(** ** How steep a clipped critic is *)
Lemma weighted_lip c e w x y : 0 <= c -> 0 <= e -> (forall a, In a w -> Rabs a <= c) -> within e x y ->
  Rabs (weighted w x - weighted w y) <= c * INR (connections w) * e.
Proof.
  intros C E Hw W. unfold weighted, connections. revert x y W. induction w as [|a w IH]; intros x y W; cbn [combine total filter length INR].
  - unfold Rminus. rewrite Rplus_opp_r, Rabs_R0. lra.
  - assert (Hw' : forall b, In b w -> Rabs b <= c) by (intros; apply Hw; now right). specialize (IH Hw').
    assert (P : forall k : nat, 0 <= c * INR k * e) by (intros k; pose proof (pos_INR k); apply Rmult_le_pos; [now apply Rmult_le_pos|assumption]).
    inversion W as [|x0 y0 x' y' D W']; subst; cbn [combine total fst snd].
    { unfold Rminus. rewrite Rplus_opp_r, Rabs_R0. apply P. }
    specialize (IH x' y' W'). set (X := total _ (combine w x')) in *. set (Y := total _ (combine w y')) in *.
    replace (a * x0 + X - (a * y0 + Y)) with (a * (x0 - y0) + (X - Y)) by ring.
    eapply Rle_trans; [apply Rabs_triang|]. rewrite Rabs_mult. destruct (Req_EM_T a 0) as [Z|Z].
    + rewrite Z, Rabs_R0. lra.
    + cbn [length]. rewrite S_INR. assert (Rabs a <= c) by (apply Hw; now left).
      assert (Rabs a * Rabs (x0 - y0) <= c * e) by (apply Rmult_le_compat; auto using Rabs_pos). nra.
Qed.
Lemma relu_lip a b : Rabs (Rmax 0 a - Rmax 0 b) <= Rabs (a - b).
Proof. unfold Rmax, Rabs. destruct (Rle_dec 0 a), (Rle_dec 0 b); repeat destruct (Rcase_abs _); lra. Qed.
Lemma layer_lip c e eps n x y layer : 0 <= c -> 0 <= e -> 0 < eps ->
  (forall u, In u layer -> (forall a, In a (weights u) -> Rabs a <= c) /\ 0 <= moving_variance u /\ (connections (weights u) <= n)%nat) ->
  within e x y -> within (c * INR n / sqrt eps * e) (layer_out eps x layer) (layer_out eps y layer).
Proof.
  intros C E P H W. unfold within, layer_out. induction layer as [|u layer IH]; constructor.
  - destruct (H u (or_introl eq_refl)) as [Hw [Hv Hn]]. unfold unit_out. eapply Rle_trans; [apply relu_lip|].
    assert (S1 : 0 < sqrt eps) by now apply sqrt_lt_R0.
    assert (S2 : sqrt eps <= sqrt (moving_variance u + eps)) by (apply sqrt_le_1_alt; lra).
    set (r := sqrt (moving_variance u + eps)) in *.
    replace ((weighted (weights u) x - moving_mean u) / r + beta u - ((weighted (weights u) y - moving_mean u) / r + beta u))
      with ((weighted (weights u) x - weighted (weights u) y) * / r) by (field; lra).
    assert (I1 : 0 < / r) by (apply Rinv_0_lt_compat; lra). rewrite Rabs_mult, (Rabs_right (/ r)) by lra.
    assert (I2 : / r <= / sqrt eps) by (apply Rinv_le_contravar; lra).
    pose proof (weighted_lip c e (weights u) x y C E Hw W) as L. apply le_INR in Hn. pose proof (pos_INR n).
    assert (L2 : c * INR (connections (weights u)) * e <= c * INR n * e) by (apply Rmult_le_compat_r; [assumption|]; now apply Rmult_le_compat_l).
    replace (c * INR n / sqrt eps * e) with (c * INR n * e * / sqrt eps) by (unfold Rdiv; ring).
    apply Rmult_le_compat; auto using Rabs_pos; lra.
  - apply IH. intros v Hv. apply H. now right.
Qed.
(** A critic with all weights in [-c, c]: when its input changes by at most e in every entry, its
    output changes by at most e times the product over layers of c times the number of
    connections of a unit (divided by sqrt epsilon where batch normalization follows). *)
Theorem C82_steepness : forall c eps w b layers fan_in x y e, 0 <= c -> 0 < eps -> 0 <= e ->
  (forall a, In a w -> Rabs a <= c) -> length fan_in = length layers ->
  (forall i u, (i < length layers)%nat -> In u (nth i layers []) ->
     (forall a, In a (weights u) -> Rabs a <= c) /\ 0 <= moving_variance u /\ (connections (weights u) <= nth i fan_in 0)%nat) ->
  within e x y ->
  Rabs (critic eps layers w b x - critic eps layers w b y)
  <= fold_right (fun n k => c * INR n / sqrt eps * k) (c * INR (connections w)) fan_in * e.
Proof.
  intros c eps w b layers fan_in x y e C P E Hw Lf H W. unfold critic.
  assert (S1 : 0 < sqrt eps) by now apply sqrt_lt_R0.
  revert fan_in x y e E Lf H W. induction layers as [|l layers IH]; intros [|n fan_in] x y e E Lf H W; try discriminate; cbn [fold_left fold_right].
  - replace (weighted w x + b - (weighted w y + b)) with (weighted w x - weighted w y) by ring. now apply weighted_lip.
  - replace (c * INR n / sqrt eps * fold_right (fun n k => c * INR n / sqrt eps * k) (c * INR (connections w)) fan_in * e)
      with (fold_right (fun n k => c * INR n / sqrt eps * k) (c * INR (connections w)) fan_in * (c * INR n / sqrt eps * e)) by ring.
    apply IH.
    + pose proof (pos_INR n). apply Rmult_le_pos; [|assumption]. apply Rmult_le_pos; [now apply Rmult_le_pos|]. left. now apply Rinv_0_lt_compat.
    + now injection Lf.
    + intros i u Hi Hu. apply (H (S i) u); [cbn; lia|exact Hu].
    + apply layer_lip; try assumption. intros u Hu. apply (H 0%nat u); [cbn; lia|exact Hu].
Qed.
Print Assumptions C82_steepness.
Example C82_steepness_case : Rabs (critic 1 [[Unit [1; 0] 0 0 0]] [1] 0 [2; 9] - critic 1 [[Unit [1; 0] 0 0 0]] [1] 0 [1; 9]) = 1 /\
  connections [1; 0] = 1%nat.
Proof.
  split.
  - unfold critic, weighted, layer_out, unit_out. cbn. rewrite !Rplus_0_l, sqrt_1. unfold weighted. cbn.
    rewrite !Rmax_right by lra. replace (_ - _) with 1 by lra. apply Rabs_R1.
  - unfold connections. cbn. destruct (Req_EM_T 1 0); [lra|]. destruct (Req_EM_T 0 0); [reflexivity|lra].
Qed.

(** The comment "to ensure 1-Lipschitz" (wasserstein_gan.py:121) is not met by the range alone: a
    critic with all weights in [-0.01, 0.01], epsilon = 0.001 and 576 units of 25 connections (as
    in the last and the first layer of the example) moves by more than 44 between two inputs at
    Euclidean distance 5. *)
Lemma weighted_repeat a b n : weighted (repeat a n) (repeat b n) = INR n * (a * b).
Proof.
  unfold weighted. induction n as [|n IH]; [cbn; ring|]. cbn [repeat combine total fst snd]. rewrite IH, S_INR. ring.
Qed.
Theorem C82_one_lipschitz_refuted : exists layers w x y,
  (forall l u a, In l layers -> In u l -> In a (weights u) -> - (1 / 100) <= a <= 1 / 100) /\
  (forall a, In a w -> - (1 / 100) <= a <= 1 / 100) /\
  sqrt (total (fun p => (fst p - snd p) ^ 2) (combine x y)) = 5 /\
  critic (1 / 1000) layers w 0 x - critic (1 / 1000) layers w 0 y > 44.
Proof.
  exists [repeat (Unit (repeat (1 / 100) 25) 0 0 0) 576], (repeat (1 / 100) 576), (repeat 1 25), (repeat 0 25).
  split; [|split; [|split]].
  - intros l u a [<-|[]] Hu Ha. apply repeat_spec in Hu. subst u. apply repeat_spec in Ha. subst a. lra.
  - intros a Ha. apply repeat_spec in Ha. subst a. lra.
  - replace (total _ _) with (5 * 5) by (cbn; ring). rewrite sqrt_square; lra.
  - unfold critic. cbn [fold_left]. unfold layer_out.
    assert (M : forall (f : unit_ -> R) u n, map f (repeat u n) = repeat (f u) n).
    { intros f u n. induction n as [|n IH]; [reflexivity|]. cbn. now rewrite IH. }
    rewrite !M, !weighted_repeat. unfold unit_out. cbn [weights moving_mean moving_variance beta].
    rewrite !weighted_repeat. rewrite Rplus_0_l.
    assert (S1 : 0 < sqrt (1 / 1000)) by (apply sqrt_lt_R0; lra).
    assert (S2 : sqrt (1 / 1000) < 1 / 31).
    { replace (1 / 31) with (sqrt (1 / 31 * (1 / 31))) by (apply sqrt_square; lra). apply sqrt_lt_1_alt. lra. }
    assert (I : 31 < / sqrt (1 / 1000)).
    { replace 31 with (/ (1 / 31)) by lra. apply Rinv_lt_contravar; [nra|exact S2]. }
    replace (INR 25) with 25 by (cbn; ring). replace (INR 576) with 576 by (rewrite INR_IZR_INZ; reflexivity).
    set (q := sqrt (1 / 1000)) in *.
    replace ((25 * (1 / 100 * 1) - 0) / q + 0) with (/ 4 * / q) by (field; lra).
    replace ((25 * (1 / 100 * 0) - 0) / q + 0) with 0 by (field; lra).
    rewrite !Rmax_right by lra. lra.
Qed.
Print Assumptions C82_one_lipschitz_refuted.
