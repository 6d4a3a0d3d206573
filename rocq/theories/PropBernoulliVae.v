(** C89: the binary latent example. *)
From Coq Require Import List Arith Bool Reals Lra Lia.
From Coquelicot Require Import Coquelicot.
From Verif Require Import SpecDist ModelDist ModelVI SpecVI ProofDiscrete PropDiscrete ProofVI PropELBO ProofGrad ModelSBN PropSBN ModelBernoulliVae.
Import ListNotations.
Local Open Scope R_scope.

(** p(x) of the model. *)
Definition bern_prob n dec x : R := evidence (fun z => exp (bern_log_joint n dec x z)) (all_bits n).

(** Whatever the decoder, the model is a distribution over images. *)
Theorem C89_model : forall n dx (dec : list R -> list R), (forall z, length (dec z) = dx) ->
  total (bern_prob n dec) (all_bits dx) = 1 /\ forall x, 0 < bern_prob n dec x.
Proof.
  intros n dx dec Ld. split.
  - unfold bern_prob, evidence. rewrite total_swap.
    rewrite (total_ext _ (fun z => exp (log_bits (repeat 0 n) z))).
    + pose proof (layer_one (repeat 0 n)) as H. now rewrite repeat_length in H.
    + intros z _. rewrite (total_ext _ (fun x => exp (log_bits (repeat 0 n) z) * exp (log_bits (dec z) x))) by (intros; unfold bern_log_joint; apply exp_plus).
      rewrite total_scal. pose proof (layer_one (dec z)) as H. rewrite Ld in H. rewrite H. ring.
  - intros x. unfold bern_prob, evidence. apply total_pos; [|intros; apply exp_pos].
    destruct (all_bits_inhabited n) as [h H]. intros E. rewrite E in H. contradiction.
Qed.
Print Assumptions C89_model.

(** Logits that a parameter moves, each of them differentiable at [theta]. *)
Definition smooth_logits (theta : R) (n : nat) (l : R -> list R) : Prop :=
  (forall t, length (l t) = n) /\ forall k, ex_derive (fun t => nth k (l t) 0) theta.
Lemma ex_derive_bits theta b : forall n l, smooth_logits theta n l -> ex_derive (fun t => log_bits (l t) b) theta.
Proof.
  induction b as [|a b IH]; intros n l [Ll Dl].
  - apply (ex_derive_ext (fun _ => 0)); [|apply ex_derive_const]. intros t. now destruct (l t).
  - destruct n as [|n].
    + apply (ex_derive_ext (fun _ => 0)); [|apply ex_derive_const]. intros t. specialize (Ll t). now destruct (l t).
    + apply (ex_derive_ext (fun t => bernoulli_lp a (nth 0 (l t) 0) + log_bits (tl (l t)) b)).
      * intros t. specialize (Ll t). destruct (l t); [discriminate|]. symmetry. apply log_bits_cons.
      * apply (ex_derive_plus (K := R_AbsRing) (V := R_NormedModule)); [apply ex_derive_bernoulli, Dl|]. apply (IH n (fun t => tl (l t))). split.
        -- intros t. specialize (Ll t). destruct (l t); [discriminate|]. now injection Ll.
        -- intros k. apply (ex_derive_ext (fun t => nth (S k) (l t) 0)); [|apply Dl]. intros t. specialize (Ll t). now destruct (l t).
Qed.

Definition diff_of (theta : R) (f : R -> list R -> R) : @quantity (list R) := Quantity f (fun z => Derive (fun t => f t z) theta).
Definition q_of (enc : list R) (z : list R) : R := exp (bern_log_q enc z).
Lemma q_family theta n enc : smooth_logits theta n enc ->
  family (all_bits n) (fun t => q_of (enc t)) [diff_of theta (fun t => bern_log_q (enc t))] theta.
Proof.
  intros S. split.
  - intros; apply exp_pos.
  - intros t. destruct S as [Ll _]. pose proof (layer_one (enc t)) as H. now rewrite Ll in H.
  - intros t. split; [discriminate|]. intros z _ _. unfold log_q, q_of, diff_of. cbn [total at_param]. rewrite ln_exp. ring.
  - intros lq [<-|[]] z _. apply Derive_correct. cbn [at_param diff_of]. now apply (ex_derive_bits theta z n).
Qed.
Lemma joint_diff theta n dx dec x : (forall z, smooth_logits theta dx (fun t => dec t z)) ->
  differentiable theta (all_bits n) (diff_of theta (fun t => bern_log_joint n (dec t) x)).
Proof.
  intros S z _. apply Derive_correct. cbn [at_param diff_of]. unfold bern_log_joint.
  apply (ex_derive_plus (K := R_AbsRing) (V := R_NormedModule)); [apply ex_derive_const|]. now apply (ex_derive_bits theta x dx (fun t => dec t z)).
Qed.

(** With normalization statistics that do not look at the draws (stored averages): the mean of the
    bound is at most log p(x), and what is minimized has in the mean the gradient of minus the bound
    for the networks plus that of the baseline's squared error for the baseline network. *)
Theorem C89_bound : forall theta n dx enc dec x K v, smooth_logits theta n enc -> (1 <= K)%nat ->
  (forall z, smooth_logits theta dx (fun t => dec t z)) ->
  (forall zs, length zs = K -> elbo_objective true (tensor_of theta (diff_of theta (fun t => bern_log_joint n (dec t) x)) zs)
     (entropy_of theta [diff_of theta (fun t => bern_log_q (enc t))] zs) = [v zs]) ->
  expects (q_of (enc theta)) (all_bits n) K (fun zs => val (v zs)) <= ln (bern_prob n (dec theta) x).
Proof.
  intros theta n dx enc dec x K v S HK Sd V. destruct (q_family theta n enc S) as [P T Lq _].
  assert (D : distribution (q_of (enc theta)) (all_bits n)) by (split; [intros z Hz; left; now apply (P theta)|apply (T theta)]).
  refine (proj1 (C33_lower_bound (all_bits n) (q_of (enc theta)) (diff_of theta (fun t => bern_log_joint n (dec t) x)) _ theta
    (fun z => exp (bern_log_joint n (dec theta) x z)) K v D (Lq theta) _ HK V)).
  intros z _. split; [apply exp_pos|]. symmetry. apply ln_exp.
Qed.
Print Assumptions C89_bound.
Theorem C89_gradient : forall theta n dx enc dec x K cx m, smooth_logits theta n enc -> (1 <= K)%nat ->
  (forall z, smooth_logits theta dx (fun t => dec t z)) ->
  let lj := diff_of theta (fun t => bern_log_joint n (dec t) x) in
  let lq := diff_of theta (fun t => bern_log_q (enc t)) in
  let elbo t := expect (q_of (enc t)) (all_bits n) (fun z => bern_log_joint n (dec t) x z - bern_log_q (enc t) z) in
  exists cost slope, (forall zs, length zs = K -> bern_step K cx m (tensor_of theta lj zs) (entropy_of theta [lq] zs) = Some (cost zs)) /\
    is_derive elbo theta slope /\
    expects (q_of (enc theta)) (all_bits n) K (fun zs => tan (cost zs)) = - slope + (val cx - elbo theta) * tan cx.
Proof.
  intros theta n dx enc dec x K cx m S HK Sd lj lq elbo. pose proof (q_family theta n enc S) as F. pose proof F as [P T Lq _].
  assert (D : distribution (q_of (enc theta)) (all_bits n)) by (split; [intros z Hz; left; now apply (P theta)|apply (T theta)]).
  destruct (C34_unbiased (all_bits n) _ lj _ theta K true (Some (repeat cx K)) m F (joint_diff theta n dx dec x Sd) HK) as (c & C & U).
  { intros b [= <-]. apply repeat_length. }
  destruct (C34_baseline_cost (all_bits n) (q_of (enc theta)) lj [lq] theta K cx m D ltac:(discriminate) HK) as (d & B & G & _).
  assert (W : forall t, expect (q_of (enc t)) (all_bits n) (log_weight lj [lq] t) = elbo t).
  { intros t. apply expect_ext. intros z _. unfold log_weight, log_q. cbn [total at_param lj lq diff_of]. ring. }
  exists (fun zs => dadd (c zs) (d zs)), (- expects (q_of (enc theta)) (all_bits n) K (fun zs => tan (c zs))). split; [|split].
  - intros zs Lz. unfold bern_step. specialize (C zs Lz). destruct (B zs Lz) as (o & E & Eo). fold lq in C. rewrite E in *. cbn [option_map] in C. injection C as ->. now rewrite Eo.
  - eapply is_derive_ext; [|exact U]. exact W.
  - rewrite (expects_ext _ _ _ _ (fun zs => tan (c zs) + tan (d zs))) by reflexivity.
    rewrite expects_plus, G, W. ring.
Qed.
Print Assumptions C89_gradient.

(** One latent bit and two pixels; the encoder is moved by the parameter. *)
Example C89_case : exists cost slope,
  (forall zs, length zs = 2%nat -> bern_step 2 (Dual 1 5) 7
     (tensor_of 0 (diff_of 0 (fun _ => bern_log_joint 1 (fun z => [dot [3] z; 1]) [1; 0])) zs) (entropy_of 0 [diff_of 0 (fun t => bern_log_q [t])] zs) = Some (cost zs)) /\
  is_derive (fun t => expect (q_of [t]) (all_bits 1) (fun z => bern_log_joint 1 (fun z => [dot [3] z; 1]) [1; 0] z - bern_log_q [t] z)) 0 slope /\
  expects (q_of [0]) (all_bits 1) 2 (fun zs => tan (cost zs)) =
    - slope + (1 - expect (q_of [0]) (all_bits 1) (fun z => bern_log_joint 1 (fun z => [dot [3] z; 1]) [1; 0] z - bern_log_q [0] z)) * 5.
Proof.
  apply (C89_gradient 0 1 2 (fun t => [t]) (fun _ z => [dot [3] z; 1]) [1; 0] 2 (Dual 1 5) 7); [|lia|].
  - split; [reflexivity|]. intros [|k]; [apply ex_derive_id|]. apply (ex_derive_ext (fun _ => 0)); [intros; now destruct k|apply ex_derive_const].
  - intros z. split; [reflexivity|]. intros k. apply (ex_derive_const (K := R_AbsRing) (V := R_NormedModule)).
Qed.

(** ** Training mode *)
(** In training mode the decoder's batch normalization mixes the batch: the log joint of one image
    depends on the draws for the others, which reinforce does not credit. With two equal images, one
    particle each, and a moving mean and baseline of 0, as in the first step, the exact gradient of the
    mean bound is 0 and the mean gradient of what is minimized is not. *)
Definition bit_q (t z : R) : R := exp (bernoulli_lp z t).
Definition bit_lq : @quantity R := Quantity (fun t z => bernoulli_lp z t) (fun z => z - 1 / 2).
Definition train_bound (t : R) (zs : list R) : R :=
  sumR (map (fun lz => fst lz - bernoulli_lp (snd lz) t) (combine (bern_train_log_joint 1 zs) zs)) / INR (length zs).

Definition train_step (zs : list R) : option dual :=
  bern_batch_step 0 (map (fun lz => (dconst 0, dconst (fst lz), entropy_of 0 [bit_lq] [snd lz])) (combine (bern_train_log_joint 1 zs) zs)).

Lemma softplus_derive : is_derive softplus 0 (1 / 2).
Proof.
  unfold softplus. auto_derive; [rewrite exp_0; lra|]. rewrite exp_0. field.
Qed.
Lemma bit_lq_derive z : is_derive (fun t => bernoulli_lp z t) 0 (z - 1 / 2).
Proof.
  apply (is_derive_ext (fun t => t * z - softplus t)); [intros; symmetry; apply bernoulli_lp_form|].
  replace (z - 1 / 2) with (1 * z - 1 / 2) by ring.
  apply (is_derive_minus (K := R_AbsRing) (V := R_NormedModule) (fun t => t * z) softplus); [|apply softplus_derive].
  auto_derive; [exact Logic.I|ring].
Qed.
Lemma bit_half z : z = 0 \/ z = 1 -> bit_q 0 z = 1 / 2.
Proof. unfold bit_q. intros [-> | ->]; [rewrite bernoulli_lp_0|rewrite bernoulli_lp_1]; unfold sigmoid; rewrite Ropp_0, exp_0; field. Qed.

Definition norm_gap : R := 1 / 2 / sqrt (1 / 4 + 1 / 1000).
Lemma norm_gap_pos : 0 < norm_gap.
Proof. unfold norm_gap. apply Rdiv_lt_0_compat; [lra|]. apply sqrt_lt_R0. lra. Qed.
Lemma norm_same z : batch_norm [z; z] = [0; 0].
Proof. unfold batch_norm, sumR. cbn. replace (z - (z + (z + 0)) / (1 + 1)) with 0 by field. unfold Rdiv. now rewrite !Rmult_0_l. Qed.
Lemma norm_var : (1 / 2 * (1 / 2) + (1 / 2 * (1 / 2) + 0)) / (1 + 1) + 1 / 1000 = 1 / 4 + 1 / 1000.
Proof. field. Qed.
Lemma norm_10 : batch_norm [1; 0] = [norm_gap; - norm_gap].
Proof.
  unfold batch_norm, sumR, norm_gap. cbn. replace (1 - (1 + (0 + 0)) / (1 + 1)) with (1 / 2) by field.
  replace (0 - (1 + (0 + 0)) / (1 + 1)) with (- (1 / 2)) by field. replace (- (1 / 2) * - (1 / 2)) with (1 / 2 * (1 / 2)) by ring.
  rewrite norm_var. f_equal. f_equal. unfold Rdiv. ring.
Qed.
Lemma norm_01 : batch_norm [0; 1] = [- norm_gap; norm_gap].
Proof.
  unfold batch_norm, sumR, norm_gap. cbn. replace (1 - (0 + (1 + 0)) / (1 + 1)) with (1 / 2) by field.
  replace (0 - (0 + (1 + 0)) / (1 + 1)) with (- (1 / 2)) by field. replace (- (1 / 2) * - (1 / 2)) with (1 / 2 * (1 / 2)) by ring.
  rewrite norm_var. f_equal. unfold Rdiv. ring.
Qed.
Definition lit (h : R) : R := bernoulli_lp 1 (Rmax h 0).
Lemma train_joint z1 z2 h1 h2 : batch_norm [z1; z2] = [h1; h2] ->
  bern_train_log_joint 1 [z1; z2] = [bernoulli_lp z1 0 + lit h1; bernoulli_lp z2 0 + lit h2].
Proof. intros E. unfold bern_train_log_joint. now rewrite E. Qed.
Lemma train_bound_two t z1 z2 h1 h2 : batch_norm [z1; z2] = [h1; h2] ->
  train_bound t [z1; z2] = (bernoulli_lp z1 0 + lit h1 - bernoulli_lp z1 t + (bernoulli_lp z2 0 + lit h2 - bernoulli_lp z2 t)) / 2.
Proof. intros E. unfold train_bound. rewrite (train_joint _ _ h1 h2 E). unfold sumR. cbn. replace (1 + 1) with 2 by ring. f_equal. ring. Qed.
Lemma step_two z1 z2 h1 h2 : batch_norm [z1; z2] = [h1; h2] ->
  exists c, train_step [z1; z2] = Some c /\
    tan c = - (lit h1 * (z1 - 1 / 2) + lit h2 * (z2 - 1 / 2)) / 2.
Proof.
  intros E. unfold train_step. rewrite (train_joint _ _ h1 h2 E). eexists. split; [reflexivity|]. cbn. field.
Qed.

Theorem C89_training_refuted :
  (** the bound is the objective of the code *)
  (forall t z1 z2, val (dmean (flat_map (fun lz => elbo_objective true [dconst (fst lz)] (entropy_of t [bit_lq] [snd lz]))
      (combine (bern_train_log_joint 1 [z1; z2]) [z1; z2]))) = train_bound t [z1; z2]) /\
  differentiable 0 [0; 1] bit_lq /\
  exists cost, (forall z1 z2, In z1 [0; 1] -> In z2 [0; 1] ->
      train_step [z1; z2] = Some (cost [z1; z2])) /\
    is_derive (fun t => expects (bit_q t) [0; 1] 2 (train_bound t)) 0 0 /\
    expects (bit_q 0) [0; 1] 2 (fun zs => tan (cost zs)) < 0.
Proof.
  split; [|split].
  - intros t z1 z2. unfold train_bound. destruct (bern_train_log_joint 1 [z1; z2]) as [|a [|b [|c l]]] eqn:E; try discriminate E.
    unfold sumR. cbn. field.
  - intros z _. apply bit_lq_derive.
  - set (step := train_step).
    exists (fun zs => match step zs with Some c => c | None => dconst 0 end). split; [|split].
    + intros z1 z2 [<-|[<-|[]]] [<-|[<-|[]]]; reflexivity.
    + set (f := fun t => bernoulli_lp 0 t). set (g := fun t => bernoulli_lp 1 t).
      assert (Df : is_derive f 0 (- (1 / 2))) by (replace (- (1 / 2)) with (0 - 1 / 2) by ring; apply bit_lq_derive).
      assert (Dg : is_derive g 0 (1 / 2)) by (pose proof (bit_lq_derive 1) as Q; replace (1 - 1 / 2) with (1 / 2) in Q by field; exact Q).
      assert (Efg : f 0 = g 0) by (unfold f, g; rewrite !bernoulli_lp_form; ring).
      apply (is_derive_ext (fun t =>
        exp (f t) * (exp (f t) * (f 0 + lit 0 - f t)) + exp (g t) * (exp (g t) * (g 0 + lit 0 - g t)) +
        exp (f t) * (exp (g t) * (f 0 + lit (- norm_gap) - f t + (g 0 + lit norm_gap - g t))))).
      { intros t. unfold expects, expect, bit_q. cbn [total].
        rewrite (train_bound_two t 0 0 0 0), (train_bound_two t 1 1 0 0), (train_bound_two t 0 1 (- norm_gap) norm_gap), (train_bound_two t 1 0 norm_gap (- norm_gap)) by (apply norm_same || apply norm_10 || apply norm_01).
        unfold f, g. match goal with |- ?a = ?b => change (@eq R a b) end. field. }
      assert (Ef : ex_derive f 0) by (eexists; exact Df). assert (Eg : ex_derive g 0) by (eexists; exact Dg).
      auto_derive; [repeat split; assumption|].
      change (Derive (fun x => f x) 0) with (Derive f 0). change (Derive (fun x => g x) 0) with (Derive g 0).
      rewrite (is_derive_unique f 0 _ Df), (is_derive_unique g 0 _ Dg), Efg. field.
    + destruct (step_two 0 0 0 0 (norm_same 0)) as (c00 & E00 & T00). destruct (step_two 1 1 0 0 (norm_same 1)) as (c11 & E11 & T11).
      destruct (step_two 0 1 _ _ norm_01) as (c01 & E01 & T01). destruct (step_two 1 0 _ _ norm_10) as (c10 & E10 & T10).
      unfold expects, expect. cbn [total]. unfold step. rewrite E00, E11, E01, E10, T00, T11, T01, T10, (bit_half 0 (or_introl eq_refl)), (bit_half 1 (or_intror eq_refl)).
      assert (lit (- norm_gap) < lit norm_gap); [|lra].
      pose proof norm_gap_pos as G. unfold lit. rewrite Rmax_right, Rmax_left by lra.
      apply exp_lt_inv. rewrite !bernoulli_lp_1. unfold sigmoid. rewrite Ropp_0, exp_0.
      assert (exp (- norm_gap) < 1) by (rewrite <- exp_0; apply exp_increasing; lra). pose proof (exp_pos (- norm_gap)).
      apply Rmult_lt_compat_l; [lra|]. apply Rinv_lt_contravar; nra.
Qed.
Print Assumptions C89_training_refuted.
