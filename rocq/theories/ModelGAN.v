(** The generative adversarial examples, examples/generative_adversarial_nets: losses of dcgan.py
    and wasserstein_gan.py, the clipping of the critic and its layers. Values are reals. *)
From Coq Require Import List Reals.
From Verif Require Import SpecDist ModelDist ModelExamples ModelTrain.
Import ListNotations.
Local Open Scope R_scope.

(** ** dcgan.py *)
(** gen_loss, dcgan.py:87-90: [logits] are the discriminator's outputs on generated images. *)
Definition gen_loss (logits : list R) : R := reduce_mean (fun l => sigmoid_cross_entropy 1 l) logits.
(** disc_loss, dcgan.py:94-102 *)
Definition disc_loss (x_class_logits x_gen_class_logits : list R) : R :=
  (reduce_mean (fun l => sigmoid_cross_entropy 1 l) x_class_logits +
   reduce_mean (fun l => sigmoid_cross_entropy 0 l) x_gen_class_logits) / 2.

(** ** wasserstein_gan.py *)
(** gen_loss, wasserstein_gan.py:92 *)
Definition w_gen_loss (x_gen_critic : list R) : R := - reduce_mean (fun c => c) x_gen_critic.
(** disc_loss, wasserstein_gan.py:96: the difference entry by entry *)
Definition w_disc_loss (x_critic x_gen_critic : list R) : R :=
  - reduce_mean (fun p => fst p - snd p) (combine x_critic x_gen_critic).
(** The losses of the towers and their average, wasserstein_gan.py:105-114. A tower has a list of
    pairs: a real and a generated image (there are as many of both, n of line 87). *)
Definition w_losses {X} (critic : X -> R) (towers : list (list (X * X))) : list R :=
  average_losses (map (fun s => [w_gen_loss (map (fun p => critic (snd p)) s);
                                 w_disc_loss (map (fun p => critic (fst p)) s) (map (fun p => critic (snd p)) s)]) towers).
(** w_distance, wasserstein_gan.py:113 *)
Definition w_distance {X} (critic : X -> R) (towers : list (list (X * X))) : R :=
  - nth 1 (w_losses critic towers) 0.
(** tf.clip_by_value(t, lo, hi) = maximum(minimum(t, hi), lo) *)
Definition clip_by_value (lo hi t : R) : R := Rmax (Rmin t hi) lo.
(** The trainable variables by scope, each a list of entries, and whatever else the session
    holds (moving averages, optimizer slots). *)
Record nets (O : Type) := Nets { gen_vars : list (list R); disc_vars : list (list R); other : O }.
Arguments Nets {O}. Arguments gen_vars {O}. Arguments disc_vars {O}. Arguments other {O}.
(** clip_op, wasserstein_gan.py:121-126 *)
Definition clip_op {O} (s : nets O) : nets O :=
  Nets (gen_vars s) (map (map (clip_by_value (-(1 / 100)) (1 / 100))) (disc_vars s)) (other s).
(** One sess.run([infer_op, clip_op, ...]), wasserstein_gan.py:149-151: [infer_op] is any change of
    the state that the optimizer makes for the batch; the control dependency puts clip_op after it. *)
Definition wgan_step {O B} (infer_op : B -> nets O -> nets O) (s : nets O) (b : B) : nets O := clip_op (infer_op b s).
Definition wgan_train {O B} (infer_op : B -> nets O -> nets O) (s : nets O) (batches : list B) : nets O :=
  fold_left (wgan_step infer_op) batches s.

(** The critic outside training (is_training False), wasserstein_gan.py:46-65, as layers of units.
    A unit of a convolution is a row of weights over all inputs that is zero outside its window
    (so sharing of weights is not modelled); then comes batch normalization without scale: the
    moving mean and variance and the trained offset; then relu. *)
Record unit_ := Unit { weights : list R; moving_mean : R; moving_variance : R; beta : R }.
Definition weighted (w x : list R) : R := total (fun p => fst p * snd p) (combine w x).
Definition unit_out (epsilon : R) (x : list R) (u : unit_) : R :=
  Rmax 0 ((weighted (weights u) x - moving_mean u) / sqrt (moving_variance u + epsilon) + beta u).
Definition layer_out (epsilon : R) (x : list R) (layer : list unit_) : list R := map (unit_out epsilon x) layer.
Definition critic (epsilon : R) (layers : list (list unit_)) (w : list R) (b : R) (x : list R) : R :=
  weighted w (fold_left (layer_out epsilon) layers x) + b.
