(** The binary latent example, examples/variational_autoencoders/bernoulli_latent_vae.py. Values are
    reals. Simplification: the layers are arguments, the logits of z given x and of x given z; only the
    batch normalization of the first decoder layer is spelled out. *)
From Coq Require Import List Reals.
From Verif Require Import ModelDist ModelVI ModelSBN.
Import ListNotations.
Local Open Scope R_scope.

(** log_joint of build_gen for one image and particle, bernoulli_latent_vae.py:20-33: z has zero logits. *)
Definition bern_log_joint (z_dim : nat) (dec : list R -> list R) (x z : list R) : R :=
  log_bits (repeat 0 z_dim) z + log_bits (dec z) x.
(** Log probability of node "z" of build_q_net, bernoulli_latent_vae.py:37-48, with logits [enc]. *)
Definition bern_log_q (enc z : list R) : R := log_bits enc z.
(** What is minimized for one image, bernoulli_latent_vae.py:82-85: the two costs of reinforce added.
    cx has one value per image, used for every particle. *)
Definition bern_step (n_particles : nat) (cx : dual) (moving_mean : R) (log_joint : list dual) (entropy : option (list dual)) : option dual :=
  match reinforce true true (Some (repeat cx n_particles)) moving_mean log_joint entropy with
  | Some o => match r_cost o, r_baseline_cost o with [c], Some [d] => Some (dadd c d) | _, _ => None end
  | None => None
  end.
(** The cost of a batch with one particle per image, bernoulli_latent_vae.py:85 and 114-117: reduce_mean over
    the images. An image comes with its baseline, log joint and entropy. *)
Fixpoint bern_costs (moving_mean : R) (images : list (dual * dual * option (list dual))) : option (list dual) :=
  match images with
  | [] => Some []
  | (cx, lj, ent) :: rest =>
      match bern_step 1 cx moving_mean [lj] ent, bern_costs moving_mean rest with
      | Some c, Some cs => Some (c :: cs)
      | _, _ => None
      end
  end.
Definition bern_batch_step (moving_mean : R) (images : list (dual * dual * option (list dual))) : option dual :=
  option_map dmean (bern_costs moving_mean images).

(** tf.layers.batch_normalization with training=True and initial scale and offset (epsilon 0.001), for one
    unit: [h] has the values of all particles and images, bernoulli_latent_vae.py:26. *)
Definition batch_norm (h : list R) : list R :=
  let n := INR (length h) in
  let mean := sumR h / n in
  let var := sumR (map (fun t => (t - mean) * (t - mean)) h) / n in
  map (fun t => (t - mean) / sqrt (var + 1 / 1000)) h.
(** log_joint of all images of a batch in training mode, lines 25-32, for images of one pixel [x], one particle
    each, one latent bit and one unit, with unit weights and a single hidden layer. *)
Definition bern_train_log_joint (x : R) (zs : list R) : list R :=
  map (fun zh => bernoulli_lp (fst zh) 0 + bernoulli_lp x (Rmax (snd zh) 0)) (combine zs (batch_norm zs)).
