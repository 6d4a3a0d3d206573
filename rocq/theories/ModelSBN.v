(** The sigmoid belief network examples, examples/sigmoid_belief_nets/sbn_vimco.py and
    sbn_adaptive_is.py (the same networks), for one image and one particle, and the random
    binarization of images. Values are reals; bits are 0 and 1. *)
From Coq Require Import List Reals Arith.
From Verif Require Import SpecDist ModelDist.
Import ListNotations.
Local Open Scope R_scope.

(** tf.layers.dense without activation: one row of weights and one bias per unit. *)
Definition dense (w : list (list R * R)) (h : list R) : list R := map (fun u => dot (fst u) h + snd u) w.
(** log_prob of a bernoulli node with group_ndims=1. *)
Definition log_bits (logits h : list R) : R := sumR (map (fun lh => bernoulli_lp (snd lh) (fst lh)) (combine logits h)).
(** The hidden layers h1, h2, h3. *)
Definition hidden := (list R * list R * list R)%type.
(** log_joint of build_sbn, sbn_vimco.py:20-31 and sbn_adaptive_is.py:20-31: h3 has zero logits, and
    each layer's logits are computed from the layer above. *)
Definition sbn_log_joint (h_dim : nat) (w2 w1 wx : list (list R * R)) (x : list R) (h : hidden) : R :=
  let '(h1, h2, h3) := h in
  log_bits (repeat 0 h_dim) h3 + log_bits (dense w2 h3) h2 + log_bits (dense w1 h2) h1 + log_bits (dense wx h1) x.
(** The log probabilities of the three nodes of build_q_net, sbn_vimco.py:35-44, and build_proposal,
    sbn_adaptive_is.py:35-44. *)
Definition q_h1 (v1 : list (list R * R)) (x : list R) (h : hidden) : R := let '(h1, _, _) := h in log_bits (dense v1 x) h1.
Definition q_h2 (v2 : list (list R * R)) (h : hidden) : R := let '(h1, h2, _) := h in log_bits (dense v2 h1) h2.
Definition q_h3 (v3 : list (list R * R)) (h : hidden) : R := let '(_, h2, h3) := h in log_bits (dense v3 h2) h3.

(** x = tf.cast(tf.less(tf.random_uniform(shape), x_input), tf.int32) for one pixel, sbn_vimco.py:65-66
    and most examples; [u] is the draw. *)
Definition binarize (u p : R) : R := if Rlt_dec u p then 1 else 0.
(** vae_conv.py:114 writes tf.random_uniform(shape) <= x_input. *)
Definition binarize_conv (u p : R) : R := if Rle_dec u p then 1 else 0.
(** The values tf.random_uniform draws from, all equally likely: k/n for k < n, n = 2^23 for float32
    (ModelFloatSample.v has the bits). *)
Definition uniform_draws (n : nat) : list R := map (fun k => INR k / INR n) (seq 0 n).
