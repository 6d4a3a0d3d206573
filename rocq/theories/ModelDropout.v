(** The variational dropout example, examples/bayesian_neural_nets/variational_dropout.py. Values
    are reals. [E] holds the noise of all the layers for one image and one particle.
    Simplification: batch normalization uses its stored averages, so what the network says about an
    image depends on that image and its noise only. *)
From Coq Require Import List Reals Arith.
From Verif Require Import SpecDist ModelDist ModelTrain.
Import ListNotations.
Local Open Scope R_scope.

(** log_joint of one image and particle, variational_dropout.py:96-99: [log_pe] has one entry per
    layer. *)
Definition dropout_log_joint (n_train : nat) (log_pe : list R) (log_py_xe : R) : R :=
  sumR log_pe + log_py_xe * INR n_train.
(** The objective of one image: elbo with axis=0, variational_dropout.py:103-104 and
    exclusive_kl.py:131-137. [lpe] and [lqe] give the log probabilities of the layers' noise under
    the prior and under q. *)
Definition image_bound {E} (n_train : nat) (lpe lqe : list (E -> R)) (log_py : E -> R) (particles : list E) : R :=
  reduce_mean (fun e => dropout_log_joint n_train (map (fun f => f e) lpe) (log_py e) - sumR (map (fun f => f e) lqe)) particles.
(** lower_bound of a batch, variational_dropout.py:115; the cost (110) is its negative. Every image
    has noise of its own in every particle (27-30): [noise i k] is that of image [i]. *)
Definition dropout_bound {E X} (n_train : nat) (lpe lqe : list (E -> R)) (log_py : X -> E -> R) (n_particles : nat)
  (images : list X) (noise : nat -> nat -> E) : R :=
  reduce_mean (fun ix => image_bound n_train lpe lqe (log_py (snd ix)) (map (noise (fst ix)) (seq 0 n_particles)))
    (combine (seq 0 (length images)) images) / INR n_train.
(** std of the noise, variational_dropout.py:48 *)
Definition noise_std (logit_alpha : R) : R := sqrt (sigmoid logit_alpha + 1 / 10000000000).
(** The learning rate fed in an epoch, variational_dropout.py:126-127: it is multiplied at the start
    of every epoch whose number is a multiple of [freq]. *)
Fixpoint rate_in_epoch (rate0 factor : R) (freq epoch : nat) : R :=
  match epoch with
  | O => rate0
  | S e => let r := rate_in_epoch rate0 factor freq e in
           if Nat.eqb (S e mod freq) 0 then r * factor else r
  end.
(** h_pred of one image, variational_dropout.py:106: entry by entry, the mean over the particles. *)
Definition h_pred (n_class : nat) (y_logit : list (list R)) : list R :=
  map (fun c => reduce_mean (fun logits => nth c (softmax logits) 0) y_logit) (seq 0 n_class).
