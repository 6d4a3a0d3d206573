(** The semi-supervised example with an adapted proposal,
    examples/semi_supervised_vae/vae_ssl_adaptive_is.py, for one image of a batch. Tensor entries
    are duals (ModelVI.v): a value and its derivative with respect to one parameter. *)
From Coq Require Import List Reals.
From Verif Require Import ModelVI.
Import ListNotations.
Local Open Scope R_scope.

(** The log probabilities of the latent nodes of unlabeled_proposal, vae_ssl_adaptive_is.py:61-68.
    Node y has no n_samples (64): there is one label per image, so its log probability is one
    number, repeated along the particle axis when it is added to that of z. *)
Definition unlabeled_latent (log_qy : dual) (log_qz : list dual) : list (list dual) :=
  [map (fun _ => log_qy) log_qz; log_qz].
(** labeled_proposal, vae_ssl_adaptive_is.py:53-58: z only, the label is observed. *)
Definition labeled_latent (log_qz : list dual) : list (list dual) := [log_qz].

(** labeled_q_cost and labeled_lower_bound of one image, vae_ssl_adaptive_is.py:101-112. *)
Definition labeled_q_cost (log_joint log_qz : list dual) : option (list dual) :=
  klpq_importance true log_joint (entropy_term (labeled_latent log_qz)).
Definition labeled_lower_bound (log_joint log_qz : list dual) : option dual :=
  iw_objective true log_joint (entropy_term (labeled_latent log_qz)).
(** unlabeled_q_cost and unlabeled_lower_bound of one image, vae_ssl_adaptive_is.py:123-134. *)
Definition unlabeled_q_cost (log_joint : list dual) (log_qy : dual) (log_qz : list dual) : option (list dual) :=
  klpq_importance true log_joint (entropy_term (unlabeled_latent log_qy log_qz)).
Definition unlabeled_bound_is (log_joint : list dual) (log_qy : dual) (log_qz : list dual) : option dual :=
  iw_objective true log_joint (entropy_term (unlabeled_latent log_qy log_qz)).
