(** Training on minibatches and the reported test errors: examples/bayesian_neural_nets
    (bnn_vi.py, bnn_sgmcmc.py) and examples/gaussian_process/svgp.py. Values are reals. *)
From Coq Require Import List Reals Arith.
From Verif Require Import SpecDist ModelExamples.
Import ListNotations.
Local Open Scope R_scope.

(** tf.reduce_mean over a list *)
Definition reduce_mean {A} (f : A -> R) (l : list A) : R := total f l / INR (length l).
(** log_joint of bnn_vi.py:83-86, bnn_sgmcmc.py:74-77 and svgp.py:124-126 (which writes the mean
    as a sum divided by batch_size), for one particle: [prior] is the log density of the weights
    and [ll] the log-likelihood of a row. *)
Definition minibatch_log_joint {A} (prior : R) (n_train : nat) (ll : A -> R) (rows : list A) : R :=
  prior + reduce_mean ll rows * INR n_train.
(** One epoch starts by permuting the training rows in place, and the next epoch permutes the
    result: bnn_vi.py:117-119, bnn_sgmcmc.py:119-121. *)
Definition after_epochs {A} (d : A) (data : list A) (perms : list (list nat)) : list A :=
  fold_left (rows_at d) perms data.
(** The rows fed in step [t] of the epoch permuted by [perm], bnn_vi.py:121-123. *)
Definition epoch_batch {A} (d : A) (size : nat) (data : list A) (perm : list nat) (t : nat) : list A :=
  batch size (rows_at d data perm) t.
(** np.mean(lbs) over the steps of an epoch, bnn_vi.py:129 *)
Definition epoch_average {A} (prior : R) (size : nat) (ll : A -> R) (rows : list A) : R :=
  reduce_mean (minibatch_log_joint prior (length rows) ll) (all_batches size rows).

(** Normal._log_prob: zhusuan/distributions/univariate.py:174-181. *)
Definition normal_log_prob (mean logstd y : R) : R :=
  -0.5 * ln (2 * PI) - logstd - 0.5 * exp (-2 * logstd) * (y - mean) ^ 2.
(** log_mean_exp over the particles: zhusuan/utils.py:190-196. *)
Definition particle_log_mean_exp (l : list R) : R :=
  let x_max := match l with [] => 0 | x :: l' => fold_right Rmax x l' end in
  ln (reduce_mean (fun x => exp (x - x_max)) l) + x_max.
(** The tests feed standardized values: a point is a target and the predicted mean of every
    particle. *)
Definition point := (R * list R)%type.
(** y_pred = tf.reduce_mean(y_mean, 0) *)
Definition y_pred (p : point) : R := reduce_mean (fun m => m) (snd p).
(** rmse: bnn_vi.py:100, bnn_sgmcmc.py:134 *)
Definition rmse (std_y_train : R) (pts : list point) : R :=
  sqrt (reduce_mean (fun p => (y_pred p - fst p) ^ 2) pts) * std_y_train.
(** pred_mse: svgp.py:149 *)
Definition pred_mse (std_y_train : R) (pts : list point) : R :=
  reduce_mean (fun p => (y_pred p - fst p) ^ 2) pts * std_y_train ^ 2.
(** log_likelihood: bnn_vi.py:101-103, with the log noise level [logstd] of the model. *)
Definition log_likelihood (std_y_train logstd : R) (pts : list point) : R :=
  reduce_mean (fun p => particle_log_mean_exp (map (fun m => normal_log_prob m logstd (fst p)) (snd p))) pts
  - ln std_y_train.
(** log_likelihood: svgp.py:145-147. The log densities of the points of the batch are summed for
    every particle first (group_ndims=1); [particles] lists the predicted means of a particle. *)
Definition joint_log_likelihood (std_y_train logstd : R) (ys : list R) (particles : list (list R)) : R :=
  particle_log_mean_exp (map (fun ms => total (fun ym => normal_log_prob (snd ym) logstd (fst ym)) (combine ys ms)) particles)
  / INR (length ys) - ln std_y_train.
