(** The matrix factorization example, examples/probabilistic_matrix_factorization/pmf_hmc.py: the
    sampling of users and movies in chunks. One of the K particles is followed (HMC moves them
    separately; they share the ratings). A row of D numbers is a value of [T]. *)
From Coq Require Import List Reals Arith.
From Verif Require Import SpecDist ModelExamples ModelTrain.
Import ListNotations.
Local Open Scope R_scope.

(** N = (N + chunk_size - 1) // chunk_size; N *= chunk_size, pmf_hmc.py:79-82 *)
Definition rounded (n chunk_size : nat) : nat := ((n + chunk_size - 1) / chunk_size * chunk_size)%nat.

Section PMF.
Context {T : Type} (zero : T)
  (log_pu log_pv : T -> R)         (* log densities of a row: normal nodes "u", "v", pmf_hmc.py:22-25 *)
  (log_pr : T -> T -> nat -> R)    (* log density of a score given the rows: node "r", 26-30 *)
  (distinct : list nat -> list nat) (* list(set(sv)), 45 *)
  (chunk_size : nat)
  (user_movie user_movie_score movie_user movie_user_score : list (list nat)).
(** tf.gather(u, select_u, axis=1), tf.gather(v, select_v, axis=1), pmf_hmc.py:26-27, and the log_joint of
    136-144. *)
Definition log_joint (u v : list T) (select_u select_v true_rating : list nat) : R :=
  total log_pu u + total log_pv v +
  total (fun t => log_pr (nth (fst (fst t)) u zero) (nth (snd (fst t)) v zero) (snd t))
    (combine (combine select_u select_v) true_rating).
(** What sample_u_op samples from in iteration [i], pmf_hmc.py:146-149 with the feeds of 179-192:
    the observed rows of v are target_v, 127. *)
Definition target_user (V : list T) (i : nat) (u : list T) : R :=
  let '(nv, sv, tr, ssu, ssv) :=
    select_from_corpus distinct (i * chunk_size) ((i + 1) * chunk_size) user_movie user_movie_score in
  log_joint u (rows_at zero V sv) ssu ssv tr.
(** sample_v_op, 150-153 with the feeds of 195-208 *)
Definition target_movie (U : list T) (i : nat) (v : list T) : R :=
  let '(nu, su, tr, ssv, ssu) :=
    select_from_corpus distinct (i * chunk_size) ((i + 1) * chunk_size) movie_user movie_user_score in
  log_joint (rows_at zero U su) v ssu ssv tr.
(** tf.assign(Us[i], candidate_sample_u), 165-170 *)
Definition assign_chunk (i : nat) (c : list T) (chunks : list (list T)) : list (list T) :=
  firstn i chunks ++ c :: skipn (S i) chunks.
(** candidate_u = tf.gather(U, range(i * chunk_size, (i + 1) * chunk_size), axis=1), 159, 183-186 *)
Definition candidate (chunks : list (list T)) (i : nat) : list T :=
  rows_at zero (concat chunks) (seq (i * chunk_size) chunk_size).
(** An iteration over the users' chunks, 178-193: copy the chunk, run HMC on the copy, store it.
    [hmc i f c] is the result of the sampler for the log density [f] from [c]; it may use random
    numbers and settings of its own in every iteration. *)
Definition user_step (hmc : nat -> (list T -> R) -> list T -> list T) (Vs Us : list (list T)) (i : nat) : list (list T) :=
  assign_chunk i (hmc i (target_user (concat Vs) i) (candidate Us i)) Us.
Definition movie_step (hmc : nat -> (list T -> R) -> list T -> list T) (Us Vs : list (list T)) (i : nat) : list (list T) :=
  assign_chunk i (hmc i (target_movie (concat Us) i) (candidate Vs i)) Vs.
(** An epoch, 178-209 *)
Definition pmf_epoch (hmc_u hmc_v : nat -> (list T -> R) -> list T -> list T) (s : list (list T) * list (list T)) :
    list (list T) * list (list T) :=
  let Us := fold_left (user_step hmc_u (snd s)) (seq 0 (length (fst s))) (fst s) in
  (Us, fold_left (movie_step hmc_v Us) (seq 0 (length (snd s))) (snd s)).
End PMF.

(** rmse, pmf_hmc.py:115-120. A point is the true rating and, for every particle, the predicted
    mean (node "r_pred") and the noise drawn for node "r", which is not observed here: the value
    of "r" is the mean plus alpha_pred times the noise. *)
Definition pmf_pred (alpha_pred : R) (particles : list (R * R)) : R :=
  reduce_mean (fun p => fst p + alpha_pred * snd p) particles.
Definition pmf_rmse (alpha_pred : R) (points : list (R * list (R * R))) : R :=
  sqrt (reduce_mean (fun p => (pmf_pred alpha_pred (snd p) - (fst p - 1) / 4) ^ 2) points) * 4.
