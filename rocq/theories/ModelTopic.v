(** The topic model example, examples/topic_models/lntm_mcem.py. Values are reals. Not modelled:
    the optimizer of the M step and the inner workings of HMC (see ModelHMC.v), which enter as
    functions; the printed list of topics. *)
From Coq Require Import List Reals Arith.
From Verif Require Import SpecDist ModelDist ModelExamples.
Import ListNotations.
Local Open Scope R_scope.

(** A row of doc_word for a document with topic parameters [eta], lntm_mcem.py:40-45: theta and
    phi are softmax over the last axis; tf.matmul sums over the topics. *)
Definition doc_word (n_vocab : nat) (eta : list R) (beta : list (list R)) : list R :=
  let theta := softmax eta in
  let phi := map softmax beta in
  map (fun v => total (fun k => nth k theta 0 * nth v (nth k phi []) 0) (seq 0 (length eta))) (seq 0 n_vocab).
(** log p(x | eta, beta) of one document, lntm_mcem.py:46-47. *)
Definition doc_log_px (n_vocab : nat) (beta : list (list R)) (eta x : list R) : R :=
  unnormalized_multinomial_lp false x (map ln (doc_word n_vocab eta beta)).
(** log_px of a batch for one chain: the sum over its documents, lntm_mcem.py:109. *)
Definition batch_log_px (n_vocab : nat) (beta : list (list R)) (docs : list (list R * list R)) : R :=
  total (fun d => doc_log_px n_vocab beta (fst d) (snd d)) docs.
(** The printed perplexity: np.exp(-np.sum(lls) / np.sum(X_train)), lntm_mcem.py:191. *)
Definition perplexity (lls : list R) (X_train : list (list R)) : R :=
  exp (- total (fun l => l) lls / total (fun x => total (fun w => w) x) X_train).
(** learning_rate of an epoch, lntm_mcem.py:150. *)
Definition learning_rate (learning_rate_0 t0 : R) (epoch : nat) : R :=
  learning_rate_0 * (t0 / (t0 + INR epoch)) ^ 2.
(** The hyper-parameters of one topic from its values in all rows of Eta, lntm_mcem.py:183-184. *)
Definition Eta_mean (etas : list R) : R := total (fun e => e) etas / INR (length etas).
Definition Eta_logstd (etas : list R) : R :=
  ln (sqrt (total (fun e => (e - Eta_mean etas) ^ 2) etas / INR (length etas)) + 1 / 1000000).

(** ** The training loop, lntm_mcem.py:148-184 *)
Section loop.
(** Documents [X], topic parameters [E] of a document (all chains), and everything else that
    changes [S]: beta, the hyper-parameters, the state of HMC and of the optimizer.
    [sample] is one run of sample_op on a batch, [m_step] one run of infer. *)
Context {X E S : Type} (dx : X) (de : E).
Variables (sample : S -> list X -> list E -> S * list E) (m_step : S -> list X -> list E -> S)
          (hyper : S -> list E -> S) (num_e_steps batch_size : nat).
(** Eta[:, a:b, :] = new *)
Definition store (a b : nat) (l new : list E) : list E := firstn a l ++ new ++ skipn b l.
(** The runs of sample_op on the variable eta, lntm_mcem.py:163-171. *)
Fixpoint e_step (n : nat) (s : S) (xs : list X) (es : list E) : S * list E :=
  match n with
  | O => (s, es)
  | Datatypes.S n' => let '(s', es') := sample s xs es in e_step n' s' xs es'
  end.
(** One batch, lntm_mcem.py:158-181 *)
Definition train_batch (Xs : list X) (st : S * list E) (t : nat) : S * list E :=
  let '(s, Eta) := st in
  let x_batch := slice (t * batch_size) ((t + 1) * batch_size) Xs in
  let old_eta := slice (t * batch_size) ((t + 1) * batch_size) Eta in
  let '(s1, new_eta) := e_step num_e_steps s x_batch old_eta in
  (m_step s1 x_batch new_eta, store (t * batch_size) ((t + 1) * batch_size) Eta new_eta).
(** One epoch with the shuffled order [perm], lntm_mcem.py:150-184 *)
Definition train_epoch (st : S * list X * list E) (perm : list nat) : S * list X * list E :=
  let '(s, Xs, Eta) := st in
  let Xs' := rows_at dx Xs perm in
  let Eta' := rows_at de Eta perm in
  let '(s', Eta'') := fold_left (train_batch Xs') (seq 0 (length Xs / batch_size)) (s, Eta') in
  (hyper s' Eta'', Xs', Eta'').
Definition train (st : S * list X * list E) (perms : list (list nat)) : S * list X * list E :=
  fold_left train_epoch perms st.
End loop.
