(** The semi-supervised example, examples/semi_supervised_vae/vae_ssl.py: the bound for
    unlabeled images as a sum over the classes, and the training cost. Values are reals;
    tensors of rank 2 and 3 are nested lists. *)
From Coq Require Import List Reals Arith.
From Verif Require Import SpecDist ModelDist ModelExamples.
Import ListNotations.
Local Open Scope R_scope.

(** tf.reshape(t, [-1, width]) of a flat list. *)
Fixpoint rows_of {A} (count width : nat) (l : list A) : list (list A) :=
  match count with
  | O => []
  | S c => firstn width l :: rows_of c width (skipn width l)
  end.
(** tf.eye(n_class), vae_ssl.py:111 *)
Definition y_diag (n_class : nat) : list (list R) :=
  map (fun i => map (fun j => if Nat.eqb i j then 1 else 0) (seq 0 n_class)) (seq 0 n_class).
(** tf.reshape(tf.tile(y_diag[None, ...], [n, 1, 1]), [-1, n_class]), vae_ssl.py:112 *)
Definition y_u (n n_class : nat) : list (list R) := concat (repeat (y_diag n_class) n).
(** tf.reshape(tf.tile(x_unlabeled[:, None, ...], [1, n_class, 1]), [-1, x_dim]),
    vae_ssl.py:113-114 *)
Definition x_u {X} (n_class : nat) (x_unlabeled : list X) : list X := concat (map (fun x => repeat x n_class) x_unlabeled).
(** lb_z: [elbo] gives the bound for one image with one label (observed x_u and y_u row by row),
    then the rows are gathered, vae_ssl.py:116-122. *)
Definition lb_z {X} (elbo : X -> list R -> R) (n_class : nat) (x_unlabeled : list X) : list (list R) :=
  rows_of (length x_unlabeled) n_class
    (map (fun xy => elbo (fst xy) (snd xy)) (combine (x_u n_class x_unlabeled) (y_u (length x_unlabeled) n_class))).
(** qy_u, vae_ssl.py:124-125 *)
Definition qy_u (logits : list R) : list R :=
  let q := map (fun p => p + 1 / 100000000) (softmax logits) in
  map (fun p => p / sumR q) q.
(** tf.reduce_sum(qy_u * (lb_z - log_qy_u), 1) of one image, vae_ssl.py:126-128 *)
Definition unlabeled_bound (logits lb : list R) : R :=
  sumR (map (fun ql => fst ql * (snd ql - ln (fst ql))) (combine (qy_u logits) lb)).
(** unlabeled_lower_bound of a batch, vae_ssl.py:123-128. [classify] gives the logits of qy_x; it
    is called with the fed images [x_unlabeled_ph], not with their random binarizations
    [x_unlabeled] that the bounds are for. *)
Definition unlabeled_lower_bound {P X} (classify : P -> list R) (elbo : X -> list R -> R) (n_class : nat)
  (x_unlabeled_ph : list P) (x_unlabeled : list X) : R :=
  total (fun p => unlabeled_bound (classify (fst p)) (snd p)) (combine x_unlabeled_ph (lb_z elbo n_class x_unlabeled))
  / INR (length x_unlabeled).
(** tf.argmax: the first largest entry. *)
Fixpoint argmax_from (best : R) (at_ next : nat) (l : list R) : nat :=
  match l with
  | [] => at_
  | x :: l' => if Rlt_dec best x then argmax_from x next (S next) l' else argmax_from best at_ (S next) l'
  end.
Definition argmax (l : list R) : nat := match l with [] => 0%nat | x :: l' => argmax_from x 0 1 l' end.
(** acc, vae_ssl.py:134-136: every hit counts 1 / n. *)
Definition acc (pairs : list (list R * list R)) : R :=
  total (fun p => (if Nat.eqb (argmax (softmax (fst p))) (argmax (snd p)) then 1 else 0) / INR (length pairs)) pairs.
