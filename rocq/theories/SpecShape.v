(** NumPy broadcasting, stated axis by axis counting from the last one. *)
From Coq Require Import List Arith.
From Verif Require Import ModelShape.
Import ListNotations.

(** Extent of axis [k] counted from the end; 1 beyond the rank. *)
Definition dim (s : shape) (k : nat) : nat := nth k (rev s) 1.

Definition compatible (s t : shape) : Prop :=
  forall k, dim s k = dim t k \/ dim s k = 1 \/ dim t k = 1.

(** [u] is the broadcast of [s] and [t]. *)
Definition is_broadcast (s t u : shape) : Prop :=
  length u = max (length s) (length t) /\
  forall k, dim u k = if Nat.eqb (dim s k) 1 then dim t k else dim s k.

(** [i] is an index of a tensor of shape [s]. *)
Definition valid (s : shape) (i : index) : Prop :=
  length i = length s /\ forall k, k < length s -> nth k (rev i) 0 < dim s k.

(** [j] is the index of the element of a tensor of shape [s] that position [i]
    of the broadcast shows: same trailing coordinates, 0 on axes of extent 1. *)
Definition shows (s : shape) (i j : index) : Prop :=
  length j = length s /\
  forall k, k < length s -> nth k (rev j) 0 = if Nat.eqb (dim s k) 1 then 0 else nth k (rev i) 0.

(** [l] is (partial) static knowledge of the run-time shape [s]. *)
Definition knows (l : sshape) (s : shape) : Prop :=
  match l with
  | None => True
  | Some ds => Forall2 (fun d n => match d with Some m => m = n | None => True end) ds s
  end.
