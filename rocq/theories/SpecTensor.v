(** What an elementwise tensor computation should produce, independently of the
    order in which the code combines its operands. *)
From Coq Require Import List Arith.
From Verif Require Import ModelShape SpecShape ModelTensor.
Import ListNotations.

(** [u] is the joint broadcast of all the shapes [ss]. *)
Definition broadcast_all (ss : list shape) (u : shape) : Prop :=
  (forall s, In s ss -> length s <= length u) /\
  (u = [] \/ exists s, In s ss /\ length s = length u) /\
  forall k, (forall s, In s ss -> dim s k = 1 \/ dim s k = dim u k) /\
            (dim u k = 1 \/ exists s, In s ss /\ dim s k = dim u k).

(** All the shapes can be broadcast together. *)
Definition all_compatible (ss : list shape) : Prop :=
  forall s t, In s ss -> In t ss -> compatible s t.

(** [v] is the element of [t] that position [i] of a larger shape shows. *)
Definition shown {A} (t : tensor A) (i : index) (v : A) : Prop :=
  exists j, shows (t_shape t) i j /\ v = t_at t j.

(** [out] is the elementwise application of [f] to the broadcast of its inputs:
    defined exactly when they are compatible, of the joint broadcast shape, and
    each element is [f] of the elements shown there. *)
Definition computes2 {A} (out : option (tensor A)) (f : A -> A -> A) (x a : tensor A) : Prop :=
  (all_compatible [t_shape x; t_shape a] -> exists t, out = Some t) /\
  forall t, out = Some t -> broadcast_all [t_shape x; t_shape a] (t_shape t) /\
    forall i vx va, valid (t_shape t) i -> shown x i vx -> shown a i va -> t_at t i = f vx va.
Definition computes3 {A} (out : option (tensor A)) (f : A -> A -> A -> A) (x a b : tensor A) : Prop :=
  (all_compatible [t_shape x; t_shape a; t_shape b] -> exists t, out = Some t) /\
  forall t, out = Some t -> broadcast_all [t_shape x; t_shape a; t_shape b] (t_shape t) /\
    forall i vx va vb, valid (t_shape t) i -> shown x i vx -> shown a i va -> shown b i vb ->
      t_at t i = f vx va vb.

(** The list of the [k] elements of [t] shown along the last axis at [i]. *)
Definition shown_row {A} (t : tensor A) (k : nat) (i : index) (l : list A) : Prop :=
  length l = k /\ forall c d, c < k -> shown t (i ++ [c]) (nth c l d).

(** What [Distribution.sample] promises for a distribution whose batch shape plus
    value shape is [out]: [n] draws stacked on a new first axis, or a single draw
    without it; [value n s i] is the required element of draw [s]. *)
Definition sample_contract {A} (draw : nat -> option (tensor A)) (out : shape)
  (value : nat -> nat -> index -> A -> Prop) : Prop :=
  (forall n, exists t, sample draw (Some n) = Some t /\ t_shape t = n :: out /\
     forall s i, s < n -> valid out i -> value n s i (t_at t (s :: i))) /\
  exists t, sample draw None = Some t /\ t_shape t = out /\
     forall i, valid out i -> value 1 0 i (t_at t i).

(** [out] applies [f] to whole rows (last axis, extent [k]): when the joint
    broadcast of the two inputs is [w ++ [k]], the result is defined, has shape [w],
    and each element is [f] of the two rows shown there. *)
Definition computes_rows {A B} (out : option (tensor B)) (f : list A -> list A -> B) (x a : tensor A) (k : nat) : Prop :=
  forall w, broadcast_all [t_shape x; t_shape a] (w ++ [k]) ->
    exists t, out = Some t /\ t_shape t = w /\
      forall i lx la, valid w i -> shown_row x k i lx -> shown_row a k i la -> t_at t i = f lx la.
