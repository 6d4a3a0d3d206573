(** Model of the backward-operation search of zhusuan/framework/utils.py.

    TensorFlow operations are identified by numbers; a tensor is an output
    (op, index) of an operation.  Simplification: tensor/op identity (Python
    [is]/hash) is equality of these identifiers. *)
From Coq Require Import List Arith Bool.
Import ListNotations.

Definition op := nat.

(** tf.Tensor: [t_op] is [tensor.op]; [t_idx] its output index. *)
Record tensor := Tensor { t_op : op; t_idx : nat }.

Definition tensor_eqb (a b : tensor) : bool :=
  Nat.eqb (t_op a) (t_op b) && Nat.eqb (t_idx a) (t_idx b).

(** tf.Operation attributes read by the search: [op.inputs] (tensors) and
    [op.control_inputs] (operations).  framework/utils.py:74-77. *)
Record graph := Graph {
  op_inputs : op -> list tensor;
  op_control_inputs : op -> list op }.

(** [x in set] for the Python sets [treat_as_inputs], [seen], [done]. *)
Definition tensor_in (t : tensor) (s : list tensor) : bool :=
  existsb (tensor_eqb t) s.
Definition op_in (o : op) (s : list op) : bool := existsb (Nat.eqb o) s.

(** [list(OrderedDict.fromkeys(l))]: keep first occurrences, in order.
    framework/utils.py:66. *)
Fixpoint fromkeys_acc (acc : list op) (l : list op) : list op :=
  match l with
  | [] => []
  | o :: l' => if op_in o acc then fromkeys_acc acc l'
               else o :: fromkeys_acc (o :: acc) l'
  end.
Definition fromkeys (l : list op) : list op := fromkeys_acc [] l.

(** [deque.appendleft] and [deque.extendleft] (which pushes one by one on the
    left, hence reverses). *)
Definition appendleft (q : list op) (o : op) : list op := o :: q.
Definition extendleft (q : list op) (l : list op) : list op :=
  fold_left appendleft l q.

(** The local variables of the while loop, framework/utils.py:67-70. *)
Record dfs := Dfs {
  d_q : list op; d_seen : list op; d_done : list op; d_ret : list op }.

(** framework/utils.py:74-77: queue after first visit of [o] (which stays in
    the queue): data inputs not in [treat_as_inputs] pushed one by one in
    reverse, then [extendleft(reversed(control_inputs))]. *)
Definition push_inputs (g : graph) (treat : list tensor) (o : op) (q : list op)
  : list op :=
  let q1 := fold_left
    (fun q t => if tensor_in t treat then q else appendleft q (t_op t))
    (rev (op_inputs g o)) q in
  extendleft q1 (rev (op_control_inputs g o)).

(** One iteration of [while q:], framework/utils.py:71-83; [None] when the
    queue is empty. *)
Definition dfs_step (g : graph) (treat : list tensor) (s : dfs) : option dfs :=
  match d_q s with
  | [] => None
  | o :: q' =>
      if negb (op_in o (d_seen s)) then
        Some (Dfs (push_inputs g treat o (d_q s)) (o :: d_seen s)
                  (d_done s) (d_ret s))
      else if negb (op_in o (d_done s)) then
        Some (Dfs q' (d_seen s) (o :: d_done s) (d_ret s ++ [o]))
      else Some (Dfs q' (d_seen s) (d_done s) (d_ret s))
  end.

(** The while loop with an explicit step budget; [None] = budget exhausted
    (excluded by theorem for a large enough budget). *)
Fixpoint dfs_loop (fuel : nat) (g : graph) (treat : list tensor) (s : dfs)
  : option (list op) :=
  match dfs_step g treat s with
  | None => Some (d_ret s)
  | Some s' => match fuel with
               | 0 => None
               | S f => dfs_loop f g treat s'
               end
  end.

(** get_backward_ops, framework/utils.py:49-85, for a list of seed tensors
    (lines 61-64, the defaulting of [treat_as_inputs] and wrapping a single
    seed in a list, is the caller's choice of lists here). *)
Definition get_backward_ops (fuel : nat) (g : graph) (seeds : list tensor)
  (treat : list tensor) : option (list op) :=
  let seeds' := filter (fun t => negb (tensor_in t treat)) seeds in
  dfs_loop fuel g treat (Dfs (fromkeys (map t_op seeds')) [] [] []).
