(** What the operators should mean. *)
From Coq Require Import List ZArith.
From Verif Require Import ModelOps.
Import ListNotations.

(** The TensorFlow function an operator stands for. *)
Definition meaning (o : operator) : option tf_op :=
  match o with
  | Add => Some tf_add | Sub => Some tf_subtract | Mul => Some tf_multiply | Div => Some tf_divide
  | TrueDiv => Some tf_truediv | FloorDiv => Some tf_floordiv | Mod => Some tf_mod | Pow => Some tf_pow
  | And => Some tf_logical_and | Or => Some tf_logical_or | Xor => Some tf_logical_xor
  | Lt => Some tf_less | Le => Some tf_less_equal | Gt => Some tf_greater | Ge => Some tf_greater_equal
  | MatMul | LShift | RShift => None
  end.
Definition comparison (o : operator) : bool :=
  match o with Lt | Le | Gt | Ge => true | _ => false end.
(** One operand is tensor-like. *)
Definition involved (a b : object) : Prop := kind_of a = Mixin \/ kind_of b = Mixin.

(** The value of a node when TensorFlow's binary functions compute [f] and the operands
    evaluate to [value]. *)
Definition denote {V} (f : tf_op -> V -> V -> V) (value : object -> V) (x : outcome) : option V :=
  match x with Node op [a; b] => Some (f op (value a) (value b)) | _ => None end.
(** "a is less than b" and "b is greater than a" agree. *)
Definition converse {V} (f : tf_op -> V -> V -> V) : Prop :=
  forall a b, f tf_greater a b = f tf_less b a /\ f tf_greater_equal a b = f tf_less_equal b a.
