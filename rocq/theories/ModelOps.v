(** Operators on tensor-like objects (zhusuan/utils.py, TensorArithmeticMixin) and the
    Python rules that select a method for an operator. *)
From Coq Require Import List ZArith Bool.
Import ListNotations.

(** The TensorFlow functions called by the mixin, utils.py:27-114. *)
Inductive tf_op :=
  tf_abs | tf_negative | tf_add | tf_subtract | tf_multiply | tf_divide | tf_truediv
| tf_floordiv | tf_mod | tf_pow | tf_logical_not | tf_logical_and | tf_logical_or
| tf_logical_xor | tf_less | tf_less_equal | tf_greater | tf_greater_equal.

(** A Python object: its identity, and whether it is a tensor-like object of this
    library or a foreign one (number, list, ...) whose own operator methods return
    NotImplemented for a tensor-like operand. Foreign objects of TensorFlow and NumPy
    types have operator methods of their own and are not modelled. *)
Inductive kind := Mixin | Foreign.
Record object := Object { identity : Z; kind_of : kind }.

(** What an operator returns: a TensorFlow node over its operands, or an exception. *)
Inductive outcome :=
| Node (op : tf_op) (operands : list object)
| Item (whole : object) (item : Z)
| Bool (b : bool)
| TypeError.

(** The special methods, by name. [None]: not defined by the class, or the call
    returns NotImplemented. *)
Inductive method :=
  m_abs | m_neg | m_invert
| m_add | m_radd | m_sub | m_rsub | m_mul | m_rmul | m_div | m_rdiv
| m_truediv | m_rtruediv | m_floordiv | m_rfloordiv | m_mod | m_rmod | m_pow | m_rpow
| m_and | m_rand | m_or | m_ror | m_xor | m_rxor | m_lt | m_le | m_gt | m_ge
| m_eq | m_matmul | m_rmatmul | m_lshift | m_rlshift | m_rshift | m_rrshift.

(** utils.py:27-114 and 124-127: one line per method of the mixin. *)
Definition mixin_method (m : method) (self other : object) : option outcome :=
  match m with
  | m_abs => Some (Node tf_abs [self])
  | m_neg => Some (Node tf_negative [self])
  | m_add => Some (Node tf_add [self; other])
  | m_radd => Some (Node tf_add [other; self])
  | m_sub => Some (Node tf_subtract [self; other])
  | m_rsub => Some (Node tf_subtract [other; self])
  | m_mul => Some (Node tf_multiply [self; other])
  | m_rmul => Some (Node tf_multiply [other; self])
  | m_div => Some (Node tf_divide [self; other])
  | m_rdiv => Some (Node tf_divide [other; self])
  | m_truediv => Some (Node tf_truediv [self; other])
  | m_rtruediv => Some (Node tf_truediv [other; self])
  | m_floordiv => Some (Node tf_floordiv [self; other])
  | m_rfloordiv => Some (Node tf_floordiv [other; self])
  | m_mod => Some (Node tf_mod [self; other])
  | m_rmod => Some (Node tf_mod [other; self])
  | m_pow => Some (Node tf_pow [self; other])
  | m_rpow => Some (Node tf_pow [other; self])
  | m_invert => Some (Node tf_logical_not [self])
  | m_and => Some (Node tf_logical_and [self; other])
  | m_rand => Some (Node tf_logical_and [other; self])
  | m_or => Some (Node tf_logical_or [self; other])
  | m_ror => Some (Node tf_logical_or [other; self])
  | m_xor => Some (Node tf_logical_xor [self; other])
  | m_rxor => Some (Node tf_logical_xor [other; self])
  | m_lt => Some (Node tf_less [self; other])
  | m_le => Some (Node tf_less_equal [self; other])
  | m_gt => Some (Node tf_greater [self; other])
  | m_ge => Some (Node tf_greater_equal [self; other])
  | m_eq => Some (Bool (Z.eqb (identity self) (identity other)))
  | _ => None
  end.
Definition call (m : method) (self other : object) : option outcome :=
  match kind_of self with Mixin => mixin_method m self other | Foreign => None end.

(** The operators of the language. [Div] is the division of Python 2 without
    "from __future__ import division". *)
Inductive operator :=
  Add | Sub | Mul | Div | TrueDiv | FloorDiv | Mod | Pow | And | Or | Xor
| MatMul | LShift | RShift | Lt | Le | Gt | Ge.

(** The Python data model: the method tried on the left operand, and the one tried on
    the right operand with the operands exchanged. *)
Definition forward (o : operator) : method :=
  match o with
  | Add => m_add | Sub => m_sub | Mul => m_mul | Div => m_div | TrueDiv => m_truediv
  | FloorDiv => m_floordiv | Mod => m_mod | Pow => m_pow | And => m_and | Or => m_or | Xor => m_xor
  | MatMul => m_matmul | LShift => m_lshift | RShift => m_rshift
  | Lt => m_lt | Le => m_le | Gt => m_gt | Ge => m_ge
  end.
Definition reflected (o : operator) : method :=
  match o with
  | Add => m_radd | Sub => m_rsub | Mul => m_rmul | Div => m_rdiv | TrueDiv => m_rtruediv
  | FloorDiv => m_rfloordiv | Mod => m_rmod | Pow => m_rpow | And => m_rand | Or => m_ror | Xor => m_rxor
  | MatMul => m_rmatmul | LShift => m_rlshift | RShift => m_rrshift
  | Lt => m_gt | Le => m_ge | Gt => m_lt | Ge => m_le
  end.
(** [a o b]. The right operand is asked first when [right_first], which the language
    does if its class is a proper subclass of the left operand's. *)
Definition binary (right_first : bool) (o : operator) (a b : object) : outcome :=
  let l := call (forward o) a b in
  let r := call (reflected o) b a in
  match (if right_first then match r with Some x => Some x | None => l end
         else match l with Some x => Some x | None => r end) with
  | Some x => x
  | None => TypeError
  end.
(** [a == b]: when both sides decline the language compares identities. *)
Definition equal (right_first : bool) (a b : object) : outcome :=
  let l := call m_eq a b in
  let r := call m_eq b a in
  match (if right_first then match r with Some x => Some x | None => l end
         else match l with Some x => Some x | None => r end) with
  | Some x => x
  | None => Bool (Z.eqb (identity a) (identity b))
  end.
(** [abs(a)], [-a], [~a]. *)
Definition unary (m : method) (a : object) : outcome :=
  match call m a a with Some x => x | None => TypeError end.

(** __getitem__, utils.py:117-118; __hash__, utils.py:121-123; __iter__, __bool__ and
    __nonzero__, utils.py:130-150, of a tensor-like object. *)
Definition getitem (a : object) (item : Z) : outcome := Item a item.
Definition hash (a : object) : Z := identity a.
Definition iterate (a : object) : outcome := TypeError.
Definition truth (a : object) : outcome := TypeError.

(** Python statements that test or iterate: [if a], [not a], [a and b] and [a or b] ask
    for the truth value; [for x in a], [tuple(a)] and, as the class has no
    __contains__, [x in a] ask for an iterator. The result when no exception is raised
    is [k]. *)
Definition conditional (a : object) (k : bool -> outcome) : outcome :=
  match truth a with Bool b => k b | _ => TypeError end.
Definition for_each (a : object) (k : list object -> outcome) : outcome :=
  match iterate a with TypeError => TypeError | _ => k [] end.

(** A Python dictionary with tensor-like keys: a probe matches an entry with the same
    hash whose key is the same object or equal to it. *)
Definition matches (k key : object) : bool :=
  Z.eqb (hash k) (hash key) &&
  (Z.eqb (identity k) (identity key) || match equal false key k with Bool b => b | _ => false end).
Fixpoint dict_get {V} (d : list (object * V)) (k : object) : option V :=
  match d with
  | [] => None
  | (key, v) :: d' => if matches k key then Some v else dict_get d' k
  end.
Fixpoint dict_set {V} (d : list (object * V)) (k : object) (v : V) : list (object * V) :=
  match d with
  | [] => [(k, v)]
  | (key, w) :: d' => if matches k key then (key, v) :: d' else (key, w) :: dict_set d' k v
  end.
