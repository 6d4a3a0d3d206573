(** Shapes, broadcasting and grouping: model of zhusuan/distributions/utils.py
    and of the shape logic of zhusuan/distributions/base.py, together with the
    TensorFlow primitives they call (tensors with run-time shapes, elementwise
    ops with broadcasting, static shape inference). *)
From Coq Require Import List Arith Bool ZArith.
Import ListNotations.

Definition shape := list nat.
Definition index := list nat.

(** ** TensorFlow run-time semantics *)

(** A tensor: run-time shape and element at each index. Only the elements at
    indices inside the shape are meaningful. *)
Record tensor (A : Type) := Tensor { t_shape : shape; t_at : index -> A }.
Arguments Tensor {A}. Arguments t_shape {A}. Arguments t_at {A}.

(** Broadcasting of one pair of extents (TensorFlow BCast). *)
Definition bdim (a b : nat) : option nat :=
  if Nat.eqb a b then Some a
  else if Nat.eqb a 1 then Some b
  else if Nat.eqb b 1 then Some a
  else None.

(** On shapes written with the last axis first. *)
Fixpoint bzip (s t : list nat) : option (list nat) :=
  match s, t with
  | [], _ => Some t
  | _, [] => Some s
  | a :: s', b :: t' =>
      match bdim a b, bzip s' t' with
      | Some c, Some u => Some (c :: u)
      | _, _ => None
      end
  end.

(** tf.broadcast_dynamic_shape, and the output shape of elementwise ops. *)
Definition bshape (s t : shape) : option shape :=
  option_map (@rev nat) (bzip (rev s) (rev t)).

(** The element of an operand of shape [s] that an elementwise op reads for
    output index [i]: trailing axes, stretched axes read at 0. *)
Definition bindex (s : shape) (i : index) : index :=
  map (fun p => if Nat.eqb (fst p) 1 then 0 else snd p)
      (combine s (skipn (length i - length s) i)).

Section Ops.
Context {A : Type}.

(** Elementwise binary op with broadcasting; [None] = InvalidArgument. *)
Definition elementwise {B C} (f : A -> B -> C) (x : tensor A) (y : tensor B)
  : option (tensor C) :=
  match bshape (t_shape x) (t_shape y) with
  | Some s => Some (Tensor s (fun i => f (t_at x (bindex (t_shape x) i))
                                         (t_at y (bindex (t_shape y) i))))
  | None => None
  end.

(** tf.ones_like *)
Definition ones_like {B} (one : A) (y : tensor B) : tensor A :=
  Tensor (t_shape y) (fun _ => one).

(** explicit_broadcast, utils.py:36-49, at run time; [mul], [one] are the
    multiplication and the 1 of the dtype. *)
Definition explicit_broadcast (mul : A -> A -> A) (one : A) (x y : tensor A)
  : option (tensor A * tensor A) :=
  match elementwise mul x (ones_like one y) with
  | Some x' =>
      match elementwise mul y (ones_like one x') with
      | Some y' => Some (x', y')
      | None => None
      end
  | None => None
  end.
End Ops.

(** ** Static shapes *)

(** TensorShape: unknown rank, or extents each possibly unknown. *)
Definition sshape := option (list (option nat)).

(** TensorShape.__bool__ / [is_fully_defined] / [ndims] *)
Definition rank_known (s : sshape) : bool := match s with Some _ => true | None => false end.
Definition fully_defined (s : sshape) : bool :=
  match s with
  | Some l => forallb (fun d => match d with Some _ => true | None => false end) l
  | None => false
  end.
Definition ndims (s : sshape) : option nat := option_map (@length _) s.

(** TensorShape.concatenate *)
Definition sconcat (s t : sshape) : sshape :=
  match s, t with Some l, Some m => Some (l ++ m) | _, _ => None end.

(** tf.broadcast_static_shape (python/framework/common_shapes.broadcast_shape):
    [inl tt] = ValueError. *)
Definition sbdim (a b : option nat) : option (option nat) :=
  match a, b with
  | Some x, Some y =>
      if Nat.eqb x 1 then Some (Some y)
      else if Nat.eqb y 1 then Some (Some x)
      else if Nat.eqb x y then Some (Some x)
      else None
  | Some x, None => if Nat.ltb 1 x then Some (Some x) else Some None
  | None, Some y => if Nat.ltb 1 y then Some (Some y) else Some None
  | None, None => Some None
  end.
Fixpoint sbzip (s t : list (option nat)) : option (list (option nat)) :=
  match s, t with
  | [], _ => Some t
  | _, [] => Some s
  | a :: s', b :: t' =>
      match sbdim a b, sbzip s' t' with
      | Some c, Some u => Some (c :: u)
      | _, _ => None
      end
  end.
Definition broadcast_static_shape (s t : sshape) : option sshape :=
  match s, t with
  | Some l, Some m => option_map (fun u => Some (rev u)) (sbzip (rev l) (rev m))
  | _, _ => Some None
  end.

(** A tensor being built into a graph: what is known statically of the tensor
    that will exist at run time. *)
Record gtensor (A : Type) := GTensor { g_static : sshape; g_run : tensor A }.
Arguments GTensor {A}. Arguments g_static {A}. Arguments g_run {A}.

Inductive result (A : Type) := Ok (a : A) | BuildError | RunError.
Arguments Ok {A}. Arguments BuildError {A}. Arguments RunError {A}.

Section Graph.
Context {A : Type} (mul : A -> A -> A) (one : A).

(** Elementwise op: static shape inference when the graph is built, then the
    run-time op. *)
Definition gmul (x y : gtensor A) : result (gtensor A) :=
  match broadcast_static_shape (g_static x) (g_static y) with
  | None => BuildError
  | Some s => match elementwise mul (g_run x) (g_run y) with
              | Some t => Ok (GTensor s t)
              | None => RunError
              end
  end.
Definition gones_like (y : gtensor A) : gtensor A :=
  GTensor (g_static y) (ones_like one (g_run y)).

(** explicit_broadcast, utils.py:36-49. A build error is the ValueError raised
    there. A failing run-time op is reported as RunError even if only reached by
    running the second product (building it may still raise first). *)
Definition gexplicit_broadcast (x y : gtensor A) : result (gtensor A * gtensor A) :=
  match gmul x (gones_like y) with
  | Ok x' => match gmul y (gones_like x') with
             | Ok y' => Ok (x', y')
             | BuildError => BuildError
             | RunError => RunError
             end
  | BuildError => BuildError
  | RunError => RunError
  end.

Fixpoint sdims_eqb (s t : list (option nat)) : bool :=
  match s, t with
  | [], [] => true
  | Some a :: s', Some b :: t' => Nat.eqb a b && sdims_eqb s' t'
  | _, _ => false
  end.

(** maybe_explicit_broadcast, utils.py:52-78. *)
Definition maybe_explicit_broadcast (x y : gtensor A) : result (gtensor A * gtensor A) :=
  match g_static x, g_static y with
  | Some l, Some m =>
      if negb (Nat.eqb (length l) (length m)) then gexplicit_broadcast x y
      else if fully_defined (Some l) && fully_defined (Some m) then
        if sdims_eqb l m then Ok (x, y) else gexplicit_broadcast x y
      else gexplicit_broadcast x y
  | _, _ => gexplicit_broadcast x y
  end.
End Graph.

(** ** Shape queries *)

(** get_shape_list, utils.py:187-204: each item is a static int or an element of
    the dynamic shape ([val or dynamic_shape[i]]: 0 counts as unknown); the model
    returns the number the item evaluates to. *)
Fixpoint shape_items (l : list (option nat)) (dynamic : shape) (i : nat) : list (option nat) :=
  match l with
  | [] => []
  | v :: l' => (match v with
                | Some (S n) => Some (S n)
                | _ => nth_error dynamic i
                end) :: shape_items l' dynamic (S i)
  end.
Definition get_shape_list {A} (t : gtensor A) : option (list (option nat)) :=
  match g_static t with
  | None => None
  | Some l => Some (shape_items l (t_shape (g_run t)) 0)
  end.

(** Python / strided-slice indexing with a possibly negative axis. *)
Definition at_axis {X} (l : list X) (axis : Z) : option X :=
  let k := if (axis <? 0)%Z then (axis + Z.of_nat (length l))%Z else axis in
  if (k <? 0)%Z then None else nth_error l (Z.to_nat k).

(** get_shape_at, utils.py:207-219; [None] = index error. *)
Definition get_shape_at {A} (t : gtensor A) (axis : Z) : option nat :=
  match get_shape_list t with
  | Some (d :: l) => match at_axis (d :: l) axis with Some v => v | None => None end
  | _ => at_axis (t_shape (g_run t)) axis   (* unknown rank, or an empty list *)
  end.

(** is_same_dynamic_shape, utils.py:81-98. *)
Definition is_same_dynamic_shape {A B} (x : tensor A) (y : tensor B) : bool :=
  let sx := t_shape x in let sy := t_shape y in
  if Nat.eqb (length sx) (length sy) then
    forallb (fun p => Nat.eqb (fst p) (snd p)) (combine (sx ++ sy) (sy ++ sx))
  else false.

(** assert_rank_at_least, utils.py:222-241. *)
Definition assert_rank_at_least {A} (t : gtensor A) (k : nat) : result (gtensor A) :=
  match g_static t with
  | Some l => if Nat.ltb (length l) k then BuildError else Ok t
  | None => if Nat.leb k (length (t_shape (g_run t))) then Ok t else RunError
  end.

(** assert_scalar, utils.py:256-273. tf.assert_rank(tensor, 0) itself raises at
    build time when the static rank is known to differ. *)
Definition assert_scalar {A} (t : gtensor A) : result (gtensor A) :=
  match g_static t with
  | Some l => if Nat.leb 1 (length l) then BuildError
              else if Nat.eqb (length (t_shape (g_run t))) 0 then Ok t else RunError
  | None => if Nat.eqb (length (t_shape (g_run t))) 0 then Ok t else RunError
  end.

(** ** Distribution base class *)

(** Distribution._check_input_shape, base.py:271-288: false = ValueError. *)
Definition check_input_shape (given batch value : sshape) : bool :=
  match given, batch, value with
  | Some _, Some _, Some _ =>
      match broadcast_static_shape given (sconcat batch value) with
      | Some _ => true | None => false
      end
  | _, _, _ => true
  end.

(** Shape part of StochasticTensor._check_observation, bn.py:104-114. *)
Definition check_observation_shape (batch value obs : sshape) : bool :=
  match broadcast_static_shape (sconcat batch value) obs with
  | Some _ => true | None => false
  end.

(** Reduction of all the elements at indices of a shape with a binary operation
    ([tf.reduce_sum], [tf.reduce_prod]). *)
Fixpoint big {A} (op : A -> A -> A) (e : A) (ds : shape) (f : index -> A) : A :=
  match ds with
  | [] => f []
  | d :: ds' => fold_right (fun i acc => op (big op e ds' (fun j => f (i :: j))) acc) e (seq 0 d)
  end.

(** [tf.reduce_xxx(t, tf.range(-g, 0))], base.py:304, 320; [None] = axis out of
    range. *)
Definition reduce_last {A} (op : A -> A -> A) (e : A) (g : nat) (t : tensor A)
  : option (tensor A) :=
  let r := length (t_shape t) in
  if Nat.leb g r then
    Some (Tensor (firstn (r - g) (t_shape t))
            (fun i => big op e (skipn (r - g) (t_shape t)) (fun j => t_at t (i ++ j))))
  else None.

(** Distribution.__init__, base.py:99-102: group_ndims given as an int. *)
Definition init_group_ndims (g : Z) : option nat :=
  if (g <? 0)%Z then None else Some (Z.to_nat g).

(** Distribution.log_prob / prob for an elementwise (univariate) distribution
    with parameters of broadcast shape [batch]: base.py:290-320. [lp] is
    [_log_prob] of one value against one parameter. *)
Definition log_prob_grouped {X P A} (add : A -> A -> A) (zero : A) (lp : X -> P -> A)
  (g : nat) (given : tensor X) (param : tensor P) : option (tensor A) :=
  match elementwise lp given param with
  | Some t => reduce_last add zero g t
  | None => None
  end.
