(** Tensor programs: the fragment of TensorFlow's elementwise and last-axis
    operations that the [_log_prob] and [_sample] methods of
    zhusuan/distributions are written in. A program is a syntax tree; [eval] is
    its run-time semantics, built on the broadcasting op of ModelShape.v. *)
From Coq Require Import List Arith Bool.
From Verif Require Import ModelShape.
Import ListNotations.

Section Programs.
Context {A : Type}.

Inductive expr : Type :=
  | Leaf (t : tensor A)                     (* a parameter, [given], a noise tensor *)
  | Const (c : A)                           (* a Python number: rank-0 tensor *)
  | Un (f : A -> A) (e : expr)              (* tf.exp(e), tf.log(e), -e, ... *)
  | Bin (f : A -> A -> A) (a b : expr)      (* a + b, a * b, ... with broadcasting *)
  | Row (f : list A -> A) (e : expr)        (* reduction over axis=-1 *)
  | RowKeep (f : list A -> A) (e : expr)    (* the same with keepdims=True *)
  | RowMap (f : list A -> nat -> A) (e : expr) (* softmax-like op along the last axis:
                                               element [k] of the new row *)
  | Expand (e : expr).                      (* tf.expand_dims(e, -1) *)

(** The last axis of a tensor at a prefix index, as a list. *)
Definition row (t : tensor A) (i : index) : list A :=
  map (fun k => t_at t (i ++ [k])) (seq 0 (last (t_shape t) 0)).

(** Reductions over axis -1 fail on a rank-0 tensor. *)
Definition reduce_row (f : list A -> A) (t : tensor A) : option (tensor A) :=
  match t_shape t with
  | [] => None
  | _ => Some (Tensor (removelast (t_shape t)) (fun i => f (row t i)))
  end.
Definition reduce_row_keep (f : list A -> A) (t : tensor A) : option (tensor A) :=
  match t_shape t with
  | [] => None
  | _ => Some (Tensor (removelast (t_shape t) ++ [1]) (fun i => f (row t (removelast i))))
  end.
Definition map_row (f : list A -> nat -> A) (t : tensor A) : option (tensor A) :=
  match t_shape t with
  | [] => None
  | _ => Some (Tensor (t_shape t) (fun i => f (row t (removelast i)) (last i 0)))
  end.

Fixpoint eval (e : expr) : option (tensor A) :=
  match e with
  | Leaf t => Some t
  | Const c => Some (Tensor [] (fun _ => c))
  | Un f e => option_map (fun t => Tensor (t_shape t) (fun i => f (t_at t i))) (eval e)
  | Bin f a b => match eval a, eval b with
                 | Some x, Some y => elementwise f x y
                 | _, _ => None
                 end
  | Row f e => match eval e with Some t => reduce_row f t | None => None end
  | RowKeep f e => match eval e with Some t => reduce_row_keep f t | None => None end
  | RowMap f e => match eval e with Some t => map_row f t | None => None end
  | Expand e => option_map (fun t => Tensor (t_shape t ++ [1]) (fun i => t_at t (removelast i)))
                           (eval e)
  end.

(** tf.squeeze(t, axis=0) of a tensor whose first extent is 1
    (Distribution.sample with n_samples=None, base.py:250-252). *)
Definition squeeze0 (t : tensor A) : option (tensor A) :=
  match t_shape t with
  | 1 :: s => Some (Tensor s (fun i => t_at t (0 :: i)))
  | _ => None
  end.

(** Distribution.sample, base.py:236-263: [draw n] is [_sample(n)]. *)
Definition sample (draw : nat -> option (tensor A)) (n_samples : option nat) : option (tensor A) :=
  match n_samples with
  | None => match draw 1 with Some t => squeeze0 t | None => None end
  | Some n => draw n
  end.

(** Row-major layout. *)
Definition size (s : shape) : nat := fold_right Nat.mul 1 s.
Fixpoint ravel (s : shape) (i : index) : nat :=
  match s, i with
  | _ :: s', k :: i' => k * size s' + ravel s' i'
  | _, _ => 0
  end.
Fixpoint unravel (s : shape) (k : nat) : index :=
  match s with
  | [] => []
  | _ :: s' => k / size s' :: unravel s' (k mod size s')
  end.

(** tf.reshape: InvalidArgument unless the sizes agree. *)
Definition reshape (s : shape) (t : tensor A) : option (tensor A) :=
  if Nat.eqb (size s) (size (t_shape t))
  then Some (Tensor s (fun i => t_at t (unravel (t_shape t) (ravel s i))))
  else None.

(** tf.reshape(t, [-1, n]): the first extent is computed; an error when it is not
    an integer. (For n = 0 TensorFlow cannot infer it either.) *)
Definition reshape_rows (n : nat) (t : tensor A) : option (tensor A) :=
  if Nat.eqb n 0 then None
  else if Nat.eqb (size (t_shape t) mod n) 0
  then reshape [size (t_shape t) / n; n] t
  else None.
(** tf.reshape(t, [-1]) *)
Definition reshape_flat (t : tensor A) : option (tensor A) :=
  reshape [size (t_shape t)] t.

(** tf.transpose of a matrix *)
Definition transpose2 (t : tensor A) : option (tensor A) :=
  match t_shape t with
  | [r; c] => Some (Tensor [c; r] (fun i => t_at t (rev i)))
  | _ => None
  end.

(** tf.reduce_sum(t, axis=0) and axis=1 *)
Definition reduce_axis0 (f : list A -> A) (t : tensor A) : option (tensor A) :=
  match t_shape t with
  | d :: s => Some (Tensor s (fun i => f (map (fun k => t_at t (k :: i)) (seq 0 d))))
  | [] => None
  end.
Definition reduce_axis1 (f : list A -> A) (t : tensor A) : option (tensor A) :=
  match t_shape t with
  | n :: d :: s => Some (Tensor (n :: s) (fun i =>
      match i with
      | a :: i' => f (map (fun k => t_at t (a :: k :: i')) (seq 0 d))
      | [] => f []
      end))
  | _ => None
  end.
End Programs.
Arguments expr : clear implicits.

(** tf.random.categorical(logits, m) on a [rows; k] matrix: entry (r, s) is drawn
    from row r with its own noise cell (r, s); [pick] turns a row of logits and a
    noise value into a category. *)
Definition random_categorical {A U} (pick : list A -> U -> nat) (noise : nat -> nat -> U)
  (logits : tensor A) (m : nat) : option (tensor nat) :=
  match t_shape logits with
  | [r; _] => Some (Tensor [r; m] (fun i =>
      match i with
      | [a; s] => pick (row logits [a]) (noise a s)
      | _ => 0
      end))
  | _ => None
  end.

(** tf.one_hot(t, k, dtype): [on]/[off] are the 1 and 0 of the dtype. *)
Definition one_hot {A} (on off : A) (k : nat) (t : tensor nat) : tensor A :=
  Tensor (t_shape t ++ [k])
         (fun i => if Nat.eqb (t_at t (removelast i)) (last i 0) then on else off).

Definition obind {X Y} (o : option X) (f : X -> option Y) : option Y :=
  match o with Some x => f x | None => None end.

Section Discrete.
Context {A U : Type} (pick : list A -> U -> nat) (noise : nat -> nat -> U).

(** The flattening shared by Categorical, OnehotCategorical and Multinomial:
    [logits.get_shape().ndims == 2] is decided on the static rank, so both
    branches are reachable for a rank-2 tensor. *)
Definition logits_flat (rank2_known : bool) (logits : tensor A) : option (tensor A) :=
  if rank2_known then Some logits
  else reshape_rows (last (t_shape logits) 0) logits.

(** Categorical._sample, univariate.py:478-495. *)
Definition categorical_sample (rank2_known : bool) (logits : tensor A) (n : nat)
  : option (tensor nat) :=
  obind (logits_flat rank2_known logits) (fun fl =>
  obind (random_categorical pick noise fl n) (fun sm =>
  obind (transpose2 sm) (fun tr =>
  if rank2_known then Some tr
  else reshape (n :: removelast (t_shape logits)) tr))).

(** OnehotCategorical._sample, multivariate.py:522-541. *)
Definition onehot_sample {B} (on off : B) (rank2_known : bool) (logits : tensor A) (n : nat)
  : option (tensor B) :=
  obind (categorical_sample rank2_known logits n) (fun t =>
  Some (one_hot on off (last (t_shape logits) 0) t)).

(** Multinomial._sample, multivariate.py:295-319. *)
Definition multinomial_sample (rank2_known : bool) (logits : tensor A) (n_exp n : nat)
  : option (tensor nat) :=
  obind (logits_flat rank2_known logits) (fun fl =>
  obind (random_categorical pick noise fl (n * n_exp)) (fun sm =>
  obind (transpose2 sm) (fun tr =>
  obind (reshape (n :: n_exp :: removelast (t_shape logits)) tr) (fun t =>
  reduce_axis1 list_sum (one_hot 1 0 (last (t_shape logits) 0) t))))).

(** Binomial._sample, univariate.py:1025-1046. [two] builds the pair of logits
    [log_1_minus_p, log_p] of one entry. *)
Definition binomial_sample (two : A -> list A) (rank1_known : bool) (logits : tensor A)
  (n_exp n : nat) : option (tensor nat) :=
  obind (if rank1_known then Some logits else reshape_flat logits) (fun fl =>
  obind (match t_shape fl with
         | [r] => Some (Tensor [r; 2] (fun i => nth (last i 0) (two (t_at fl (removelast i))) (t_at fl [])))
         | _ => None
         end) (fun st =>
  obind (random_categorical pick noise st (n * n_exp)) (fun sm =>
  obind (transpose2 sm) (fun tr =>
  obind (reshape (n_exp :: n :: t_shape logits) tr) (fun t =>
  reduce_axis0 list_sum t))))).
End Discrete.
