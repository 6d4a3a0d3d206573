(** The constructors of the distributions: which arguments are rejected, when (while
    the graph is built or when it runs) and with which exception, and the dtypes of
    the object built. zhusuan/distributions/{utils,base,univariate,multivariate}.py.
    Only dtypes and shapes of tensor arguments matter here, not their values. *)
From Coq Require Import List Arith Bool ZArith.
From Verif Require Import ModelShape.
Import ListNotations.

(** The dtypes of TensorFlow (without the quantised ones and the _ref variants). *)
Inductive dtype := F16 | F32 | F64 | BF16 | I8 | I16 | I32 | I64 | U8 | U16 | BoolT | StringT | C64 | C128.
Definition dtype_eqb (a b : dtype) : bool :=
  match a, b with
  | F16, F16 | F32, F32 | F64, F64 | BF16, BF16 | I8, I8 | I16, I16 | I32, I32 | I64, I64
  | U8, U8 | U16, U16 | BoolT, BoolT | StringT, StringT | C64, C64 | C128, C128 => true
  | _, _ => false
  end.
Definition mem (d : dtype) (l : list dtype) : bool := existsb (dtype_eqb d) l.

Inductive exn := TypeError | ValueError.

(** floating_dtypes, integer_dtypes, utils.py:101-108 *)
Definition floating_dtypes : list dtype := [F16; F32; F64].
Definition integer_dtypes : list dtype := [I16; I32; I64].

(** assert_same_dtype_in, utils.py:111-143: [allowed = []] is Python's None or an
    empty list (both are false), which allows every dtype. *)
Fixpoint same_dtype_loop (allowed : list dtype) (expected : option dtype) (tensors : list dtype)
  : exn + option dtype :=
  match tensors with
  | [] => inr expected
  | t :: rest =>
      if match allowed with [] => false | _ => negb (mem t allowed) end then inl TypeError
      else match expected with
           | None => same_dtype_loop allowed (Some t) rest
           | Some e => if dtype_eqb e t then same_dtype_loop allowed expected rest else inl TypeError
           end
  end.
Definition assert_same_dtype_in (allowed tensors : list dtype) : exn + option dtype :=
  same_dtype_loop allowed None tensors.
(** assert_same_float_dtype, utils.py:146-153 *)
Definition assert_same_float_dtype (tensors : list dtype) := assert_same_dtype_in floating_dtypes tensors.
(** assert_dtype_in_dtypes, assert_dtype_is_int_or_float, utils.py:168-184 *)
Definition assert_dtype_in_dtypes (d : dtype) (l : list dtype) : option exn :=
  if mem d l then None else Some TypeError.
Definition assert_dtype_is_int_or_float (d : dtype) : option exn :=
  assert_dtype_in_dtypes d (integer_dtypes ++ floating_dtypes).

(** A tensor argument after tf.convert_to_tensor: its dtype, what is known of its
    shape when the graph is built, and its shape when the graph runs. *)
Record targ := TArg { ta_dtype : dtype; ta_static : sshape; ta_run : shape }.

(** A sequence of checks: the first exception while building, or the run-time
    assertions that have been added ([true]: holds when the graph runs). *)
Inductive outcome (A : Type) := Raise (e : exn) | Built (a : A) (asserts : list bool).
Arguments Raise {A}. Arguments Built {A}.
Definition ret {A} (a : A) : outcome A := Built a [].
Definition bindo {A B} (x : outcome A) (f : A -> outcome B) : outcome B :=
  match x with
  | Raise e => Raise e
  | Built a asserts => match f a with Raise e => Raise e | Built b more => Built b (asserts ++ more) end
  end.
Notation "'do' a <- x ; y" := (bindo x (fun a => y)) (at level 60, a name, right associativity).
Notation "x ;; y" := (bindo x (fun _ => y)) (at level 60, right associativity).
Definition require (e : exn) (b : bool) : outcome unit := if b then ret tt else Raise e.
Definition at_run (b : bool) : outcome unit := Built tt [b].
Definition lift {A} (x : exn + option A) : outcome A :=
  match x with inl e => Raise e | inr (Some a) => ret a | inr None => Raise TypeError end.
Definition check_opt (x : option exn) : outcome unit := match x with None => ret tt | Some e => Raise e end.

(** assert_rank_at_least, utils.py:222-241 *)
Definition rank_at_least (t : targ) (k : nat) : outcome unit :=
  match ta_static t with
  | Some l => require ValueError (negb (Nat.ltb (length l) k))
  | None => at_run (Nat.leb k (length (ta_run t)))
  end.
(** assert_scalar, utils.py:256-273 *)
Definition scalar (t : targ) : outcome unit :=
  match ta_static t with
  | Some l => require ValueError (negb (Nat.leb 1 (length l))) ;; at_run (Nat.eqb (length (ta_run t)) 0)
  | None => at_run (Nat.eqb (length (ta_run t)) 0)
  end.
(** The try/except around tf.broadcast_static_shape of the constructors with two
    parameters, e.g. univariate.py:114-121; the run-time check is that of the
    operations that combine the parameters. *)
Definition broadcastable (x y : targ) : outcome unit :=
  require ValueError (match broadcast_static_shape (ta_static x) (ta_static y) with Some _ => true | None => false end) ;;
  at_run (match bshape (ta_run x) (ta_run y) with Some _ => true | None => false end).

(** An argument that should be an integer. [IInt]: a Python int (True and False are 1
    and 0). [IFloat]: a Python float. [ITensor]: a Tensor. [IObject]: anything else,
    with the result of tf.convert_to_tensor(value, tf.int32): an exception, or a
    constant of known shape. *)
Inductive iarg :=
  | IInt (z : Z)
  | IFloat
  | ITensor (d : dtype) (static : sshape) (run : tensor Z)
  | IObject (converted : exn + tensor Z).
(** tf.convert_to_tensor(value, tf.int32) of what is not an int; a Tensor of another
    dtype is a ValueError, a float a TypeError. *)
Definition to_int32 (v : iarg) : exn + (sshape * tensor Z) :=
  match v with
  | IInt z => inr (Some [], Tensor [] (fun _ => z))
  | IFloat => inl TypeError
  | ITensor d s t => if dtype_eqb d I32 then inr (s, t) else inl ValueError
  | IObject (inl e) => inl e
  | IObject (inr t) => inr (Some (map Some (t_shape t)), t)
  end.
(** tf.assert_rank(tensor, 0): raises while building if the rank is known. *)
Definition assert_rank_0 (s : sshape) (t : tensor Z) : outcome unit :=
  match s with
  | Some l => require ValueError (Nat.eqb (length l) 0)
  | None => at_run (Nat.eqb (length (t_shape t)) 0)
  end.
(** tf.assert_greater(tensor, 0) and tf.assert_greater_equal(tensor, 0) check every
    entry. Simplification: always at run time, although TensorFlow may evaluate them
    for constants while building. *)
Fixpoint index_list (s : shape) : list index :=
  match s with
  | [] => [[]]
  | d :: s' => flat_map (fun k => map (cons k) (index_list s')) (seq 0 d)
  end.
Definition assert_all (p : Z -> bool) (t : tensor Z) : outcome unit :=
  at_run (forallb (fun i => p (t_at t i)) (index_list (t_shape t))).

(** assert_positive_int32_scalar, utils.py:276-308 *)
Definition assert_positive_int32_scalar (v : iarg) : outcome unit :=
  match v with
  | IInt z => if (0 <? z)%Z then ret tt else Raise ValueError
  | IFloat => Raise TypeError
  | _ =>
      match to_int32 v with
      | inl _ => Raise TypeError
      | inr (s, t) => assert_rank_0 s t ;; assert_all (fun z => 0 <? z)%Z t
      end
  end.
(** Binomial's own check, univariate.py:975-992: only a ValueError of the conversion
    is turned into a TypeError. *)
Definition binomial_n_experiments (v : iarg) : outcome unit :=
  match v with
  | IInt z => if (z <=? 0)%Z then Raise ValueError else ret tt
  | _ =>
      match to_int32 v with
      | inl ValueError => Raise TypeError
      | inl e => Raise e
      | inr (s, t) => assert_rank_0 s t ;; assert_all (fun z => 0 <? z)%Z t
      end
  end.
(** group_ndims, base.py:100-114 *)
Definition group_ndims (v : iarg) : outcome unit :=
  match v with
  | IInt z => if (z <? 0)%Z then Raise ValueError else ret tt
  | _ =>
      match to_int32 v with
      | inl e => Raise e
      | inr (s, t) => assert_rank_0 s t ;; assert_all (fun z => 0 <=? z)%Z t
      end
  end.

(** A call of a constructor: the arguments that are checked. *)
Inductive call :=
  | Normal (fold : bool) (mean : targ) (sentinel : bool) (std logstd : option targ)
  | Bernoulli (logits : targ) (d : dtype)
  | Categorical (logits : targ) (d : dtype)
  | Uniform (minval maxval : targ)
  | Gamma (alpha beta : targ)
  | Beta (alpha beta : targ)
  | Poisson (rate : targ) (d : dtype)
  | Binomial (logits : targ) (n_experiments : iarg) (d : dtype)
  | InverseGamma (alpha beta : targ)
  | Laplace (loc scale : targ)
  | BinConcrete (temperature logits : targ)
  | MultivariateNormalCholesky (mean cov_tril : targ)
  | Multinomial (logits : targ) (n_experiments : option iarg) (d : dtype)
  | UnnormalizedMultinomial (logits : targ) (d : dtype)
  | OnehotCategorical (logits : targ) (d : dtype)
  | Dirichlet (alpha : targ)
  | ExpConcrete (temperature logits : targ)
  | Concrete (temperature logits : targ)
  | MatrixVariateNormalCholesky (mean u_tril v_tril : targ).

(** dtype and param_dtype passed to Distribution.__init__ *)
Definition dtypes := (dtype * dtype)%type.

(** The constructors with two broadcastable float parameters: Uniform, Gamma, Beta,
    InverseGamma, Laplace; univariate.py:578-605, 680-705, 773-798, 1088-1113, 1190-1217 *)
Definition two_params (x y : targ) : outcome dtypes :=
  do d <- lift (assert_same_float_dtype [ta_dtype x; ta_dtype y]) ;
  broadcastable x y ;; ret (d, d).
(** Normal and FoldNormal, univariate.py:79-130, 224-274. The derived one of std and
    logstd has the same dtype and shape as the one given. *)
Definition normal_init (mean : targ) (sentinel : bool) (std logstd : option targ) : outcome dtypes :=
  require ValueError (negb sentinel) ;;
  match std, logstd with
  | Some s, None => two_params mean s
  | None, Some s => two_params mean s
  | _, _ => Raise ValueError
  end.
(** The discrete constructors over logits of rank at least one: Categorical
    (univariate.py:433-452), UnnormalizedMultinomial, OnehotCategorical
    (multivariate.py:377-401, 477-495); n_categories is read by get_shape_at and not
    checked. *)
Definition over_categories (logits : targ) (d : dtype) : outcome dtypes :=
  do p <- lift (assert_same_float_dtype [ta_dtype logits]) ;
  check_opt (assert_dtype_is_int_or_float d) ;;
  rank_at_least logits 1 ;; ret (d, p).
Definition categorical_init (logits : targ) (d : dtype) : outcome dtypes :=
  do p <- lift (assert_same_dtype_in [F32; F64] [ta_dtype logits]) ;
  check_opt (assert_dtype_in_dtypes d [F32; F64; I32; I64]) ;;
  rank_at_least logits 1 ;; ret (d, p).
(** Bernoulli, Poisson, univariate.py:354-367, 876-896 *)
Definition elementwise_discrete (param : targ) (d : dtype) : outcome dtypes :=
  do p <- lift (assert_same_float_dtype [ta_dtype param]) ;
  check_opt (assert_dtype_is_int_or_float d) ;; ret (d, p).
(** Binomial.__init__, univariate.py:962-1001 *)
Definition binomial_init (logits : targ) (n : iarg) (d : dtype) : outcome dtypes :=
  do p <- lift (assert_same_float_dtype [ta_dtype logits]) ;
  check_opt (assert_dtype_is_int_or_float d) ;;
  binomial_n_experiments n ;; ret (d, p).
(** BinConcrete.__init__, univariate.py:1314-1339 *)
Definition bin_concrete_init (temperature logits : targ) : outcome dtypes :=
  do p <- lift (assert_same_float_dtype [ta_dtype logits; ta_dtype temperature]) ;
  scalar temperature ;; ret (p, p).
(** ExpConcrete and Concrete, multivariate.py:719-748, 857-886 *)
Definition concrete_init (temperature logits : targ) : outcome dtypes :=
  do p <- lift (assert_same_float_dtype [ta_dtype logits; ta_dtype temperature]) ;
  rank_at_least logits 1 ;; scalar temperature ;; ret (p, p).
(** Multinomial.__init__, multivariate.py:231-262 *)
Definition multinomial_init (logits : targ) (n : option iarg) (d : dtype) : outcome dtypes :=
  do p <- lift (assert_same_float_dtype [ta_dtype logits]) ;
  check_opt (assert_dtype_is_int_or_float d) ;;
  rank_at_least logits 1 ;;
  match n with None => ret tt | Some v => assert_positive_int32_scalar v end ;;
  ret (d, p).
(** Dirichlet.__init__, multivariate.py:593-632 *)
Definition dirichlet_init (alpha : targ) : outcome dtypes :=
  do p <- lift (assert_same_float_dtype [ta_dtype alpha]) ;
  match ta_static alpha with
  | Some [] => Raise ValueError
  | Some l =>
      match last l None with
      | Some n => require ValueError (negb (Nat.ltb n 2))
      | None => at_run (Nat.leb 1 (length (ta_run alpha))) ;; at_run (Nat.leb 2 (last (ta_run alpha) 0))
      end
  | None => at_run (Nat.leb 1 (length (ta_run alpha))) ;; at_run (Nat.leb 2 (last (ta_run alpha) 0))
  end ;;
  ret (p, p).

(** TensorShape.is_compatible_with *)
Fixpoint dims_compatible (l m : list (option nat)) : bool :=
  match l, m with
  | [], [] => true
  | a :: l', b :: m' =>
      match a, b with Some x, Some y => Nat.eqb x y | _, _ => true end && dims_compatible l' m'
  | _, _ => false
  end.
Definition is_compatible_with (s t : sshape) : bool :=
  match s, t with Some l, Some m => dims_compatible l m | _, _ => true end.
(** [axis] counted from the end of a static shape, as get_shape_at reports it in an
    isinstance(_, int) test: 0 and unknown extents are not ints (utils.py:202). *)
Definition known_int (s : sshape) (axis : nat) : option nat :=
  match s with
  | Some l => match nth axis (rev l) None with Some (S n) => Some (S n) | _ => None end
  | None => None
  end.
Definition drop_last (k : nat) (s : sshape) : sshape := option_map (fun l => firstn (length l - k) l) s.
(** tf.assert_equal(expected_shape, actual_shape) of two vectors: they are broadcast
    against each other first, and fail if they cannot be. *)
Fixpoint entries_eqb (s t : list nat) : bool :=
  match s, t with a :: s', b :: t' => Nat.eqb a b && entries_eqb s' t' | _, _ => true end.
Definition vector_eqb (s t : list nat) : bool :=
  if Nat.eqb (length s) (length t) then entries_eqb s t
  else match s, t with
       | [a], _ => forallb (Nat.eqb a) t
       | _, [b] => forallb (fun a => Nat.eqb a b) s
       | _, _ => false
       end.
Definition end_extent (s : shape) (axis : nat) : nat := nth axis (rev s) 0.
(** MultivariateNormalCholesky.__init__, multivariate.py:72-114 *)
Definition mvn_init (mean cov_tril : targ) : outcome dtypes :=
  rank_at_least mean 1 ;;
  rank_at_least cov_tril 2 ;;
  require ValueError (is_compatible_with (ta_static cov_tril)
                        (sconcat (ta_static mean) (Some [known_int (ta_static mean) 0]))) ;;
  at_run (vector_eqb (ta_run mean ++ [end_extent (ta_run mean) 0]) (ta_run cov_tril)) ;;
  do d <- lift (assert_same_float_dtype [ta_dtype mean; ta_dtype cov_tril]) ;
  ret (d, d).
(** MatrixVariateNormalCholesky.__init__, multivariate.py:1000-1057 *)
Definition mvmn_init (mean u_tril v_tril : targ) : outcome dtypes :=
  rank_at_least mean 2 ;;
  rank_at_least u_tril 2 ;;
  rank_at_least v_tril 2 ;;
  require ValueError (is_compatible_with (ta_static u_tril)
      (sconcat (drop_last 1 (ta_static mean)) (Some [known_int (ta_static mean) 1]))) ;;
  require ValueError (is_compatible_with (ta_static v_tril)
      (sconcat (drop_last 2 (ta_static mean)) (Some [known_int (ta_static mean) 0; known_int (ta_static mean) 0]))) ;;
  at_run (vector_eqb (firstn (length (ta_run mean) - 1) (ta_run mean) ++ [end_extent (ta_run mean) 1]) (ta_run u_tril)) ;;
  at_run (vector_eqb (firstn (length (ta_run mean) - 2) (ta_run mean) ++
                     [end_extent (ta_run mean) 0; end_extent (ta_run mean) 0]) (ta_run v_tril)) ;;
  do d <- lift (assert_same_float_dtype [ta_dtype mean; ta_dtype u_tril; ta_dtype v_tril]) ;
  ret (d, d).

Definition class_init (c : call) : outcome dtypes :=
  match c with
  | Normal _ mean sentinel std logstd => normal_init mean sentinel std logstd
  | Bernoulli p d | Poisson p d => elementwise_discrete p d
  | Categorical l d => categorical_init l d
  | Uniform x y | Gamma x y | Beta x y | InverseGamma x y | Laplace x y => two_params x y
  | Binomial l n d => binomial_init l n d
  | BinConcrete t l => bin_concrete_init t l
  | MultivariateNormalCholesky m c => mvn_init m c
  | Multinomial l n d => multinomial_init l n d
  | UnnormalizedMultinomial l d | OnehotCategorical l d => over_categories l d
  | Dirichlet a => dirichlet_init a
  | ExpConcrete t l | Concrete t l => concrete_init t l
  | MatrixVariateNormalCholesky m u v => mvmn_init m u v
  end.
(** A whole construction: the class's checks, then Distribution.__init__. *)
Definition construct (c : call) (group : iarg) : outcome dtypes :=
  do d <- class_init c ; group_ndims group ;; ret d.
