(** What a constructor of a distribution asks of its arguments, in terms of the
    dtypes and the shapes the arguments have when the graph runs. *)
From Coq Require Import List Arith ZArith.
From Verif Require Import ModelShape SpecShape ModelInit.
Import ListNotations.

(** ** Types *)
(** The tensor arguments. *)
Definition given_opt (x : option targ) : list targ := match x with Some t => [t] | None => [] end.
Definition params (c : call) : list targ :=
  match c with
  | Normal _ mean _ std logstd => mean :: given_opt std ++ given_opt logstd
  | Bernoulli p _ | Poisson p _ | Categorical p _ | Binomial p _ _ | Multinomial p _ _
  | UnnormalizedMultinomial p _ | OnehotCategorical p _ | Dirichlet p => [p]
  | Uniform x y | Gamma x y | Beta x y | InverseGamma x y | Laplace x y
  | BinConcrete x y | ExpConcrete x y | Concrete x y | MultivariateNormalCholesky x y => [x; y]
  | MatrixVariateNormalCholesky x y z => [x; y; z]
  end.
Definition is_float (d : dtype) : Prop := d = F16 \/ d = F32 \/ d = F64.
Definition is_int (d : dtype) : Prop := d = I16 \/ d = I32 \/ d = I64.
(** All tensor arguments have one floating dtype; Categorical takes no float16. *)
Definition param_dtype_ok (c : call) (p : dtype) : Prop :=
  match c with Categorical _ _ => p = F32 \/ p = F64 | _ => is_float p end.
Definition params_agree (c : call) (p : dtype) : Prop :=
  param_dtype_ok c p /\ forall t, In t (params c) -> ta_dtype t = p.
(** The dtype argument of a discrete distribution. *)
Definition dtype_argument (c : call) : option dtype :=
  match c with
  | Bernoulli _ d | Poisson _ d | Categorical _ d | Binomial _ _ d | Multinomial _ _ d
  | UnnormalizedMultinomial _ d | OnehotCategorical _ d => Some d
  | _ => None
  end.
Definition dtype_argument_ok (c : call) : Prop :=
  match c, dtype_argument c with
  | _, None => True
  | Categorical _ _, Some d => d = F32 \/ d = F64 \/ d = I32 \/ d = I64
  | _, Some d => is_float d \/ is_int d
  end.
(** An int, or something that is or becomes an int32 Tensor. *)
Definition int_typed (v : iarg) : Prop :=
  match v with
  | IInt _ => True
  | IFloat => False
  | ITensor d _ _ => d = I32
  | IObject r => exists t, r = inr t
  end.
Definition n_experiments (c : call) : option iarg :=
  match c with
  | Binomial _ n _ => Some n
  | Multinomial _ n _ => n
  | _ => None
  end.
Definition types_ok (c : call) : Prop :=
  (exists p, params_agree c p) /\ dtype_argument_ok c /\ forall n, n_experiments c = Some n -> int_typed n.

(** ** Values *)
(** [v] is a scalar of value [z]. *)
Definition int_value (v : iarg) (z : Z) : Prop :=
  match v with
  | IInt y => y = z
  | IFloat => False
  | ITensor _ _ t | IObject (inr t) => t_shape t = [] /\ t_at t [] = z
  | IObject (inl _) => False
  end.
Definition shapes_ok (c : call) : Prop :=
  match c with
  | Normal _ mean _ std logstd =>
      forall s, std = Some s \/ logstd = Some s -> compatible (ta_run mean) (ta_run s)
  | Bernoulli _ _ | Poisson _ _ | Binomial _ _ _ => True
  | Uniform x y | Gamma x y | Beta x y | InverseGamma x y | Laplace x y => compatible (ta_run x) (ta_run y)
  | Categorical l _ | Multinomial l _ _ | UnnormalizedMultinomial l _ | OnehotCategorical l _ => ta_run l <> []
  | BinConcrete t _ => ta_run t = []
  | ExpConcrete t l | Concrete t l => ta_run t = [] /\ ta_run l <> []
  | Dirichlet a => exists batch n, ta_run a = batch ++ [n] /\ 2 <= n
  | MultivariateNormalCholesky mean cov =>
      exists batch n, ta_run mean = batch ++ [n] /\ ta_run cov = batch ++ [n; n]
  | MatrixVariateNormalCholesky mean u v =>
      exists batch n m, ta_run mean = batch ++ [n; m] /\ ta_run u = batch ++ [n; n] /\ ta_run v = batch ++ [m; m]
  end.
(** Exactly one of std and logstd, passed by name. *)
Definition normal_args_ok (c : call) : Prop :=
  match c with
  | Normal _ _ sentinel std logstd =>
      sentinel = false /\ ((exists s, std = Some s /\ logstd = None) \/ (exists s, std = None /\ logstd = Some s))
  | _ => True
  end.
Definition values_ok (c : call) : Prop :=
  shapes_ok c /\ normal_args_ok c /\
  forall n, n_experiments c = Some n -> int_typed n -> exists z, int_value n z /\ (0 < z)%Z.
Definition group_ok (g : iarg) : Prop := int_typed g /\ exists z, int_value g z /\ (0 <= z)%Z.

(** ** Circumstances: what is known while the graph is built is true when it runs. *)
Definition int_knows (v : iarg) : Prop := match v with ITensor _ s t => knows s (t_shape t) | _ => True end.
Definition well_known (c : call) (g : iarg) : Prop :=
  (forall t, In t (params c) -> knows (ta_static t) (ta_run t)) /\
  (forall n, n_experiments c = Some n -> int_knows n) /\ int_knows g.
(** The construction succeeds and so do all assertions when the graph runs. *)
Definition accepted {A} (o : outcome A) : Prop := exists a asserts, o = Built a asserts /\ Forall (eq true) asserts.
(** The same call with nothing known while the graph is built. *)
Definition forget_targ (t : targ) : targ := TArg (ta_dtype t) None (ta_run t).
Definition forget_int (v : iarg) : iarg := match v with ITensor d _ t => ITensor d None t | _ => v end.
Definition forget (c : call) : call :=
  let f := forget_targ in
  match c with
  | Normal fold m s std logstd => Normal fold (f m) s (option_map f std) (option_map f logstd)
  | Bernoulli l d => Bernoulli (f l) d
  | Categorical l d => Categorical (f l) d
  | Uniform x y => Uniform (f x) (f y)
  | Gamma x y => Gamma (f x) (f y)
  | Beta x y => Beta (f x) (f y)
  | Poisson r d => Poisson (f r) d
  | Binomial l n d => Binomial (f l) (forget_int n) d
  | InverseGamma x y => InverseGamma (f x) (f y)
  | Laplace x y => Laplace (f x) (f y)
  | BinConcrete t l => BinConcrete (f t) (f l)
  | MultivariateNormalCholesky m c => MultivariateNormalCholesky (f m) (f c)
  | Multinomial l n d => Multinomial (f l) (option_map forget_int n) d
  | UnnormalizedMultinomial l d => UnnormalizedMultinomial (f l) d
  | OnehotCategorical l d => OnehotCategorical (f l) d
  | Dirichlet a => Dirichlet (f a)
  | ExpConcrete t l => ExpConcrete (f t) (f l)
  | Concrete t l => Concrete (f t) (f l)
  | MatrixVariateNormalCholesky m u v => MatrixVariateNormalCholesky (f m) (f u) (f v)
  end.
(** Everything is known while the graph is built: the shapes of the tensor arguments,
    and the integers are given as Python numbers. *)
Definition python_number (v : iarg) : Prop := match v with IInt _ | IFloat => True | _ => False end.
Definition all_known (c : call) (g : iarg) : Prop :=
  (forall t, In t (params c) -> ta_static t = Some (map Some (ta_run t))) /\
  (forall n, n_experiments c = Some n -> python_number n) /\ python_number g.
Definition no_empty_axis (c : call) : Prop := forall t, In t (params c) -> ~ In 0 (ta_run t).
