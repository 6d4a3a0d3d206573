(** The dtypes that flow through sample, log_prob and prob of the distributions:
    every tensor expression of the methods with its values left out.
    zhusuan/distributions/{base,univariate,multivariate,utils}.py. *)
From Coq Require Import List Bool.
From Verif Require Import ModelShape ModelInit.
Import ListNotations.

(** The type of a Python expression: a Tensor, or a Python or NumPy number that takes
    the dtype of the Tensor it meets. *)
Inductive ty := T (d : dtype) | PyInt | PyFloat.

(** Tensor expressions, as far as their dtype depends on the operands. *)
Inductive texp :=
  | Lit (t : ty)                 (* a Tensor of a given dtype, or a number *)
  | Cast (d : dtype) (e : texp)  (* tf.cast *)
  | Arith (x y : texp)           (* + - * and tf.matmul *)
  | Div (x y : texp)             (* / *)
  | Float (e : texp)             (* tf.log, exp, lgamma, lbeta, log1p, sigmoid, softplus,
                                    softmax, log_softmax, reduce_logsumexp: float only *)
  | Keep (e : texp)              (* reshape, transpose, tile, reduce_sum, squeeze, stop_gradient,
                                    negation, abs, sign, square, matrix_diag_part *)
  | Compare (x y : texp)         (* < <= >= *)
  | And (x y : texp)             (* tf.logical_and *)
  | OnesLike (e : texp) (d : dtype)   (* tf.ones_like(e, dtype=d) *)
  | RandomCategorical (logits : texp)            (* tf.random.categorical: int64 *)
  | RandomGamma (alpha beta : texp) (d : dtype)  (* alpha and beta are converted to d *)
  | RandomPoisson (rate : texp) (d : dtype)
  | OneHot (indices : texp) (d : dtype)
  | SparseXent (labels logits : texp)
  | Xent (labels logits : texp)  (* softmax_ and sigmoid_cross_entropy_with_logits *)
  | TriSolve (x y : texp)
  | Stack (x y : texp).

Definition is_floating (d : dtype) : bool := mem d floating_dtypes.
Definition is_number (d : dtype) : bool := mem d (floating_dtypes ++ [I8; I16; I32; I64; U8; U16]).
(** Binary operators: the right operand is converted to the dtype of the left one or
    the other way round; Tensors of different dtypes are an error, and so is a Python
    float with an integer Tensor. *)
Definition join (a b : ty) : option dtype :=
  match a, b with
  | T x, T y => if dtype_eqb x y && is_number x then Some x else None
  | T x, PyInt | PyInt, T x => if is_number x then Some x else None
  | T x, PyFloat | PyFloat, T x => if is_floating x then Some x else None
  | _, _ => None
  end.
(** True division of integers: tensorflow/python/ops/math_ops.py, _truediv_python3. *)
Definition div_dtype (d : dtype) : dtype :=
  match d with I8 | I16 | U8 | U16 => F32 | I32 | I64 => F64 | _ => d end.
(** An argument converted with dtype=d. *)
Definition converts (t : ty) (d : dtype) : bool :=
  match t with T x => dtype_eqb x d | PyInt => is_number d | PyFloat => is_floating d end.

Fixpoint infer (e : texp) : option ty :=
  match e with
  | Lit t => Some t
  | Cast d e => match infer e with Some _ => Some (T d) | None => None end
  | Arith x y =>
      match infer x, infer y with
      | Some a, Some b => option_map T (join a b)
      | _, _ => None
      end
  | Div x y =>
      match infer x, infer y with
      | Some a, Some b => option_map (fun d => T (div_dtype d)) (join a b)
      | _, _ => None
      end
  | Float e => match infer e with Some (T d) => if is_floating d then Some (T d) else None | _ => None end
  | Keep e => match infer e with Some (T d) => if is_number d then Some (T d) else None | _ => None end
  | Compare x y =>
      match infer x, infer y with
      | Some a, Some b => match join a b with Some _ => Some (T BoolT) | None => None end
      | _, _ => None
      end
  | And x y => match infer x, infer y with Some (T BoolT), Some (T BoolT) => Some (T BoolT) | _, _ => None end
  | OnesLike e d => match infer e with Some (T _) => Some (T d) | _ => None end
  | RandomCategorical l => match infer l with Some (T d) => if is_floating d then Some (T I64) else None | _ => None end
  | RandomGamma a b d =>
      match infer a, infer b with
      | Some x, Some y => if converts x d && converts y d && is_floating d then Some (T d) else None
      | _, _ => None
      end
  | RandomPoisson r d =>
      match infer r with Some (T x) => if is_floating x && is_number d then Some (T d) else None | _ => None end
  | OneHot i d =>
      match infer i with Some (T x) => if mem x [U8; I32; I64] then Some (T d) else None | _ => None end
  | SparseXent labels logits =>
      match infer labels, infer logits with
      | Some (T a), Some (T b) => if mem a [I32; I64] && is_floating b then Some (T b) else None
      | _, _ => None
      end
  | Xent labels logits =>
      match infer labels, infer logits with
      | Some (T a), Some (T b) => if dtype_eqb a b && is_floating b then Some (T b) else None
      | _, _ => None
      end
  | TriSolve x y =>
      match infer x, infer y with
      | Some (T a), Some (T b) => if dtype_eqb a b && is_floating a then Some (T a) else None
      | _, _ => None
      end
  | Stack x y =>
      match infer x, infer y with
      | Some (T a), Some (T b) => if dtype_eqb a b then Some (T a) else None
      | _, _ => None
      end
  end.

Declare Scope texp_scope.
Infix "+" := Arith : texp_scope.
Infix "-" := Arith : texp_scope.
Infix "*" := Arith : texp_scope.
Infix "/" := Div : texp_scope.
Open Scope texp_scope.
Definition i1 : texp := Lit PyInt.
Definition f1 : texp := Lit PyFloat.
Definition random (d : dtype) : texp := Lit (T d).  (* tf.random_normal, tf.random_uniform with dtype=d *)

(** explicit_broadcast and maybe_explicit_broadcast, utils.py:36-78: [now] says whether
    the static shapes make it broadcast. First components of the results. *)
Definition broadcast_fst (now : bool) (x y : texp) (dx : dtype) : texp :=
  if now then x * OnesLike y dx else x.
(** Second component: [x] has been broadcast before. *)
Definition broadcast_snd (now : bool) (x y : texp) (dx dy : dtype) : texp :=
  if now then y * OnesLike (x * OnesLike y dx) dy else y.

(** What _sample does. *)
Inductive sampling := Samples (e : texp) | SampleValueError | SampleNotImplementedError.

Section Methods.
(** self.dtype, self.param_dtype; the dtype of the parameters; whether a branch on
    static shapes broadcasts; whether logits are normalised. *)
Variables d p q : dtype.
Variables now normalize : bool.
Let par : texp := Lit (T q).
(** tf.cast(n, _) where n is n_experiments, n_categories, n_dim: an int or an int32 Tensor. *)
Variable int_or_tensor : ty.
Let n : texp := Lit int_or_tensor.

(** Bernoulli._sample to OnehotCategorical._sample; univariate.py:161-172, 306-317,
    386-396, 478-494, 632-644, 733-735, 826-831, 915-920, 1025-1045, 1141-1144,
    1246-1265, 1363-1379; multivariate.py:145-167, 295-318, 429-433, 522-540, 660-663,
    781-795, 919-934, 1099-1122 *)
Definition sample_ (c : call) : sampling :=
  match c with
  | Normal _ _ _ _ _ => Samples (random d * par + par)
  | Bernoulli _ _ => Samples (Cast d (Compare (random p) (Float par)))
  | Categorical _ _ => Samples (Keep (Cast d (Keep (RandomCategorical (Keep par)))))
  | Uniform _ _ => Samples (random d * (par - par) + par)
  | Gamma _ _ => Samples (RandomGamma par par d)
  | Beta _ _ =>
      let x := RandomGamma (broadcast_fst now par par q) i1 d in
      let y := RandomGamma (broadcast_snd now par par q q) i1 d in
      Samples (x / (x + y))
  | Poisson _ _ =>
      let s := RandomPoisson par p in
      Samples (if dtype_eqb p d then s else Cast d s)
  | Binomial _ _ _ =>
      let log_1_minus_p := Keep (Float (Keep par)) in
      let log_p := Keep par + log_1_minus_p in
      Samples (Cast d (Keep (Keep (Keep (RandomCategorical (Stack log_1_minus_p log_p))))))
  | InverseGamma _ _ => Samples (i1 / RandomGamma par par d)
  | Laplace _ _ => Samples (par - par * Keep (random d) * Float (Keep (Keep (random d))))
  | BinConcrete _ _ =>
      let uniform := random d in
      let logistic := Float uniform - Float (i1 - uniform) in
      Samples (Float ((par + logistic) / par))
  | MultivariateNormalCholesky _ _ => Samples (Keep (Keep par * random d + Keep (Keep par)))
  | Multinomial _ n_exp _ =>
      match n_exp with
      | None => SampleValueError
      | Some _ => Samples (Keep (OneHot (Keep (Keep (RandomCategorical (Keep par)))) d))
      end
  | UnnormalizedMultinomial _ _ => SampleNotImplementedError
  | OnehotCategorical _ _ => Samples (OneHot (Keep (Keep (RandomCategorical (Keep par)))) d)
  | Dirichlet _ => let s := RandomGamma par i1 d in Samples (s / Keep s)
  | ExpConcrete _ _ | Concrete _ _ =>
      let gumbel := Keep (Float (Keep (Float (random d)))) in
      Samples (Float ((par + gumbel) / par))
  | MatrixVariateNormalCholesky _ _ _ => Samples (par + (Keep par * random d) * Keep (Keep par))
  end.

(** log_combination, utils.py:19-33 *)
Definition log_combination (n ks : texp) : texp := Float (n + i1) - Keep (Float (ks + i1)).

Section Given.
Variable given : texp.
(** The discrete densities cast the given values to param_dtype first. *)
Let cg := Cast p given.
(** Uniform._prob, univariate.py:652-659 *)
Definition uniform_prob : texp :=
  (f1 / (par - par)) * Cast d (And (Compare par given) (Compare given par)).
(** Normal._log_prob to OnehotCategorical._log_prob; univariate.py:174-181, 319-328,
    398-403, 496-548, 646-650, 737-747, 833-851, 922-933, 1047-1064, 1146-1158,
    1267-1273, 1381-1399; multivariate.py:169-189, 320-333, 435-443, 542-561, 665-677,
    797-811, 936-952, 1124-1157 *)
Definition log_prob_ (c : call) : texp :=
  match c with
  | Normal false _ _ _ _ =>
      let precision := Float (i1 * par) in
      f1 - par - f1 * precision * Keep (given - par)
  | Normal true _ _ _ _ =>
      let precision := Float (f1 * par) in
      let mask := Float (Cast q (Compare given f1)) in
      (f1 - (par + f1 * precision * Keep (given - par)) +
       Float (f1 * par * given * precision)) + mask
  | Bernoulli _ _ => Keep (Xent (broadcast_fst now cg par p) (broadcast_snd now cg par p q))
  | Categorical _ _ =>
      let g := if now then given * Lit (T d) else given in
      let logits := if now then par * OnesLike g p else par in
      let labels := match d with F32 => Cast I32 g | F64 => Cast I64 g | _ => g end in
      Keep (SparseXent labels logits)
  | Uniform _ _ => Float uniform_prob
  | Gamma _ _ => par * Float par - Float par + (par - i1) * Float given - par * given
  | Beta _ _ =>
      (par - i1) * Float given + (par - i1) * Float (i1 - given) - (Float par + Float par - Float (par + par))
  | Poisson _ _ => cg * Float par - par - Float (cg + i1)
  | Binomial _ _ _ =>
      let n := Cast p n in
      Float (n + i1) - Float (n - cg + i1) - Float (cg + i1) + cg * par + n * Keep (Float par)
  | InverseGamma _ _ => par * Float par - Float par - (par + i1) * Float given - par / given
  | Laplace _ _ => f1 - Float par - Keep (given - par) / par
  | BinConcrete _ _ =>
      let temp := par * (Float given - Float (i1 - given)) - par in
      Float par - Float given - Float (i1 - given) + temp - i1 * Float temp
  | MultivariateNormalCholesky _ _ =>
      let log_det := i1 * Keep (Float (Keep par)) in
      let n_dim := Cast d n in
      let log_z := Keep n_dim / i1 * Float (i1 * Lit (T d)) - log_det / i1 in
      let y := Keep (given - par) in
      let l := broadcast_fst now par y q in
      log_z + f1 * Keep (Keep (Keep (TriSolve l y)))
  | Multinomial _ n_exp _ =>
      let g := broadcast_fst now cg par p in
      let l := broadcast_snd now cg par p q in
      let logits := if normalize then l - Float l else l in
      let n := match n_exp with None => Keep g | Some _ => Cast p n end in
      log_combination n g + Keep (g * logits)
  | UnnormalizedMultinomial _ _ =>
      let g := broadcast_fst now cg par p in
      let l := broadcast_snd now cg par p q in
      Keep (g * (if normalize then l - Float l else l))
  | OnehotCategorical _ _ =>
      Keep (Keep (Xent (Keep (broadcast_fst now cg par p)) (Keep (broadcast_snd now cg par p q))))
  | Dirichlet _ =>
      let g := broadcast_fst now given par d in
      let alpha := broadcast_snd now given par d q in
      Keep (Float alpha) + Keep ((alpha - i1) * Float g)
  | ExpConcrete _ _ =>
      let n := Cast d n in
      let temp := par - par * given in
      Float n + (n - i1) * Float par + Keep temp - n * Float temp
  | Concrete _ _ =>
      let n := Cast d n in
      let temp := par - par * Float given in
      Float n + (n - i1) * Float par + Keep (temp - Float given) - n * Float temp
  | MatrixVariateNormalCholesky _ _ _ =>
      let log_det := i1 * Keep (Float (Keep par)) in
      let n_row := Cast d n in
      let n_col := Cast d n in
      let log_z := Keep (n_row * n_col) / f1 * Float (f1 * Lit (T d)) - n_row / f1 * log_det - n_col / f1 * log_det in
      let y := given - par in
      let ones := Lit (T F32) in  (* tf.ones(...) without a dtype *)
      let lu := broadcast_fst now par ones q in
      let lv := broadcast_fst now par ones q in
      let x := TriSolve lv (Keep (TriSolve lu y)) in
      log_z + f1 * Keep (Keep x)
  end.
(** _prob: Uniform has its own, all others exponentiate _log_prob. *)
Definition prob_ (c : call) : texp :=
  match c with Uniform _ _ => uniform_prob | _ => Float (log_prob_ c) end.
End Given.

(** The argument of log_prob and prob: a Tensor, Python numbers (possibly nested), or
    a NumPy array, which is converted whatever its dtype. *)
Inductive garg := GTensor (d : dtype) | GPyInt | GPyFloat | GNumpy.
(** tf.convert_to_tensor(given, dtype=self.dtype), base.py:271-272 *)
Definition convert_given (g : garg) : exn + dtype :=
  match g with
  | GTensor x => if dtype_eqb x d then inr d else inl ValueError
  | GPyInt | GNumpy => inr d
  | GPyFloat => if is_floating d then inr d else inl TypeError
  end.
(** Distribution.log_prob and prob, base.py:291-320: None is an error inside the
    method, Some its dtype. *)
Definition log_prob (c : call) (g : garg) : exn + option ty :=
  match convert_given g with
  | inl e => inl e
  | inr x => inr (infer (Keep (log_prob_ (Lit (T x)) c)))
  end.
Definition prob (c : call) (g : garg) : exn + option ty :=
  match convert_given g with
  | inl e => inl e
  | inr x => inr (infer (Keep (prob_ (Lit (T x)) c)))
  end.
(** Distribution.sample, base.py:237-263 *)
Definition sample (c : call) : sampling :=
  match sample_ c with Samples e => Samples (Keep e) | s => s end.
End Methods.
