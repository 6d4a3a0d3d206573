(** Python argument binding through the named node constructors. No proofs here.

    Models the 20 methods BayesianNet.normal ... BayesianNet.concrete, the 22 deprecated
    StochasticTensor subclasses, the signatures of the 22 distribution classes, and the
    chain of calls each of them makes. Argument values are opaque, except for the
    constants that appear as defaults. Conversion of parameters to tensors and the dtype
    and shape checks on them are not modelled here (they raise before anything below is
    affected); warnings and name scopes are not modelled. *)
From Coq Require Import List String Bool ZArith.
Import ListNotations.
Local Open Scope string_scope.

(** Values of arguments: the literals used as defaults, and any other object. *)
Inductive val := VNone | VBool (b : bool) | VInt (z : Z) | VFloat (z : Z) | VInt32 | VObj (n : nat).
Definition is_none (v : val) : bool := match v with VNone => true | _ => false end.

(** A signature: parameters in order, with their defaults. Every signature modelled
    here ends in **kwargs. *)
Definition sig := list (string * option val).
Definition req (p : string) : string * option val := (p, None).
Definition opt (p : string) (d : val) : string * option val := (p, Some d).
Definition dict := list (string * val).

Fixpoint look (k : string) (l : dict) : option val :=
  match l with [] => None | (x, v) :: l' => if String.eqb k x then Some v else look k l' end.
Definition has (k : string) (l : dict) : bool := match look k l with Some _ => true | None => false end.
Definition among (k : string) (ks : list string) : bool := existsb (String.eqb k) ks.

(** Python's binding of positional arguments, from left to right. None: too many. *)
Fixpoint bind_pos (s : sig) (pos : list val) : option (dict * sig) :=
  match pos, s with
  | [], _ => Some ([], s)
  | _ :: _, [] => None
  | v :: pos', (p, _) :: s' =>
      match bind_pos s' pos' with Some (b, r) => Some ((p, v) :: b, r) | None => None end
  end.
(** Remaining parameters from keywords or defaults. None: a required one is missing. *)
Fixpoint fill (s : sig) (kw : dict) : option dict :=
  match s with
  | [] => Some []
  | (p, d) :: s' =>
      match (match look p kw with Some v => Some v | None => d end), fill s' kw with
      | Some v, Some b => Some ((p, v) :: b)
      | _, _ => None
      end
  end.
(** A call f( *pos, **kw) of a function with signature (s, **kwargs): the local variables
    and the dictionary kwargs; None is TypeError. *)
Definition bind (s : sig) (pos : list val) (kw : dict) : option (dict * dict) :=
  match bind_pos s pos with
  | None => None
  | Some (bound, rest) =>
      if existsb (fun a => has (fst a) bound) kw then None (* multiple values for argument *)
      else match fill rest kw with
           | Some b => Some ((bound ++ b)%list, filter (fun a => negb (among (fst a) (map fst s))) kw)
           | None => None
           end
  end.
(** f(k1=..., k2=..., **kwargs): a name on both sides is a TypeError. *)
Definition splat (explicit : dict) (kwargs : dict) : option dict :=
  if existsb (fun a => has (fst a) explicit) kwargs then None else Some (explicit ++ kwargs)%list.

Inductive res (A : Type) := Done (a : A) | TypeErr | ValueErr.
Arguments Done {A}. Arguments TypeErr {A}. Arguments ValueErr {A}.

Inductive cls :=
| Normal | FoldNormal | Bernoulli | Categorical | Uniform | Gamma
| Beta | Poisson | Binomial | InverseGamma | Laplace | BinConcrete
| MultivariateNormalCholesky | Multinomial | UnnormalizedMultinomial | OnehotCategorical | Dirichlet | ExpConcrete
| Concrete | MatrixVariateNormalCholesky | Empirical | Implicit.

(** Parameters of the distribution constructors, after self. *)
Definition dist_sig (c : cls) : sig :=
  match c with
  | Normal =>
       (* distributions/univariate.py:79-88 *) [opt "mean" (VFloat 0); opt "_sentinel" VNone; opt "std"
       VNone; opt "logstd" VNone; opt "group_ndims" (VInt 0); opt "is_reparameterized" (VBool true); opt
       "use_path_derivative" (VBool false); opt "check_numerics" (VBool false)]
  | FoldNormal =>
       (* distributions/univariate.py:224-233 *) [opt "mean" (VFloat 0); opt "_sentinel" VNone; opt
       "std" VNone; opt "logstd" VNone; opt "group_ndims" (VInt 0); opt "is_reparameterized" (VBool
       true); opt "use_path_derivative" (VBool false); opt "check_numerics" (VBool false)]
  | Bernoulli =>
       (* distributions/univariate.py:354-354 *) [req "logits"; opt "dtype" VInt32; opt "group_ndims"
       (VInt 0)]
  | Categorical =>
       (* distributions/univariate.py:433-433 *) [req "logits"; opt "dtype" VInt32; opt "group_ndims"
       (VInt 0)]
  | Uniform =>
       (* distributions/univariate.py:578-584 *) [opt "minval" (VFloat 0); opt "maxval" (VFloat 1); opt
       "group_ndims" (VInt 0); opt "is_reparameterized" (VBool true); opt "check_numerics" (VBool
       false)]
  | Gamma =>
       (* distributions/univariate.py:680-685 *) [req "alpha"; req "beta"; opt "group_ndims" (VInt 0);
       opt "check_numerics" (VBool false)]
  | Beta =>
       (* distributions/univariate.py:773-778 *) [req "alpha"; req "beta"; opt "group_ndims" (VInt 0);
       opt "check_numerics" (VBool false)]
  | Poisson =>
       (* distributions/univariate.py:876-881 *) [req "rate"; opt "dtype" VInt32; opt "group_ndims"
       (VInt 0); opt "check_numerics" (VBool false)]
  | Binomial =>
       (* distributions/univariate.py:962-968 *) [req "logits"; req "n_experiments"; opt "dtype" VInt32;
       opt "group_ndims" (VInt 0); opt "check_numerics" (VBool false)]
  | InverseGamma =>
       (* distributions/univariate.py:1088-1093 *) [req "alpha"; req "beta"; opt "group_ndims" (VInt 0);
       opt "check_numerics" (VBool false)]
  | Laplace =>
       (* distributions/univariate.py:1190-1197 *) [req "loc"; req "scale"; opt "group_ndims" (VInt 0);
       opt "is_reparameterized" (VBool true); opt "use_path_derivative" (VBool false); opt
       "check_numerics" (VBool false)]
  | BinConcrete =>
       (* distributions/univariate.py:1314-1321 *) [req "temperature"; req "logits"; opt "group_ndims"
       (VInt 0); opt "is_reparameterized" (VBool true); opt "use_path_derivative" (VBool false); opt
       "check_numerics" (VBool false)]
  | MultivariateNormalCholesky =>
       (* distributions/multivariate.py:72-79 *) [req "mean"; req "cov_tril"; opt "group_ndims" (VInt
       0); opt "is_reparameterized" (VBool true); opt "use_path_derivative" (VBool false); opt
       "check_numerics" (VBool false)]
  | Multinomial =>
       (* distributions/multivariate.py:231-237 *) [req "logits"; req "n_experiments"; opt
       "normalize_logits" (VBool true); opt "dtype" VInt32; opt "group_ndims" (VInt 0)]
  | UnnormalizedMultinomial =>
       (* distributions/multivariate.py:377-382 *) [req "logits"; opt "normalize_logits" (VBool true);
       opt "dtype" VInt32; opt "group_ndims" (VInt 0)]
  | OnehotCategorical =>
       (* distributions/multivariate.py:477-477 *) [req "logits"; opt "dtype" VInt32; opt "group_ndims"
       (VInt 0)]
  | Dirichlet =>
       (* distributions/multivariate.py:593-597 *) [req "alpha"; opt "group_ndims" (VInt 0); opt
       "check_numerics" (VBool false)]
  | ExpConcrete =>
       (* distributions/multivariate.py:719-726 *) [req "temperature"; req "logits"; opt "group_ndims"
       (VInt 0); opt "is_reparameterized" (VBool true); opt "use_path_derivative" (VBool false); opt
       "check_numerics" (VBool false)]
  | Concrete =>
       (* distributions/multivariate.py:857-864 *) [req "temperature"; req "logits"; opt "group_ndims"
       (VInt 0); opt "is_reparameterized" (VBool true); opt "use_path_derivative" (VBool false); opt
       "check_numerics" (VBool false)]
  | MatrixVariateNormalCholesky =>
       (* distributions/multivariate.py:1000-1008 *) [req "mean"; req "u_tril"; req "v_tril"; opt
       "group_ndims" (VInt 0); opt "is_reparameterized" (VBool true); opt "use_path_derivative" (VBool
       false); opt "check_numerics" (VBool false)]
  | Empirical =>
       (* legacy/distributions/special.py:47-53 *) [req "dtype"; opt "batch_shape" VNone; opt
       "value_shape" VNone; opt "group_ndims" (VInt 0); opt "is_continuous" VNone]
  | Implicit =>
       (* legacy/distributions/special.py:118-122 *) [req "samples"; opt "value_shape" VNone; opt
       "group_ndims" (VInt 0)]
  end.

(** Whether the constructor passes use_path_derivative on to Distribution.__init__; all
    pass dtype, param_dtype, is_continuous, is_reparameterized and group_ndims.
    Normal univariate.py:123-130; FoldNormal univariate.py:268-275; Bernoulli univariate.py:361-367;
    Categorical univariate.py:446-452; Uniform univariate.py:600-606; Gamma univariate.py:701-707; Beta
    univariate.py:794-800; Poisson univariate.py:890-896; Binomial univariate.py:995-1001; InverseGamma
    univariate.py:1109-1115; Laplace univariate.py:1213-1220; BinConcrete univariate.py:1332-1339;
    MultivariateNormalCholesky multivariate.py:107-114; Multinomial multivariate.py:256-262;
    UnnormalizedMultinomial multivariate.py:395-401; OnehotCategorical multivariate.py:488-494;
    Dirichlet multivariate.py:626-632; ExpConcrete multivariate.py:741-748; Concrete
    multivariate.py:879-886; MatrixVariateNormalCholesky multivariate.py:1052-1059; Empirical
    special.py:63-70; Implicit special.py:127-134 *)
Definition passes_path (c : cls) : bool :=
  match c with
  | Bernoulli | Categorical | Uniform | Gamma | Beta | Poisson | Binomial | InverseGamma | Multinomial |
    UnnormalizedMultinomial | OnehotCategorical | Dirichlet => false
  | _ => true
  end.
Definition base_keywords (c : cls) : list string :=
  ["dtype"; "param_dtype"; "is_continuous"; "is_reparameterized"] ++
  (if passes_path c then ["use_path_derivative"] else []) ++ ["group_ndims"].

(** A constructed distribution: the class, the arguments by parameter, and the value of
    use_path_derivative. *)
Record dist := Dist { d_class : cls; d_args : dict; d_path : val }.
Definition arg (k : string) (l : dict) : val := match look k l with Some v => v | None => VNone end.

(** Normal and FoldNormal: _sentinel must be None, and exactly one of std and logstd is
    given. distributions/utils.py:327-333, univariate.py:89-95, 234-239 *)
Definition checks (c : cls) (e : dict) : bool :=
  match c with
  | Normal | FoldNormal =>
      is_none (arg "_sentinel" e) && xorb (is_none (arg "std" e)) (is_none (arg "logstd" e))
  | _ => true
  end.
(** distributions/base.py:101-104; a group_ndims that is not an int is checked at run
    time only (105-115). *)
Definition group_ok (v : val) : bool :=
  match v with VInt z => (0 <=? z)%Z | _ => true end.

(** Cls( *pos, **kw): the signature above, then
    Distribution.__init__(dtype=..., ..., **kwargs), distributions/base.py:82-100. *)
Definition dist_new (c : cls) (pos : list val) (kw : dict) : res dist :=
  match bind (req "self" :: dist_sig c) (VObj 0 :: pos) kw with
  | None => TypeErr
  | Some (e, kwargs) =>
      if negb (checks c e) then ValueErr
      else if existsb (fun a => among (fst a) (base_keywords c)) kwargs then TypeErr
      else if has "group_event_ndims" kwargs then ValueErr
      else if negb (group_ok (arg "group_ndims" e)) then ValueErr
      else Done (Dist c (tl e)
        (if passes_path c then (if has "use_path_derivative" e then arg "use_path_derivative" e else VBool false)
         else match look "use_path_derivative" kwargs with Some v => v | None => VBool false end))
  end.

(** A node: what StochasticTensor stores. bn.py:68-95 *)
Record node := Node { n_bn : val; n_name : val; n_dist : dist; n_observation : val; n_samples : val }.
(** StochasticTensor.__init__(self, bn, name, dist, observation=None, **kwargs); the
    distribution object itself travels beside the values. bn.py:68, 87 *)
Definition tensor_sig : sig := [req "self"; req "bn"; req "name"; req "dist"; opt "observation" VNone].
Definition tensor_new (bn name : val) (d : dist) (kw : dict) : res node :=
  match bind tensor_sig [VObj 0; bn; name; VObj 1] kw with
  | None => TypeErr
  | Some (e, kwargs) => Done (Node bn name d (arg "observation" e) (arg "n_samples" kwargs))
  end.
(** BayesianNet.stochastic(self, name, dist, **kwargs), on a name not yet used; [obs]
    is what _get_observation(name) returns. bn.py:348-371 *)
Definition stochastic_sig : sig := [req "self"; req "name"; req "dist"].
Definition stochastic (bn obs name : val) (d : dist) (kw : dict) : res node :=
  match bind stochastic_sig [bn; name; VObj 1] kw with
  | None => TypeErr
  | Some (_, kwargs) =>
      match splat [("observation", obs)] kwargs with
      | None => TypeErr
      | Some kw' => tensor_new bn name d kw'
      end
  end.

(** A named constructor: its parameters after self, the local variables it passes
    positionally and by keyword to the distribution, and whether it passes
    n_samples=n_samples to the node; **kwargs goes to both. *)
Record wrapper := Wrapper { w_sig : sig; w_pos : list string; w_kw : list (string * string); w_samples : bool }.

(** The methods of BayesianNet (and their aliases discrete, bag_of_categoricals,
    onehot_discrete, bin_gumbel_softmax, exp_gumbel_softmax, gumbel_softmax:
    bn.py:684, 967, 997, 1121, 1155, 1189). *)
Definition method (c : cls) : option wrapper :=
  match c with
  | Normal => Some
       (* framework/bn.py:556-590 *) (Wrapper [req "name"; opt "mean" (VFloat 0); opt "_sentinel" VNone;
       opt "std" VNone; opt "logstd" VNone; opt "group_ndims" (VInt 0); opt "n_samples" VNone; opt
       "is_reparameterized" (VBool true); opt "check_numerics" (VBool false)] ["mean"] [("_sentinel",
       "_sentinel"); ("std", "std"); ("logstd", "logstd"); ("group_ndims", "group_ndims");
       ("is_reparameterized", "is_reparameterized"); ("check_numerics", "check_numerics")] true)
  | FoldNormal => Some
       (* framework/bn.py:592-626 *) (Wrapper [req "name"; opt "mean" (VFloat 0); opt "_sentinel" VNone;
       opt "std" VNone; opt "logstd" VNone; opt "n_samples" VNone; opt "group_ndims" (VInt 0); opt
       "is_reparameterized" (VBool true); opt "check_numerics" (VBool false)] ["mean"] [("_sentinel",
       "_sentinel"); ("std", "std"); ("logstd", "logstd"); ("group_ndims", "group_ndims");
       ("is_reparameterized", "is_reparameterized"); ("check_numerics", "check_numerics")] true)
  | Bernoulli => Some
       (* framework/bn.py:628-654 *) (Wrapper [req "name"; req "logits"; opt "n_samples" VNone; opt
       "group_ndims" (VInt 0); opt "dtype" VInt32] ["logits"] [("group_ndims", "group_ndims"); ("dtype",
       "dtype")] true)
  | Categorical => Some
       (* framework/bn.py:656-682 *) (Wrapper [req "name"; req "logits"; opt "n_samples" VNone; opt
       "group_ndims" (VInt 0); opt "dtype" VInt32] ["logits"] [("group_ndims", "group_ndims"); ("dtype",
       "dtype")] true)
  | Uniform => Some
       (* framework/bn.py:686-716 *) (Wrapper [req "name"; opt "minval" (VFloat 0); opt "maxval" (VFloat
       1); opt "n_samples" VNone; opt "group_ndims" (VInt 0); opt "is_reparameterized" (VBool true); opt
       "check_numerics" (VBool false)] ["minval"; "maxval"] [("group_ndims", "group_ndims");
       ("is_reparameterized", "is_reparameterized"); ("check_numerics", "check_numerics")] true)
  | Gamma => Some
       (* framework/bn.py:718-746 *) (Wrapper [req "name"; req "alpha"; req "beta"; opt "n_samples"
       VNone; opt "group_ndims" (VInt 0); opt "check_numerics" (VBool false)] ["alpha"; "beta"]
       [("group_ndims", "group_ndims"); ("check_numerics", "check_numerics")] true)
  | Beta => Some
       (* framework/bn.py:748-776 *) (Wrapper [req "name"; req "alpha"; req "beta"; opt "n_samples"
       VNone; opt "group_ndims" (VInt 0); opt "check_numerics" (VBool false)] ["alpha"; "beta"]
       [("group_ndims", "group_ndims"); ("check_numerics", "check_numerics")] true)
  | Poisson => Some
       (* framework/bn.py:778-806 *) (Wrapper [req "name"; req "rate"; opt "n_samples" VNone; opt
       "group_ndims" (VInt 0); opt "dtype" VInt32; opt "check_numerics" (VBool false)] ["rate"]
       [("group_ndims", "group_ndims"); ("dtype", "dtype"); ("check_numerics", "check_numerics")] true)
  | Binomial => Some
       (* framework/bn.py:808-838 *) (Wrapper [req "name"; req "logits"; req "n_experiments"; opt
       "n_samples" VNone; opt "group_ndims" (VInt 0); opt "dtype" VInt32; opt "check_numerics" (VBool
       false)] ["logits"; "n_experiments"] [("group_ndims", "group_ndims"); ("dtype", "dtype");
       ("check_numerics", "check_numerics")] true)
  | MultivariateNormalCholesky => Some
       (* framework/bn.py:840-870 *) (Wrapper [req "name"; req "mean"; req "cov_tril"; opt "n_samples"
       VNone; opt "group_ndims" (VInt 0); opt "is_reparameterized" (VBool true); opt "check_numerics"
       (VBool false)] ["mean"; "cov_tril"; "group_ndims"] [("is_reparameterized", "is_reparameterized");
       ("check_numerics", "check_numerics")] true)
  | MatrixVariateNormalCholesky => Some
       (* framework/bn.py:872-904 *) (Wrapper [req "name"; req "mean"; req "u_tril"; req "v_tril"; opt
       "n_samples" VNone; opt "group_ndims" (VInt 0); opt "is_reparameterized" (VBool true); opt
       "check_numerics" (VBool false)] ["mean"; "u_tril"; "v_tril"; "group_ndims"]
       [("is_reparameterized", "is_reparameterized"); ("check_numerics", "check_numerics")] true)
  | Multinomial => Some
       (* framework/bn.py:906-936 *) (Wrapper [req "name"; req "logits"; req "n_experiments"; opt
       "normalize_logits" (VBool true); opt "n_samples" VNone; opt "group_ndims" (VInt 0); opt "dtype"
       VInt32] ["logits"; "n_experiments"] [("normalize_logits", "normalize_logits"); ("group_ndims",
       "group_ndims"); ("dtype", "dtype")] true)
  | UnnormalizedMultinomial => Some
       (* framework/bn.py:938-965 *) (Wrapper [req "name"; req "logits"; opt "normalize_logits" (VBool
       true); opt "group_ndims" (VInt 0); opt "dtype" VInt32] ["logits"] [("normalize_logits",
       "normalize_logits"); ("group_ndims", "group_ndims"); ("dtype", "dtype")] false)
  | OnehotCategorical => Some
       (* framework/bn.py:969-995 *) (Wrapper [req "name"; req "logits"; opt "n_samples" VNone; opt
       "group_ndims" (VInt 0); opt "dtype" VInt32] ["logits"] [("group_ndims", "group_ndims"); ("dtype",
       "dtype")] true)
  | Dirichlet => Some
       (* framework/bn.py:999-1025 *) (Wrapper [req "name"; req "alpha"; opt "n_samples" VNone; opt
       "group_ndims" (VInt 0); opt "check_numerics" (VBool false)] ["alpha"] [("group_ndims",
       "group_ndims"); ("check_numerics", "check_numerics")] true)
  | InverseGamma => Some
       (* framework/bn.py:1027-1055 *) (Wrapper [req "name"; req "alpha"; req "beta"; opt "n_samples"
       VNone; opt "group_ndims" (VInt 0); opt "check_numerics" (VBool false)] ["alpha"; "beta"]
       [("group_ndims", "group_ndims"); ("check_numerics", "check_numerics")] true)
  | Laplace => Some
       (* framework/bn.py:1057-1087 *) (Wrapper [req "name"; req "loc"; req "scale"; opt "n_samples"
       VNone; opt "group_ndims" (VInt 0); opt "is_reparameterized" (VBool true); opt "check_numerics"
       (VBool false)] ["loc"; "scale"] [("group_ndims", "group_ndims"); ("is_reparameterized",
       "is_reparameterized"); ("check_numerics", "check_numerics")] true)
  | BinConcrete => Some
       (* framework/bn.py:1089-1119 *) (Wrapper [req "name"; req "temperature"; req "logits"; opt
       "n_samples" VNone; opt "group_ndims" (VInt 0); opt "is_reparameterized" (VBool true); opt
       "check_numerics" (VBool false)] ["temperature"; "logits"] [("group_ndims", "group_ndims");
       ("is_reparameterized", "is_reparameterized"); ("check_numerics", "check_numerics")] true)
  | ExpConcrete => Some
       (* framework/bn.py:1123-1153 *) (Wrapper [req "name"; req "temperature"; req "logits"; opt
       "n_samples" VNone; opt "group_ndims" (VInt 0); opt "is_reparameterized" (VBool true); opt
       "check_numerics" (VBool false)] ["temperature"; "logits"] [("group_ndims", "group_ndims");
       ("is_reparameterized", "is_reparameterized"); ("check_numerics", "check_numerics")] true)
  | Concrete => Some
       (* framework/bn.py:1157-1187 *) (Wrapper [req "name"; req "temperature"; req "logits"; opt
       "n_samples" VNone; opt "group_ndims" (VInt 0); opt "is_reparameterized" (VBool true); opt
       "check_numerics" (VBool false)] ["temperature"; "logits"] [("group_ndims", "group_ndims");
       ("is_reparameterized", "is_reparameterized"); ("check_numerics", "check_numerics")] true)
  | Empirical | Implicit => None
  end.

(** The deprecated StochasticTensor subclasses. *)
Definition legacy (c : cls) : wrapper :=
  match c with
  | Normal =>
       (* legacy/framework/stochastic.py:80-102 *) (Wrapper [req "name"; opt "mean" (VFloat 0); opt
       "_sentinel" VNone; opt "std" VNone; opt "logstd" VNone; opt "n_samples" VNone; opt "group_ndims"
       (VInt 0); opt "is_reparameterized" (VBool true); opt "check_numerics" (VBool false)] ["mean"]
       [("_sentinel", "_sentinel"); ("std", "std"); ("logstd", "logstd"); ("group_ndims",
       "group_ndims"); ("is_reparameterized", "is_reparameterized"); ("check_numerics",
       "check_numerics")] true)
  | FoldNormal =>
       (* legacy/framework/stochastic.py:138-160 *) (Wrapper [req "name"; opt "mean" (VFloat 0); opt
       "_sentinel" VNone; opt "std" VNone; opt "logstd" VNone; opt "n_samples" VNone; opt "group_ndims"
       (VInt 0); opt "is_reparameterized" (VBool true); opt "check_numerics" (VBool false)] ["mean"]
       [("_sentinel", "_sentinel"); ("std", "std"); ("logstd", "logstd"); ("group_ndims",
       "group_ndims"); ("is_reparameterized", "is_reparameterized"); ("check_numerics",
       "check_numerics")] true)
  | Bernoulli =>
       (* legacy/framework/stochastic.py:191-205 *) (Wrapper [req "name"; req "logits"; opt "n_samples"
       VNone; opt "group_ndims" (VInt 0); opt "dtype" VInt32] ["logits"] [("group_ndims",
       "group_ndims"); ("dtype", "dtype")] true)
  | Categorical =>
       (* legacy/framework/stochastic.py:240-254 *) (Wrapper [req "name"; req "logits"; opt "n_samples"
       VNone; opt "group_ndims" (VInt 0); opt "dtype" VInt32] ["logits"] [("group_ndims",
       "group_ndims"); ("dtype", "dtype")] true)
  | Uniform =>
       (* legacy/framework/stochastic.py:289-307 *) (Wrapper [req "name"; opt "minval" (VFloat 0); opt
       "maxval" (VFloat 1); opt "n_samples" VNone; opt "group_ndims" (VInt 0); opt "is_reparameterized"
       (VBool true); opt "check_numerics" (VBool false)] ["minval"; "maxval"] [("group_ndims",
       "group_ndims"); ("is_reparameterized", "is_reparameterized"); ("check_numerics",
       "check_numerics")] true)
  | Gamma =>
       (* legacy/framework/stochastic.py:336-352 *) (Wrapper [req "name"; req "alpha"; req "beta"; opt
       "n_samples" VNone; opt "group_ndims" (VInt 0); opt "check_numerics" (VBool false)] ["alpha";
       "beta"] [("group_ndims", "group_ndims"); ("check_numerics", "check_numerics")] true)
  | Beta =>
       (* legacy/framework/stochastic.py:383-399 *) (Wrapper [req "name"; req "alpha"; req "beta"; opt
       "n_samples" VNone; opt "group_ndims" (VInt 0); opt "check_numerics" (VBool false)] ["alpha";
       "beta"] [("group_ndims", "group_ndims"); ("check_numerics", "check_numerics")] true)
  | Poisson =>
       (* legacy/framework/stochastic.py:429-445 *) (Wrapper [req "name"; req "rate"; opt "n_samples"
       VNone; opt "group_ndims" (VInt 0); opt "dtype" VInt32; opt "check_numerics" (VBool false)]
       ["rate"] [("group_ndims", "group_ndims"); ("dtype", "dtype"); ("check_numerics",
       "check_numerics")] true)
  | Binomial =>
       (* legacy/framework/stochastic.py:479-497 *) (Wrapper [req "name"; req "logits"; req
       "n_experiments"; opt "n_samples" VNone; opt "group_ndims" (VInt 0); opt "dtype" VInt32; opt
       "check_numerics" (VBool false)] ["logits"; "n_experiments"] [("group_ndims", "group_ndims");
       ("dtype", "dtype"); ("check_numerics", "check_numerics")] true)
  | MultivariateNormalCholesky =>
       (* legacy/framework/stochastic.py:534-552 *) (Wrapper [req "name"; req "mean"; req "cov_tril";
       opt "n_samples" VNone; opt "group_ndims" (VInt 0); opt "is_reparameterized" (VBool true); opt
       "check_numerics" (VBool false)] ["mean"; "cov_tril"] [("group_ndims", "group_ndims");
       ("is_reparameterized", "is_reparameterized"); ("check_numerics", "check_numerics")] true)
  | MatrixVariateNormalCholesky =>
       (* legacy/framework/stochastic.py:597-617 *) (Wrapper [req "name"; req "mean"; req "u_tril"; req
       "v_tril"; opt "n_samples" VNone; opt "group_ndims" (VInt 0); opt "is_reparameterized" (VBool
       true); opt "check_numerics" (VBool false)] ["mean"; "u_tril"; "v_tril"] [("group_ndims",
       "group_ndims"); ("is_reparameterized", "is_reparameterized"); ("check_numerics",
       "check_numerics")] true)
  | Multinomial =>
       (* legacy/framework/stochastic.py:664-682 *) (Wrapper [req "name"; req "logits"; req
       "n_experiments"; opt "normalize_logits" (VBool true); opt "n_samples" VNone; opt "group_ndims"
       (VInt 0); opt "dtype" VInt32] ["logits"; "n_experiments"] [("normalize_logits",
       "normalize_logits"); ("group_ndims", "group_ndims"); ("dtype", "dtype")] true)
  | UnnormalizedMultinomial =>
       (* legacy/framework/stochastic.py:729-744 *) (Wrapper [req "name"; req "logits"; opt
       "normalize_logits" (VBool true); opt "group_ndims" (VInt 0); opt "dtype" VInt32] ["logits"]
       [("normalize_logits", "normalize_logits"); ("group_ndims", "group_ndims"); ("dtype", "dtype")]
       false)
  | OnehotCategorical =>
       (* legacy/framework/stochastic.py:783-797 *) (Wrapper [req "name"; req "logits"; opt "n_samples"
       VNone; opt "group_ndims" (VInt 0); opt "dtype" VInt32] ["logits"] [("group_ndims",
       "group_ndims"); ("dtype", "dtype")] true)
  | Dirichlet =>
       (* legacy/framework/stochastic.py:835-849 *) (Wrapper [req "name"; req "alpha"; opt "n_samples"
       VNone; opt "group_ndims" (VInt 0); opt "check_numerics" (VBool false)] ["alpha"] [("group_ndims",
       "group_ndims"); ("check_numerics", "check_numerics")] true)
  | InverseGamma =>
       (* legacy/framework/stochastic.py:878-894 *) (Wrapper [req "name"; req "alpha"; req "beta"; opt
       "n_samples" VNone; opt "group_ndims" (VInt 0); opt "check_numerics" (VBool false)] ["alpha";
       "beta"] [("group_ndims", "group_ndims"); ("check_numerics", "check_numerics")] true)
  | Laplace =>
       (* legacy/framework/stochastic.py:926-944 *) (Wrapper [req "name"; req "loc"; req "scale"; opt
       "n_samples" VNone; opt "group_ndims" (VInt 0); opt "is_reparameterized" (VBool true); opt
       "check_numerics" (VBool false)] ["loc"; "scale"] [("group_ndims", "group_ndims");
       ("is_reparameterized", "is_reparameterized"); ("check_numerics", "check_numerics")] true)
  | BinConcrete =>
       (* legacy/framework/stochastic.py:983-1001 *) (Wrapper [req "name"; req "temperature"; req
       "logits"; opt "n_samples" VNone; opt "group_ndims" (VInt 0); opt "is_reparameterized" (VBool
       true); opt "check_numerics" (VBool false)] ["temperature"; "logits"] [("group_ndims",
       "group_ndims"); ("is_reparameterized", "is_reparameterized"); ("check_numerics",
       "check_numerics")] true)
  | ExpConcrete =>
       (* legacy/framework/stochastic.py:1043-1061 *) (Wrapper [req "name"; req "temperature"; req
       "logits"; opt "n_samples" VNone; opt "group_ndims" (VInt 0); opt "is_reparameterized" (VBool
       true); opt "check_numerics" (VBool false)] ["temperature"; "logits"] [("group_ndims",
       "group_ndims"); ("is_reparameterized", "is_reparameterized"); ("check_numerics",
       "check_numerics")] true)
  | Concrete =>
       (* legacy/framework/stochastic.py:1104-1122 *) (Wrapper [req "name"; req "temperature"; req
       "logits"; opt "n_samples" VNone; opt "group_ndims" (VInt 0); opt "is_reparameterized" (VBool
       true); opt "check_numerics" (VBool false)] ["temperature"; "logits"] [("group_ndims",
       "group_ndims"); ("is_reparameterized", "is_reparameterized"); ("check_numerics",
       "check_numerics")] true)
  | Empirical =>
       (* legacy/framework/stochastic.py:1158-1176 *) (Wrapper [req "name"; req "dtype"; req
       "batch_shape"; opt "n_samples" VNone; opt "group_ndims" (VInt 0); opt "value_shape" VNone; opt
       "is_continuous" VNone] ["dtype"; "batch_shape"] [("value_shape", "value_shape"); ("group_ndims",
       "group_ndims"); ("is_continous", "is_continuous")] true)
  | Implicit =>
       (* legacy/framework/stochastic.py:1205-1219 *) (Wrapper [req "name"; req "samples"; opt
       "value_shape" VNone; opt "group_ndims" (VInt 0); opt "n_samples" VNone] ["samples"]
       [("value_shape", "value_shape"); ("group_ndims", "group_ndims")] true)
  end.

(** The call of the distribution inside a named constructor. *)
Definition inner_dist (c : cls) (w : wrapper) (e kwargs : dict) : res dist :=
  match splat (map (fun a => (fst a, arg (snd a) e)) (w_kw w)) kwargs with
  | None => TypeErr
  | Some kw => dist_new c (map (fun p => arg p e) (w_pos w)) kw
  end.
Definition samples_kw (w : wrapper) (e : dict) : dict :=
  if w_samples w then [("n_samples", arg "n_samples" e)] else [].

(** bn.<constructor>( *pos, **kw). *)
Definition call_method (c : cls) (w : wrapper) (bn obs : val) (pos : list val) (kw : dict) : res node :=
  match bind (req "self" :: w_sig w) (bn :: pos) kw with
  | None => TypeErr
  | Some (e, kwargs) =>
      match inner_dist c w e kwargs with
      | Done d =>
          match splat (samples_kw w e) kwargs with
          | None => TypeErr
          | Some kw' => stochastic bn obs (arg "name" e) d kw'
          end
      | TypeErr => TypeErr
      | ValueErr => ValueErr
      end
  end.
(** zs.<Class>( *pos, **kw), old style: StochasticTensor.__init__(None, name, dist, ...).
    The context lookup that replaces None is in ModelContext. *)
Definition call_legacy (c : cls) (pos : list val) (kw : dict) : res node :=
  let w := legacy c in
  match bind (req "self" :: w_sig w) (VObj 0 :: pos) kw with
  | None => TypeErr
  | Some (e, kwargs) =>
      match inner_dist c w e kwargs with
      | Done d =>
          match splat (samples_kw w e) kwargs with
          | None => TypeErr
          | Some kw' => tensor_new VNone (arg "name" e) d kw'
          end
      | TypeErr => TypeErr
      | ValueErr => ValueErr
      end
  end.
