(** Independent vocabulary for the named-constructor properties. *)
From Coq Require Import List String Bool ZArith.
From Verif Require Import ModelCall.
Import ListNotations.
Local Open Scope string_scope.

(** The arguments of a call by name: positional ones take the names of the parameters
    in order. *)
Definition by_name (s : sig) (pos : list val) (kw : dict) : dict := (combine (map fst s) pos ++ kw)%list.
(** A call Python can bind: not too many positional arguments, nothing given twice. *)
Definition well_formed (s : sig) (pos : list val) (kw : dict) : Prop :=
  (List.length pos <= List.length s)%nat /\ NoDup (map fst (by_name s pos kw)).
Definition without (ks : list string) (l : dict) : dict := filter (fun a => negb (among (fst a) ks)) l.
(** What a distribution parameter with default [d] receives from named arguments. *)
Definition received (l : dict) (p : string) (d : option val) : option val :=
  match look p l with Some v => Some v | None => d end.
Definition then_node (r : res dist) (f : dist -> node) : res node :=
  match r with Done d => Done (f d) | TypeErr => TypeErr | ValueErr => ValueErr end.
(** Parameters of a named constructor after the node name. *)
Definition user_sig (w : wrapper) : sig := tl (w_sig w).
(** The documented default of each optional parameter; the same in every class. *)
Definition documented (p : string) : option val :=
  if among p ["std"; "logstd"; "_sentinel"; "batch_shape"; "value_shape"; "is_continuous"] then Some VNone
  else if among p ["use_path_derivative"; "check_numerics"] then Some (VBool false)
  else if among p ["is_reparameterized"; "normalize_logits"] then Some (VBool true)
  else if among p ["mean"; "minval"] then Some (VFloat 0%Z)
  else if String.eqb p "maxval" then Some (VFloat 1%Z)
  else if String.eqb p "group_ndims" then Some (VInt 0%Z)
  else if String.eqb p "dtype" then Some VInt32
  else None.
(** The arguments without which each class cannot be built. *)
Definition required (c : cls) : list string :=
  match c with
  | Normal | FoldNormal | Uniform => []
  | Bernoulli | Categorical | UnnormalizedMultinomial | OnehotCategorical => ["logits"]
  | Gamma | Beta | InverseGamma => ["alpha"; "beta"]
  | Poisson => ["rate"]
  | Binomial | Multinomial => ["logits"; "n_experiments"]
  | Laplace => ["loc"; "scale"]
  | BinConcrete | ExpConcrete | Concrete => ["temperature"; "logits"]
  | MultivariateNormalCholesky => ["mean"; "cov_tril"]
  | MatrixVariateNormalCholesky => ["mean"; "u_tril"; "v_tril"]
  | Dirichlet => ["alpha"]
  | Empirical => ["dtype"]
  | Implicit => ["samples"]
  end.
