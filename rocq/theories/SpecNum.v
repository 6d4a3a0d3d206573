(** Vocabulary for statements about the density methods on every float: which inputs
    check_numerics lets through, and what the ideal answer is. *)
From Coq Require Import List Reals ZArith.
From Verif Require Import ModelExt ModelNum ModelDist.
Import ListNotations.
Local Open Scope R_scope.

(** Kinds of floats. *)
Definition number (a : ext) : Prop := exists r, a = Fi r.
Definition positive (a : ext) : Prop := exists r, a = Fi r /\ 0 < r.
Definition fraction (a : ext) : Prop := exists r, a = Fi r /\ 0 < r < 1.
(** Not one of 0, -1, -2, ... : log-Gamma is finite there. *)
Definition regular (a : ext) : Prop := exists r, a = Fi r /\ forall k : nat, r <> - INR k.

(** The standard deviation is a positive number. An infinite logstd goes through: only
    its negative exponential is looked at. *)
Definition proper (d : deviation) : Prop := match d with Std s => positive s | Logstd l => number l \/ l = PInf end.

(** The inputs log_prob accepts when check_numerics is on. *)
Definition accepted (d : univariate) (given : ext) : Prop :=
  match d with
  | Normal _ dev | FoldNormal _ dev => proper dev
  | Bernoulli _ => True
  | Uniform lo hi => exists a b x, lo = Fi a /\ hi = Fi b /\ given = Fi x /\ a <= x < b
  | Gamma alpha beta | InverseGamma alpha beta => regular alpha /\ positive beta /\ positive given
  | Beta alpha beta => regular alpha /\ regular beta /\ regular (eadd alpha beta) /\ fraction given
  | Poisson rate => positive rate /\ regular (eadd given (Fi 1))
  | Binomial _ n => regular (eadd given (Fi 1)) /\ regular (eadd (esub (Fi (IZR n)) given) (Fi 1))
  | Laplace _ scale => positive scale
  | BinConcrete temperature _ => positive temperature /\ fraction given
  end.
(** The inputs of log_prob that no check looks at. *)
Definition unchecked (d : univariate) (given : ext) : list ext :=
  match d with
  | Normal mean (Std _) | FoldNormal mean (Std _) => [mean; given]
  | Normal mean (Logstd l) | FoldNormal mean (Logstd l) => [mean; l; given]
  | Bernoulli logits => [logits; given]
  | Binomial logits n => [logits]
  | Laplace loc _ => [loc; given]
  | BinConcrete _ logits => [logits]
  | Uniform _ _ | Gamma _ _ | Beta _ _ | Poisson _ | InverseGamma _ _ => []
  end.
(** Some parameter is NaN. *)
Definition has_nan (d : univariate) : Prop :=
  match d with
  | Normal mean dev | FoldNormal mean dev => mean = NaN \/ dev = Std NaN \/ dev = Logstd NaN
  | Bernoulli l => l = NaN
  | Poisson rate => rate = NaN
  | Binomial l _ => l = NaN
  | Uniform a b | Gamma a b | Beta a b | InverseGamma a b | Laplace a b | BinConcrete a b => a = NaN \/ b = NaN
  end.

(** Finite parameters of the documented kind and a value inside the support, with the
    real-number formula of the log density (ModelDist.v; C15-C17 are about these). *)
Inductive inside (lgamma : R -> R) : univariate -> ext -> R -> Prop :=
| in_normal_std m s x : 0 < s -> inside lgamma (Normal (Fi m) (Std (Fi s))) (Fi x) (normal_lp x m (ln s))
| in_normal_log m l x : inside lgamma (Normal (Fi m) (Logstd (Fi l))) (Fi x) (normal_lp x m l)
| in_fold_std m s x v : 0 < s -> foldnormal_lp x m (ln s) = Fin v -> inside lgamma (FoldNormal (Fi m) (Std (Fi s))) (Fi x) v
| in_fold_log m l x v : foldnormal_lp x m l = Fin v -> inside lgamma (FoldNormal (Fi m) (Logstd (Fi l))) (Fi x) v
| in_bernoulli l x : inside lgamma (Bernoulli (Fi l)) (Fi x) (bernoulli_lp x l)
| in_uniform a b x v : a < b -> uniform_lp x a b = Fin v -> inside lgamma (Uniform (Fi a) (Fi b)) (Fi x) v
| in_gamma a b x : 0 < a -> 0 < b -> 0 < x -> inside lgamma (Gamma (Fi a) (Fi b)) (Fi x) (gamma_lp lgamma x a b)
| in_beta a b x : 0 < a -> 0 < b -> 0 < x < 1 -> inside lgamma (Beta (Fi a) (Fi b)) (Fi x) (beta_lp lgamma x a b)
| in_poisson r (k : nat) : 0 < r -> inside lgamma (Poisson (Fi r)) (Fi (INR k)) (poisson_lp lgamma (INR k) r)
| in_binomial l (n : nat) (k : nat) : (k <= n)%nat ->
    inside lgamma (Binomial (Fi l) (Z.of_nat n)) (Fi (INR k)) (binomial_lp lgamma (INR k) l (INR n))
| in_inverse_gamma a b x : 0 < a -> 0 < b -> 0 < x -> inside lgamma (InverseGamma (Fi a) (Fi b)) (Fi x) (inverse_gamma_lp lgamma x a b)
| in_laplace m s x : 0 < s -> inside lgamma (Laplace (Fi m) (Fi s)) (Fi x) (laplace_lp x m s)
| in_bin_concrete t l x : 0 < t -> 0 < x < 1 -> inside lgamma (BinConcrete (Fi t) (Fi l)) (Fi x) (bin_concrete_lp x t l).

(** Valid parameters and a value outside the support: negative where the values are
    positive (or non-negative), not in [minval, maxval) for the Uniform, above 1 or below 0
    for fractions, a negative or too large count. *)
Inductive outside : univariate -> ext -> Prop :=
| out_fold_std m s x : 0 < s -> x < 0 -> outside (FoldNormal (Fi m) (Std (Fi s))) (Fi x)
| out_fold_log m l x : x < 0 -> outside (FoldNormal (Fi m) (Logstd (Fi l))) (Fi x)
| out_uniform a b x : a < b -> x < a \/ b <= x -> outside (Uniform (Fi a) (Fi b)) (Fi x)
| out_poisson r (k : nat) : 0 < r -> (0 < k)%nat -> outside (Poisson (Fi r)) (Fi (- INR k))
| out_binomial_low l (n k : nat) : (0 < k)%nat -> outside (Binomial (Fi l) (Z.of_nat n)) (Fi (- INR k))
| out_binomial_high l (n k : nat) : (n < k)%nat -> outside (Binomial (Fi l) (Z.of_nat n)) (Fi (INR k))
| out_gamma a b x : 0 < a -> 0 < b -> x < 0 -> outside (Gamma (Fi a) (Fi b)) (Fi x)
| out_inverse_gamma a b x : 0 < a -> 0 < b -> x < 0 -> outside (InverseGamma (Fi a) (Fi b)) (Fi x)
| out_beta a b x : 0 < a -> 0 < b -> x < 0 \/ 1 < x -> outside (Beta (Fi a) (Fi b)) (Fi x)
| out_bin_concrete t l x : 0 < t -> x < 0 \/ 1 < x -> outside (BinConcrete (Fi t) (Fi l)) (Fi x).
(** The classes that answer NaN there instead of minus infinity. *)
Definition answers_nan (d : univariate) : bool :=
  match d with Gamma _ _ | InverseGamma _ _ | Beta _ _ | BinConcrete _ _ => true | _ => false end.
