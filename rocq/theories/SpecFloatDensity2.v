(** Vocabulary of C70: the accuracy of a library function, the textbook densities, and the
    sizes of the terms of their logarithms. *)
From Coq Require Import Reals ZArith.
From Flocq Require Import Core.
From Verif Require Import ModelFloat SpecFloat.
Local Open Scope R_scope.

(** [f] gives a float within two units of roundoff of [g x], relative to 1 + |g x|. *)
Definition accurate_at prec top (f g : R -> R) (x : R) : Prop :=
  generic_format radix2 (fexpo prec top) (f x) /\ Rabs (f x - g x) <= 2 * unit_roundoff prec * (1 + Rabs (g x)).
Definition accurate_lgamma prec top (f lgamma : R -> R) : Prop :=
  forall x, is_float prec top x -> 0 < x -> accurate_at prec top f lgamma x.
Definition accurate_softplus prec top (f : R -> R) : Prop :=
  forall x, is_float prec top x -> accurate_at prec top f (fun x => ln (1 + exp x)) x.
(** How large a logarithm is, and log Gamma. *)
Definition log_size (x : R) : R := 1 + Rabs (ln x).
Definition size (x : R) : R := 1 + Rabs x.

Definition poisson_pmf (rate : R) (n : nat) : R := rate ^ n / INR (fact n) * exp (- rate).
Definition binomial_pmf (n : nat) (p : R) (k : nat) : R := INR (fact n) / (INR (fact k) * INR (fact (n - k))) * p ^ k * (1 - p) ^ (n - k).
(** [g] is the logarithm of the Gamma function. *)
Definition gamma_pdf (g : R -> R) (alpha beta x : R) : R := Rpower beta alpha / exp (g alpha) * Rpower x (alpha - 1) * exp (- beta * x).
Definition inverse_gamma_pdf (g : R -> R) (alpha beta x : R) : R := Rpower beta alpha / exp (g alpha) * Rpower x (- alpha - 1) * exp (- beta / x).
Definition beta_pdf (g : R -> R) (alpha beta x : R) : R :=
  exp (g (alpha + beta)) / (exp (g alpha) * exp (g beta)) * Rpower x (alpha - 1) * Rpower (1 - x) (beta - 1).
(** Maddison et al.: the binary Concrete density with location exp(logits). *)
Definition bin_concrete_pdf (temperature logits x : R) : R :=
  temperature * exp logits * Rpower x (- temperature - 1) * Rpower (1 - x) (- temperature - 1) /
  (exp logits * Rpower x (- temperature) + Rpower (1 - x) (- temperature)) ^ 2.
