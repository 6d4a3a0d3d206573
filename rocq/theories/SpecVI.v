(** Vocabulary for statements about variational objectives. *)
From Coq Require Import List Reals.
From Coquelicot Require Import Coquelicot.
From Verif Require Import SpecDist ModelVI.
Import ListNotations.
Local Open Scope R_scope.

Section Space.
Context {Z : Type}.

(** Expectation over one draw from [q], and over [K] independent draws: the sum
    over all possible lists of draws, each weighted by its probability. *)
Definition expect (q : Z -> R) (Zs : list Z) (f : Z -> R) : R := total (fun z => q z * f z) Zs.
Fixpoint expects (q : Z -> R) (Zs : list Z) (K : nat) (f : list Z -> R) : R :=
  match K with
  | O => f []
  | S K' => expect q Zs (fun z => expects q Zs K' (fun zs => f (z :: zs)))
  end.

(** [q] is a distribution over the points listed in [Zs]. *)
Definition distribution (q : Z -> R) (Zs : list Z) : Prop :=
  (forall z, In z Zs -> 0 <= q z) /\ total q Zs = 1.

(** p(x), p(z|x) and KL(q || r), from the joint density p(x, z) = [p z]. *)
Definition evidence (p : Z -> R) (Zs : list Z) : R := total p Zs.
Definition posterior (p : Z -> R) (Zs : list Z) (z : Z) : R := p z / evidence p Zs.
Definition kl (q r : Z -> R) (Zs : list Z) : R := expect q Zs (fun z => ln (q z / r z)).

(** The tensors handed to the objective when the draws are [zs]. A quantity that
    depends on the parameter and on the draw is given by its value at each
    parameter and its partial derivative at the current one. *)
Record quantity := Quantity { at_param : R -> Z -> R; partial : Z -> R }.
Definition tensor_of (theta : R) (x : quantity) (zs : list Z) : list dual :=
  map (fun z => Dual (at_param x theta z) (partial x z)) zs.
Definition differentiable (theta : R) (Zs : list Z) (x : quantity) : Prop :=
  forall z, In z Zs -> is_derive (fun t => at_param x t z) theta (partial x z).

(** One log probability per latent node; their sum is log q. *)
Definition entropy_of (theta : R) (lqs : list quantity) (zs : list Z) : option (list dual) :=
  entropy_term (map (fun lq => tensor_of theta lq zs) lqs).
Definition log_q (lqs : list quantity) (t : R) (z : Z) : R :=
  total (fun lq => at_param lq t z) lqs.

(** [lqs] are the log probabilities of the distribution [q] wherever [q] can draw,
    at parameter [t]. *)
Definition log_probs_of (q : Z -> R) (lqs : list quantity) (t : R) (Zs : list Z) : Prop :=
  lqs <> [] /\ forall z, In z Zs -> 0 < q z -> log_q lqs t z = ln (q z).

(** The log weight of a draw. *)
Definition log_weight (lj : quantity) (lqs : list quantity) (t : R) (z : Z) : R :=
  at_param lj t z - log_q lqs t z.
End Space.

(** Arithmetic mean of a list, and the list without its [j]-th entry. *)
Definition mean (l : list R) : R := total (fun x => x) l / INR (length l).
Definition remove_nth {X} (j : nat) (l : list X) : list X := firstn j l ++ skipn (S j) l.
Definition replace_nth {X} (j : nat) (x : X) (l : list X) : list X :=
  firstn j l ++ x :: skipn (S j) l.
(** ln of the mean of the exponentials. *)
Definition ln_mean_exp (l : list R) : R := ln (mean (map exp l)).

(** A differentiable variational family: at every parameter a distribution that
    gives positive probability to every listed point, with differentiable log
    probabilities, one per latent node. *)
Record family {Z} (Zs : list Z) (q : R -> Z -> R) (lqs : list quantity) (theta : R) : Prop := {
  fam_pos : forall t z, In z Zs -> 0 < q t z;
  fam_sum : forall t, total (q t) Zs = 1;
  fam_log : forall t, log_probs_of (q t) lqs t Zs;
  fam_diff : forall lq, In lq lqs -> differentiable theta Zs lq }.

(** The exact evidence lower bound at parameter [t], with no sampling. *)
Definition exact_elbo {Z} (Zs : list Z) (q : R -> Z -> R) lj lqs (t : R) : R :=
  expect (q t) Zs (log_weight lj lqs t).
