(** Vocabulary for the adversarial examples. *)
From Coq Require Import List Reals.
From Verif Require Import SpecDist ModelDist.
Import ListNotations.
Local Open Scope R_scope.

(** Arithmetic mean. *)
Definition mean_of {X} (f : X -> R) (l : list X) : R := total f l / INR (length l).
(** The probability that the image is real, from the discriminator's logit. *)
Definition real_probability (logit : R) : R := exp logit / (1 + exp logit).
(** How many entries are not zero. *)
Definition connections (w : list R) : nat := length (filter (fun a => if Req_EM_T a 0 then false else true) w).
(** Two inputs differ by at most [e] in every entry. *)
Definition within (e : R) (x y : list R) : Prop := Forall2 (fun a b => Rabs (a - b) <= e) x y.
