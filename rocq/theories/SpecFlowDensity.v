(** What it means that a flow returns the log density of its output. The coordinates
    are the members of a type [J], listed in order by [L]; a row is [map x L]. *)
From Coq Require Import List Reals.
From Verif Require Import SpecVolume.
Local Open Scope R_scope.

Section Spec.
Context {J : Type} (dec : forall i j : J, {i = j} + {i <> j}) (L : list J).

(** If the random vector x has the density exp lp, then [out x] has the density exp q:
    every function that is nowhere negative has the same mean, if any, under both. *)
Definition carries (lp : (J -> R) -> R) (out : (J -> R) -> J -> R) (q : (J -> R) -> R) : Prop :=
  forall f v, cont f ->
    has_integral dec L (fun x => exp (lp x) * f (out x)) v <->
    has_integral dec L (fun y => exp (q y) * f y) v.

(** A function of rows, continuous in every component. *)
Definition continuous_rows (f : list R -> list R) : Prop :=
  forall k, cont (fun x : J -> R => nth k (f (map x L)) 0).
End Spec.
