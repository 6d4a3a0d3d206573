(** Integrals over all values of finitely many real coordinates. *)
From Coq Require Import List Reals.
From Coquelicot Require Import Coquelicot.
Import ListNotations.
Local Open Scope R_scope.

Section Spec.
Context {J : Type} (dec : forall i j : J, {i = j} + {i <> j}).

Definition upd (x : J -> R) (i : J) (t : R) : J -> R := fun j => if dec i j then t else x j.

(** Integral over the cube [-B, B]^L, one coordinate after the other. *)
Fixpoint cube_integral (B : R) (L : list J) (F : (J -> R) -> R) (x : J -> R) : R :=
  match L with
  | [] => F x
  | i :: L' => RInt (fun t => cube_integral B L' F (upd x i t)) (- B) B
  end.

(** Continuity of a function of all coordinates. *)
Definition cont (F : (J -> R) -> R) : Prop := forall x e, 0 < e ->
  exists d, 0 < d /\ forall y, (forall j, Rabs (y j - x j) < d) -> Rabs (F y - F x) < e.

(** The integral of a continuous function that is nowhere negative: the least upper
    bound of its integrals over cubes. *)
Definition total (L : list J) (F : (J -> R) -> R) (v : R) : Prop :=
  is_lub (fun m => exists B, 0 <= B /\ m = cube_integral B L F (fun _ => 0)) v.
(** The integral of [F] over all values of the coordinates in [L] is [v]; [F] is
    continuous and nowhere negative. *)
Definition has_integral (L : list J) (F : (J -> R) -> R) (v : R) : Prop :=
  cont F /\ (forall x, 0 <= F x) /\ total L F v.
End Spec.
