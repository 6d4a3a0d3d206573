(** Independent specification for the backward search: which ops are needed to
    compute the seeds, and dependency order. *)
From Coq Require Import List Relations.
From Verif Require Import ModelGraph.
Import ListNotations.

(** [follows g treat o d]: computing [o] directly requires [d], where tensors
    in [treat] count as given. *)
Definition follows (g : graph) (treat : list tensor) (o d : op) : Prop :=
  (exists t, In t (op_inputs g o) /\ ~ In t treat /\ t_op t = d)
  \/ In d (op_control_inputs g o).

(** Ops that must run to compute the seeds. *)
Inductive needed (g : graph) (seeds treat : list tensor) : op -> Prop :=
| needed_seed t : In t seeds -> ~ In t treat -> needed g seeds treat (t_op t)
| needed_dep o d : needed g seeds treat o -> follows g treat o d ->
                   needed g seeds treat d.

(** No op transitively depends on itself. *)
Definition acyclic (g : graph) (treat : list tensor) : Prop :=
  forall o, ~ clos_trans op (follows g treat) o o.

(** The needed ops all belong to the finite list [ops]. *)
Definition finite_part (g : graph) (seeds treat : list tensor) (ops : list op)
  : Prop := forall o, needed g seeds treat o -> In o ops.

(** Every op of [l] comes after all the ops it directly requires. *)
Definition dependency_ordered (g : graph) (treat : list tensor) (l : list op)
  : Prop :=
  forall l1 o l2, l = l1 ++ o :: l2 ->
  forall d, follows g treat o d -> In d l1.
