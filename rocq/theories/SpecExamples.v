(** Vocabulary of C73 to C76. *)
From Coq Require Import List Reals Arith Permutation.
From Verif Require Import SpecDist SpecVI.
Import ListNotations.
Local Open Scope R_scope.

(** ** C73 *)
(** A tower with the examples [shard]: for every variable of [vars] the gradient of the mean
    loss over the shard, or None if the loss does not depend on the variable. [grad v d i] is
    entry [i] of the gradient for example [d]; the variable has [dim v] entries. *)
Section Tower.
Context {V D : Type} (dim : V -> nat) (grad : V -> D -> nat -> R) (depends : V -> bool) (vars : list V).
Definition mean_gradient (v : V) (data : list D) : list R :=
  map (fun i => mean (map (fun d => grad v d i) data)) (seq 0 (dim v)).
Definition tower (shard : list D) : list (option (list R) * V) :=
  map (fun v => (if depends v then Some (mean_gradient v shard) else None, v)) vars.
End Tower.
(** ** C74 *)
(** The weighted sum of the gradients, latest first in weight. *)
Fixpoint weighted (beta : R) (grads : list R) : R :=
  match grads with
  | [] => 0
  | g :: grads' => beta ^ length grads' * g + weighted beta grads'
  end.
(** ** C76 *)
Definition rms (l : list R) : R := sqrt (mean (map (fun x => x ^ 2) l)).
(** ** C75 *)
Definition with_label {A} (i : nat) (p : A * nat) : bool := Nat.eqb (snd p) i.
(** ** C76 *)
(** [ratings l r]: for the users l..r-1 that have a list, every movie and score with the number
    of the user in the batch. *)
Definition ratings (l r : nat) (u_v u_v_score : list (list nat)) : list (nat * nat * nat) :=
  flat_map (fun i => map (fun p => (i, fst p, snd p)) (combine (nth (l + i) u_v []) (nth (l + i) u_v_score []))) (seq 0 (r - l)).
