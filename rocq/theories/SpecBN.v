(** Specification vocabulary for BayesianNet histories. *)
From Coq Require Import List Arith Bool.
From Verif Require Import ModelBN.
Import ListNotations.

Section Spec.
Context (W : world).

(** Node handle [i] is what the network answers for some name. *)
Definition bound (b : bn W) (n : name) (i : nat) : Prop :=
  snd (step W b (Get W (QOne n))) = ORef W (RStoch W i).

(** [ids] lists the network's current stochastic nodes, each once. *)
Definition lists_stochastic (b : bn W) (ids : list nat) : Prop :=
  NoDup ids /\ forall i, In i ids <-> exists n, bound b n i.

(** Calls that do not bypass stochastic(): no deprecated construction, no change
    of meta_bn.log_joint, no deterministic() over a stochastic node's name. *)
Definition ok_call (b : bn W) (c : call W) : Prop :=
  match c with
  | Legacy _ _ _ _ _ => False
  | SetLogJoint _ _ => False
  | Deterministic _ n _ => forall i, ~ bound b n i
  | _ => True
  end.
Fixpoint safe (b : bn W) (h : list (call W)) : Prop :=
  match h with
  | [] => True
  | c :: h' => ok_call b c /\ safe (fst (step W b c)) h'
  end.

(** The call does not (re)bind name [n] by a call other than stochastic(). *)
Definition keeps_name (n : name) (c : call W) : Prop :=
  match c with
  | Legacy _ n' _ _ _ => n' <> n
  | Deterministic _ n' _ => n' <> n
  | _ => True
  end.
End Spec.
