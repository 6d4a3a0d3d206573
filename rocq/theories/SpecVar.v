(** Vocabulary of C51: reading the record of a run (ModelVar.event). *)
From Coq Require Import List Arith Bool.
From Verif Require Import ModelVar.
Import ListNotations.

(** [m] is a model made with scope=... and reuse_variables=True. *)
Definition sharing (s : st) (m : nat) : Prop :=
  exists x, nth_error (s_models s) m = Some x /\ m_reuse x = true.
(** [m] is a model made with reuse_variables=False. *)
Definition not_sharing (s : st) (m : nat) : Prop :=
  exists x, nth_error (s_models s) m = Some x /\ m_reuse x = false.

(** The variables an event mentions, and whether it is a creation. *)
Definition ids (e : event) : list nat :=
  match e with Got _ _ v _ => [v] | Made v => [v] | _ => [] end.
Definition creates (e : event) : bool :=
  match e with Got _ _ _ b => b | Made _ => true | _ => false end.

(** [c] is the first call of [m] in the record. *)
Definition first_call (log : list event) (m c : nat) : Prop :=
  forall c0 q r, In (Began m c0 q r) log -> c <= c0.

(** Programs that never switch a scope to reuse=True themselves. *)
Fixpoint no_reuse_scopes (p : prog) : Prop :=
  match p with
  | Done _ => True
  | GetVar _ k => forall v, no_reuse_scopes (k v)
  | NewVar k => forall v, no_reuse_scopes (k v)
  | InScope _ b k | InUnique _ b k | Observe _ b k => no_reuse_scopes b /\ no_reuse_scopes k
  | InReuse _ _ => False
  | Try b k => no_reuse_scopes b /\ forall o, no_reuse_scopes (k o)
  | NewModel _ _ _ k => forall r, no_reuse_scopes (k r)
  end.

(** Code of model functions that get variables under named or automatically numbered
    scopes, whatever they do with them. *)
Fixpoint plain (p : prog) : Prop :=
  match p with
  | Done _ => True
  | GetVar _ k => forall v, plain (k v)
  | InScope _ b k | InUnique _ b k => plain b /\ plain k
  | _ => False
  end.

(** Code that observes no model. *)
Fixpoint no_models (p : prog) : Prop :=
  match p with
  | Done _ => True
  | GetVar _ k => forall v, no_models (k v)
  | NewVar k => forall v, no_models (k v)
  | InScope _ b k | InUnique _ b k | InReuse b k => no_models b /\ no_models k
  | Try b k => no_models b /\ forall o, no_models (k o)
  | NewModel _ _ _ k => forall r, no_models (k r)
  | Observe _ _ _ => False
  end.

(** Host code that observes models from the outermost scope only, with plain model
    functions; in its own scopes and between calls it does as it likes. *)
Fixpoint hostly (p : prog) : Prop :=
  match p with
  | Done _ => True
  | GetVar _ k => forall v, hostly (k v)
  | NewVar k => forall v, hostly (k v)
  | InScope _ b k | InUnique _ b k | InReuse b k => no_models b /\ hostly k
  | Try b k => hostly b /\ forall o, hostly (k o)
  | NewModel _ _ _ k => forall r, hostly (k r)
  | Observe _ b k => plain b /\ hostly k
  end.

(** The names asked for in call [c] of [m] and the variables got, in order. *)
Definition answers_of (m c : nat) (l : list event) : list (path * nat) :=
  flat_map (fun e => match e with
                     | Got (Some (m', c')) n v _ => if (Nat.eqb m' m && Nat.eqb c' c)%bool then [(n, v)] else []
                     | _ => []
                     end) l.
