(** Reference semantics: lexical nesting only, no stacks, no class attributes. *)
From Coq Require Import List Arith Bool.
From Verif Require Import ModelContext.
Import ListNotations.

(** The with-blocks and observe calls enclosing the current point, innermost
    first. *)
Inductive scope :=
| InWith (c : cls) (x : ctx)
| InObserve (m : nat) (obs : observations).

Fixpoint innermost_with (sc : list scope) (c : cls) : option ctx :=
  match sc with
  | [] => None
  | InWith c' x :: sc' => if cls_eqb c c' then Some x else innermost_with sc' c
  | InObserve _ _ :: sc' => innermost_with sc' c
  end.

Fixpoint innermost_observe (sc : list scope) : option (nat * observations) :=
  match sc with
  | [] => None
  | InWith _ _ :: sc' => innermost_observe sc'
  | InObserve m obs :: _ => Some (m, obs)
  end.

(** Events and outcome of a program, by lexical scoping. *)
Fixpoint lexical (p : prog) (sc : list scope) : list event * outcome :=
  match p with
  | Done o => ([], o)
  | With c x body k =>
      let '(e1, o) := lexical body (InWith c x :: sc) in
      let '(e2, o2) := lexical (k o) sc in (e1 ++ e2, o2)
  | GetContext c k =>
      let a := innermost_with sc c in
      let '(e, o) := lexical (k a) sc in (EvContext c a :: e, o)
  | Observe m obs body k =>
      let '(e1, o) := lexical body (InObserve m obs :: sc) in
      let '(e2, o2) := lexical (k o) sc in (e1 ++ e2, o2)
  | NewBN k =>
      let '(e, o) := lexical k sc in (EvBN (innermost_observe sc) :: e, o)
  end.

(** The context stack a class sees. *)
Definition visible (h : heap) (c : cls) : list ctx :=
  match owner h c with
  | Some o => match own_attr h o with Some l => l | None => [] end
  | None => []
  end.

(** The context classes a program mentions belong to [cs]. *)
Inductive uses_only (P : cls -> Prop) : prog -> Prop :=
| u_done o : uses_only P (Done o)
| u_with c x body k : P c -> uses_only P body ->
    (forall o, uses_only P (k o)) -> uses_only P (With c x body k)
| u_get c k : P c -> (forall a, uses_only P (k a)) ->
    uses_only P (GetContext c k)
| u_obs m obs body k : uses_only P body -> (forall o, uses_only P (k o)) ->
    uses_only P (Observe m obs body k)
| u_bn k : uses_only P k -> uses_only P (NewBN k).

(** [a] is a proper subclass of [b]. *)
Definition proper_subclass (a b : cls) : Prop :=
  exists pre, pre <> [] /\ a = pre ++ b.

(** Real classes have a name and no two of them are in a subclass relation. *)
Definition unrelated_classes (P : cls -> Prop) : Prop :=
  (forall c, P c -> c <> []) /\
  (forall a b, P a -> P b -> ~ proper_subclass a b).
