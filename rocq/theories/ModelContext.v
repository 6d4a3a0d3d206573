(** Model of context stacks (zhusuan/framework/utils.py:20-46) and of
    MetaBayesianNet.observe (zhusuan/framework/meta_bn.py:21-106).

    Python code is represented by [prog]: a tree whose nodes are the calls this
    library offers and whose continuations are arbitrary functions of the
    results, so that "for every [prog]" covers every host program that uses
    contexts through [with] statements and [observe] calls (loops unfold into
    finite trees; a non-terminating host program never leaves its blocks). *)
From Coq Require Import List Arith Bool.
Import ListNotations.

(** A class is represented by its method resolution order restricted to context
    classes, itself first: [c :: parents].  Simplification: single inheritance
    among context classes (true of Local and BayesianNet and of user
    subclasses of either). *)
Definition cls := list nat.
Definition cls_eqb (a b : cls) : bool :=
  if list_eq_dec Nat.eq_dec a b then true else false.

(** meta_bn.py:21 [class Local(Context)], bn.py:492 [class BayesianNet(.., Context)],
    utils.py:20 [class Context]. *)
Definition Context_cls : cls := [0].
Definition Local_cls : cls := [1; 0].
Definition BayesianNet_cls : cls := [2; 0].

(** Context instances are identified by numbers. *)
Definition ctx := nat.

(** The class attributes [_contexts]: at most one entry per class. *)
Definition heap := list (cls * list ctx).

Fixpoint own_attr (h : heap) (c : cls) : option (list ctx) :=
  match h with
  | [] => None
  | (c', l) :: h' => if cls_eqb c c' then Some l else own_attr h' c
  end.

(** Attribute lookup along the MRO: the class whose [_contexts] is used by [c]. *)
Fixpoint owner (h : heap) (c : cls) : option cls :=
  match c with
  | [] => None
  | _ :: parent => match own_attr h c with
                   | Some _ => Some c
                   | None => owner h parent
                   end
  end.

Fixpoint set_attr (h : heap) (c : cls) (l : list ctx) : heap :=
  match h with
  | [] => [(c, l)]
  | (c', l') :: h' => if cls_eqb c c' then (c', l) :: h'
                      else (c', l') :: set_attr h' c l
  end.

(** Context.get_contexts, utils.py:35-39: create [cls._contexts = []] unless
    the attribute is found on the class or an ancestor; returns the owner of
    the list object and its content. *)
Definition get_contexts (h : heap) (c : cls) : heap * cls * list ctx :=
  match owner h c with
  | Some o => match own_attr h o with
              | Some l => (h, o, l)
              | None => (h, o, [])
              end
  | None => (set_attr h c [], c, [])
  end.

(** Context.get_context, utils.py:41-46; [None] is the RuntimeError "No contexts
    on the stack". *)
Definition get_context (h : heap) (c : cls) : heap * option ctx :=
  let '(h', _, l) := get_contexts h c in
  (h', match rev l with [] => None | x :: _ => Some x end).

(** Context.__enter__, utils.py:28-30: append to the class's list. *)
Definition ctx_enter (h : heap) (c : cls) (x : ctx) : heap :=
  let '(h', o, l) := get_contexts h c in set_attr h' o (l ++ [x]).

(** Context.__exit__, utils.py:32-33: pop; [None] is the IndexError of popping
    an empty list (excluded by theorem). *)
Definition ctx_exit (h : heap) (c : cls) : option heap :=
  let '(h', o, l) := get_contexts h c in
  match l with
  | [] => None
  | _ => Some (set_attr h' o (removelast l))
  end.

(** How a piece of host code ends: normally or with an exception. *)
Inductive outcome := Normal | Raised (e : nat).

(** Exceptions that the library itself raises in this model. *)
Definition IndexErr := 0.

(** Observations passed to observe(): name -> value, [None] = not passed. *)
Definition observations := nat -> option nat.

(** Host programs. *)
Inductive prog :=
| Done (o : outcome)
  (** [with c() as x: body], then [k] with how the block ended; an uncaught
      exception is [k (Raised e) = Done (Raised e)], a caught one any other. *)
| With (c : cls) (x : ctx) (body : prog) (k : outcome -> prog)
  (** [c.get_context()]; [None] when it raises RuntimeError. *)
| GetContext (c : cls) (k : option ctx -> prog)
  (** [meta_bn.observe( ** obs )] for a model function with code [body];
      meta_bn is identified by the number [m]. *)
| Observe (m : nat) (obs : observations) (body : prog) (k : outcome -> prog)
  (** [zs.BayesianNet()], whose constructor captures the context. *)
| NewBN (k : prog).

(** What is visible from outside: answers of get_context, and for every network
    created, the observing model and observations it captured. *)
Inductive event :=
| EvContext (c : cls) (answer : option ctx)
| EvBN (captured : option (nat * observations)).

(** Interpreter state: class attributes, the attributes of the Local instances
    created so far (meta_bn.py:88-90: observations and meta_bn), the events in
    order. *)
Record st := St {
  s_heap : heap;
  s_locals : list (nat * observations);
  s_events : list event }.

(** [with] statement over a state transformer for the body: enter, run, exit
    (also on exception). An exit that fails raises IndexError. *)
Definition with_block (c : cls) (x : ctx) (run_body : st -> st * outcome)
  (s : st) : st * outcome :=
  let s1 := St (ctx_enter (s_heap s) c x) (s_locals s) (s_events s) in
  let '(s2, o) := run_body s1 in
  match ctx_exit (s_heap s2) c with
  | Some h => (St h (s_locals s2) (s_events s2), o)
  | None => (s2, Raised IndexErr)
  end.

(** _BayesianNet.__init__, bn.py:320-331: capture [Local.get_context()], or
    None on RuntimeError.  A Local instance is identified by its index in
    [s_locals]. *)
Definition new_bn (s : st) : st :=
  let '(h, a) := get_context (s_heap s) Local_cls in
  let captured := match a with
                  | Some i => nth_error (s_locals s) i
                  | None => None
                  end in
  St h (s_locals s) (s_events s ++ [EvBN captured]).

(** meta_bn.py:87-106: observe runs the model function inside
    [with Local() as local_cxt], having stored observations and meta_bn in the
    fresh Local instance.  Simplification: the variable_scope of lines 102-104
    and the template are modelled in ModelVar. *)
Definition observe (m : nat) (obs : observations)
  (run_body : st -> st * outcome) (s : st) : st * outcome :=
  let i := length (s_locals s) in
  with_block Local_cls i run_body
    (St (s_heap s) (s_locals s ++ [(m, obs)]) (s_events s)).

Fixpoint run (p : prog) (s : st) : st * outcome :=
  match p with
  | Done o => (s, o)
  | With c x body k =>
      let '(s', o) := with_block c x (run body) s in run (k o) s'
  | GetContext c k =>
      let '(h, a) := get_context (s_heap s) c in
      run (k a) (St h (s_locals s) (s_events s ++ [EvContext c a]))
  | Observe m obs body k =>
      let '(s', o) := observe m obs (run body) s in run (k o) s'
  | NewBN k => run k (new_bn s)
  end.
