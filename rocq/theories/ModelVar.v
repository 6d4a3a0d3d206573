(** Model of variable creation and reuse through MetaBayesianNet
    (zhusuan/framework/meta_bn.py:54-106) and [reuse_variables]
    (zhusuan/framework/utils.py:88-106), with the TensorFlow machinery both rest on:
    tf.make_template, tf.variable_scope and tf.get_variable of TensorFlow 1.13 and
    later 1.x (python/ops/template.py, python/ops/variable_scope.py).

    Python code is a [prog]: a tree whose nodes are the calls below and whose
    continuations are arbitrary functions of the results. The code that a model
    function runs for given observations is the [body] of an [Observe] node, so "for
    every [prog]" covers every model function and every choice of observations. *)
From Coq Require Import List Arith Bool.
Import ListNotations.

(** A path component such as "dense" or "dense_1": a base name with no numeric ending,
    and the numeric endings that were appended. Simplification: scope names given to
    the library have one component (no "/"). *)
Definition seg := (nat * list nat)%type.
Definition path := list seg.
Definition seg_eq_dec (a b : seg) : {a = b} + {a <> b}.
Proof. decide equality; [apply (list_eq_dec Nat.eq_dec)|apply Nat.eq_dec]. Defined.
Definition path_eq_dec : forall a b : path, {a = b} + {a <> b} := list_eq_dec seg_eq_dec.
Definition mem (p : path) (l : list path) : bool := if in_dec path_eq_dec p l then true else false.

(** MetaBayesianNet attributes: [_scope], [_reuse_variables], whether [_args] and
    [_kwargs] are both other than their default None (meta_bn.py:54-67), and of the
    template in [_f] when there is one (template.py): the variable scope object it
    keeps (its path and its own reuse flag; None before the first call) and whether the
    template counts as called. *)
Record model := Model {
  m_scope : option seg;
  m_reuse : bool;
  m_args : bool;
  m_vs : option (path * bool);
  m_called : bool }.

(** What is observed of a run. A site is an observe() call: its model and its number.
    [Began] records the variable scope observe() was called from and its reuse flag.
    [Got] is an answer of tf.get_variable: the innermost active observe() call ([None]
    outside any), the name relative to the scope that call opened, the variable, and
    whether it was created. [Made] is a tf.Variable. *)
Definition site := option (nat * nat).
Inductive event :=
| Began (m c : nat) (outer : path) (reusing : bool)
| Got (w : site) (name : path) (v : nat) (created : bool)
| Made (v : nat)
| Ended (m c : nat) (ok : bool).

Record st := St {
  s_vars : list (path * nat);     (* _VariableStore._vars *)
  s_next : nat;                   (* number of variables created *)
  s_open : list path;             (* scope names with a non-zero variable_scopes_count *)
  s_cur : path;                   (* the current variable scope: its name *)
  s_reuse : bool;                 (* and its reuse flag *)
  s_models : list model;
  s_site : site;
  s_rel : path;                   (* scopes entered since the innermost observe() call *)
  s_calls : nat;
  s_log : list event }.

Inductive outcome := Fine | Failed.

Inductive prog :=
| Done (o : outcome)
  (** tf.get_variable(n); a ValueError ends the program (see [Try]) *)
| GetVar (n : seg) (k : nat -> prog)
  (** tf.Variable(...) *)
| NewVar (k : nat -> prog)
  (** with tf.variable_scope(n): body *)
| InScope (n : seg) (body : prog) (k : prog)
  (** with tf.variable_scope(None, default_name=n): body; what tf.layers.* do *)
| InUnique (n : seg) (body : prog) (k : prog)
  (** with tf.variable_scope(tf.get_variable_scope(), reuse=True): body *)
| InReuse (body : prog) (k : prog)
  (** try: body except: ... *)
| Try (body : prog) (k : outcome -> prog)
  (** MetaBayesianNet(f, args, kwargs, scope, reuse), with [args] telling whether args and
      kwargs are both given (as meta_bayesian_net always does, meta_bn.py:142-146); the
      result None is the ValueError *)
| NewModel (args : bool) (scope : option seg) (reuse : bool) (k : option nat -> prog)
  (** meta_bn.observe( ** obs ), when the model function runs [body] for them *)
| Observe (m : nat) (body : prog) (k : prog).

Fixpoint lookup (d : list (path * nat)) (p : path) : option nat :=
  match d with
  | [] => None
  | (q, v) :: d' => if path_eq_dec p q then Some v else lookup d' p
  end.
Fixpoint set_nth {A} (l : list A) (i : nat) (a : A) : list A :=
  match l, i with
  | [], _ => []
  | _ :: l', 0 => a :: l'
  | x :: l', S i' => x :: set_nth l' i' a
  end.

(** _get_unique_variable_scope: the name itself if unused, else the first free of
    name_1, name_2, ... *)
Definition suffixed (n : seg) (i : nat) : seg :=
  match i with 0 => n | S _ => (fst n, snd n ++ [i]) end.
Fixpoint first_free (fuel i : nat) (opened : list path) (cur : path) (n : seg) : seg :=
  match fuel with
  | 0 => suffixed n i
  | S f => if mem (cur ++ [suffixed n i]) opened then first_free f (S i) opened cur n else suffixed n i
  end.
Definition unique (opened : list path) (cur : path) (n : seg) : seg :=
  first_free (length opened) 0 opened cur n.

(** close_variable_subscopes *)
Fixpoint extends (p q : path) : bool :=
  match p, q with
  | [], _ :: _ => true
  | a :: p', b :: q' => if seg_eq_dec a b then extends p' q' else false
  | _, _ => false
  end.
Definition close_subscopes (p : path) (l : list path) : list path := filter (fun q => negb (extends p q)) l.

(** tf.get_variable in the current scope (_VariableStore._get_single_variable): an
    existing variable when reusing, a new one otherwise, ValueError when there is none
    to reuse or one already. Simplification: shapes and dtypes agree; reuse is not
    tf.AUTO_REUSE. *)
Definition get_variable (n : seg) (s : st) : st * option nat :=
  let p := s_cur s ++ [n] in
  let name := s_rel s ++ [n] in
  match lookup (s_vars s) p, s_reuse s with
  | Some v, true => (St (s_vars s) (s_next s) (s_open s) (s_cur s) (s_reuse s) (s_models s) (s_site s) (s_rel s) (s_calls s)
                        (s_log s ++ [Got (s_site s) name v false]), Some v)
  | None, false => (St ((p, s_next s) :: s_vars s) (S (s_next s)) (s_open s) (s_cur s) (s_reuse s) (s_models s) (s_site s) (s_rel s) (s_calls s)
                       (s_log s ++ [Got (s_site s) name (s_next s) true]), Some (s_next s))
  | _, _ => (s, None)
  end.

(** Entering and leaving a variable scope ( _pure_variable_scope ): by name, a name
    below the current scope; by object, the scope's own name, whatever is current. On
    leaving by object the counts are put back as they were. *)
Definition in_scope (by_object : bool) (p : path) (reuse : bool) (rel : path) (w : site)
    (body : st -> st * outcome) (s : st) : st * outcome :=
  let opened := p :: s_open s in
  let '(s', o) := body (St (s_vars s) (s_next s) opened p reuse (s_models s) w rel (s_calls s) (s_log s)) in
  (St (s_vars s') (s_next s') (if by_object then opened else close_subscopes p (s_open s'))
      (s_cur s) (s_reuse s) (s_models s') (s_site s) (s_rel s) (s_calls s') (s_log s'), o).

(** MetaBayesianNet.__init__, meta_bn.py:54-67. *)
Definition new_model (args : bool) (scope : option seg) (reuse : bool) : option model :=
  match scope, reuse with
  | Some n, true => Some (Model (Some n) true args None false)     (* tf.make_template(scope, f) *)
  | None, true => None                                        (* ValueError *)
  | _, false => Some (Model scope false args None false)
  end.

Definition set_model (m : nat) (f : model -> model) (s : st) : st :=
  match nth_error (s_models s) m with
  | Some x => St (s_vars s) (s_next s) (s_open s) (s_cur s) (s_reuse s) (set_nth (s_models s) m (f x)) (s_site s) (s_rel s) (s_calls s) (s_log s)
  | None => s
  end.
Definition keep_scope (p : path) (reuse : bool) (x : model) : model := Model (m_scope x) (m_reuse x) (m_args x) (Some (p, reuse)) (m_called x).
Definition mark_called (x : model) : model := Model (m_scope x) (m_reuse x) (m_args x) (m_vs x) true.

(** Template._call_func: after an earlier call, a tf.Variable made by this one is a
    ValueError. [eager] tells the two versions of the code apart: in some releases a
    template counts as called once a call started, in others once one completed.
    Simplification: every tf.Variable is trainable. *)
Section Template.
Variable eager : bool.

Definition call_func (m : nat) (was_called : bool) (body : st -> st * outcome) (s : st) : st * outcome :=
  let s0 := if eager then set_model m mark_called s else s in
  let '(s', o) := body s0 in
  match o with
  | Failed => (s', Failed)
  | Fine => if was_called then (s', if Nat.eqb (s_next s') (s_next s0) then Fine else Failed)
            else (set_model m mark_called s', Fine)
  end.

(** Template.__call__ *)
Definition template_call (m : nat) (x : model) (n : seg) (w : site) (body : st -> st * outcome) (s : st) : st * outcome :=
  match m_vs x with
  | Some (p, r) => in_scope true p (r || m_called x) [] w (call_func m (m_called x) body) s
  | None =>
      let p := s_cur s ++ [unique (s_open s) (s_cur s) n] in
      in_scope false p (s_reuse s) [] w
        (fun s1 => call_func m (m_called x) body (set_model m (keep_scope p (s_reuse s)) s1)) s
  end.

(** MetaBayesianNet.observe, meta_bn.py:87-106: a template call, a call inside
    tf.variable_scope(scope), or a plain call; func( *None, **None ) is a TypeError
    raised before [func] is called. The Local context is modelled in ModelContext. *)
Definition call (m : nat) (x : model) (w : site) (body : st -> st * outcome) (s : st) : st * outcome :=
  match m_scope x, m_reuse x with
  | Some n, true => if m_args x then template_call m x n w body s else (s, Failed)
  | Some n, false => in_scope false (s_cur s ++ [n]) (s_reuse s) [] w (if m_args x then body else fun s => (s, Failed)) s
  | None, _ =>
      if m_args x then
        let '(s', o) := body (St (s_vars s) (s_next s) (s_open s) (s_cur s) (s_reuse s) (s_models s) w [] (s_calls s) (s_log s)) in
        (St (s_vars s') (s_next s') (s_open s') (s_cur s') (s_reuse s') (s_models s') (s_site s) (s_rel s) (s_calls s') (s_log s'), o)
      else (s, Failed)
  end.
Definition note (e : event) (s : st) : st :=
  St (s_vars s) (s_next s) (s_open s) (s_cur s) (s_reuse s) (s_models s) (s_site s) (s_rel s) (s_calls s) (s_log s ++ [e]).
Definition fine (o : outcome) : bool := match o with Fine => true | Failed => false end.
Definition observe (m : nat) (body : st -> st * outcome) (s : st) : st * outcome :=
  match nth_error (s_models s) m with
  | None => (s, Failed)
  | Some x =>
      let c := s_calls s in
      let s1 := St (s_vars s) (s_next s) (s_open s) (s_cur s) (s_reuse s) (s_models s) (s_site s) (s_rel s) (S c) (s_log s) in
      let '(s', o) := call m x (Some (m, c)) body (note (Began m c (s_cur s) (s_reuse s)) s1) in
      (note (Ended m c (fine o)) s', o)
  end.

Definition andthen (r : st * outcome) (k : st -> st * outcome) : st * outcome :=
  match r with
  | (s', Fine) => k s'
  | (s', Failed) => (s', Failed)
  end.

Fixpoint run (p : prog) (s : st) : st * outcome :=
  match p with
  | Done o => (s, o)
  | GetVar n k => match get_variable n s with
                  | (s', Some v) => run (k v) s'
                  | (s', None) => (s', Failed)
                  end
  | NewVar k => run (k (s_next s))
                  (note (Made (s_next s))
                    (St (s_vars s) (S (s_next s)) (s_open s) (s_cur s) (s_reuse s) (s_models s) (s_site s) (s_rel s) (s_calls s) (s_log s)))
  | InScope n body k =>
      andthen (in_scope false (s_cur s ++ [n]) (s_reuse s) (s_rel s ++ [n]) (s_site s) (run body) s) (run k)
  | InUnique n body k =>
      let u := unique (s_open s) (s_cur s) n in
      andthen (in_scope false (s_cur s ++ [u]) (s_reuse s) (s_rel s ++ [u]) (s_site s) (run body) s) (run k)
  | InReuse body k =>
      andthen (in_scope true (s_cur s) true (s_rel s) (s_site s) (run body) s) (run k)
  | Try body k => let '(s', o) := run body s in run (k o) s'
  | NewModel args scope reuse k =>
      match new_model args scope reuse with
      | Some x => run (k (Some (length (s_models s))))
                      (St (s_vars s) (s_next s) (s_open s) (s_cur s) (s_reuse s) (s_models s ++ [x]) (s_site s) (s_rel s) (s_calls s) (s_log s))
      | None => run (k None) s
      end
  | Observe m body k => andthen (observe m (run body) s) (run k)
  end.
End Template.

Definition start : st := St [] 0 [] [] false [] None [] 0 [].
