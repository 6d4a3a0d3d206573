(** The life of a variational objective (zhusuan/variational/base.py:99-196,
    exclusive_kl.py, monte_carlo.py, inclusive_kl.py): an object with caches, whose
    properties and methods the program calls in any order, on the networks of ModelBN.v
    and the constructor of ModelObjective.v. *)
From Coq Require Import List Arith Bool.
From Verif Require Import ModelBN ModelDict ModelObjective.
Import ListNotations.

(** What is taken from outside.
    - [x_obs t]: a tensor (or a StochasticTensor, which converts to its tensor) passed as
      an observation;
    - [x_neg], [x_add]: unary minus and plus on tensors;
    - [x_mean]: tf.reduce_mean over the objective's axis when it has one;
      [x_log_mean_exp]: utils.py:177-196 over it;
    - [x_reinforce lj ent baseline mean]: the cost of exclusive_kl.py:194-226 for the
      log joint [lj] and entropy [ent], with the moving average kept in the variable of
      scope [mean] (None: no variance reduction); [x_baseline_cost] the second one;
    - [x_vimco lj ent], None when the size check raises; [x_weighted lj ent]: the sum of
      inclusive_kl.py:139-143;
    - [x_compatible]: dtype.is_compatible_with.
    What these compute is the subject of ModelVI.v. *)
Record ops (W : world) := Ops {
  x_obs : w_tensor W -> w_obs W;
  x_neg : w_val W -> w_val W;
  x_add : w_val W -> w_val W -> w_val W;
  x_mean : w_val W -> w_val W;
  x_log_mean_exp : w_val W -> w_val W;
  x_reinforce : w_val W -> w_val W -> option (w_val W) -> option nat -> w_val W;
  x_baseline_cost : w_val W -> w_val W -> w_val W -> w_val W;
  x_vimco : w_val W -> w_val W -> option (w_val W);
  x_weighted : w_val W -> w_val W -> w_val W;
  x_dtype : Type;
  x_compatible : x_dtype -> w_val W -> bool }.

(** Python exceptions seen by the caller. *)
Inductive error := Py (e : exn) | NotImplemented.

Section Life.
Context (W : world) (X : ops W).

(** A model function, run with one network: calls on it whose continuation depends on
    what they return (an OErr is an exception, which the code may catch or not).
    Simplification: it makes one network and returns it. *)
Inductive code := Return | Raise (e : exn) | Do (c : call W) (k : out W -> code).
Fixpoint exec (p : code) (b : bn W) : bn W * option exn :=
  match p with
  | Return => (b, None)
  | Raise e => (b, Some e)
  | Do c k => let '(b1, o) := step W b c in exec (k o) b1
  end.
(** The calls it makes. *)
Fixpoint trace (p : code) (b : bn W) : list (call W) :=
  match p with
  | Return | Raise _ => []
  | Do c k => let '(b1, o) := step W b c in c :: trace (k o) b1
  end.
Record model := Model {
  md_code : code;
  md_custom : custom W;
  md_observed : list (name * option (w_obs W)) }.

(** [meta_bn.observe( ** d)], meta_bn.py:87-106, when [k] sampling ops exist. *)
Definition dict_obs := list (name * option (w_obs W)).
Definition seen (d : dict_obs) (n : name) : option (w_obs W) :=
  match dict_get d n with Some o => o | None => None end.
Definition fresh (m : model) (d : dict_obs) (k : nat) : bn W :=
  new_bn W (Some (seen d)) (md_custom m) (md_observed m) k.
Definition observe (m : model) (d : dict_obs) (k : nat) : bn W * option exn :=
  exec (md_code m) (fresh m d k).

(** Argument [meta_bn], base.py:50-54: a MetaBayesianNet; a function of a dictionary (its
    result may differ from call to call, hence the number); something else that is
    neither callable nor true, such as None. *)
Inductive target :=
| TModel (m : model)
| TFun (f : dict_obs -> nat -> exn + w_val W)
| TNothing.

(** elbo, importance_weighted_objective and klpq; the flag: axis is not None. *)
Inductive kind := Elbo | Iw | Klpq (axis : bool).

Record obj := Obj {
  ob_kind : kind;
  ob_target : target;
  ob_inputs : list (name * vinput W);      (* _v_inputs *)
  ob_log_probs : list (name * w_val W);    (* _v_log_probs *)
  ob_observed : dict_obs;                  (* _observed: a copy, base.py:89 *)
  ob_bn : option (bn W);                   (* _bn *)
  ob_tensor : option (w_val W);            (* _tensor *)
  ob_log_joint : option (w_val W);         (* _log_joint_cache *)
  ob_entropy : option (option (w_val W)) }. (* _entropy_cache *)

(** The program around the object: the variational network, the caller's dictionary that
    was passed as [observed], the number of sampling ops, of networks built by the model,
    of completed calls of the log joint function, of all calls of it, and the scopes in
    which a variable 'moving_mean' exists. *)
Record state := State {
  s_obj : obj;
  s_vnet : option (bn W);
  s_caller : dict_obs;
  s_draws : nat;
  s_built : nat;
  s_done : nat;
  s_calls : nat;
  s_means : list nat }.

Definition with_obj (s : state) (o : obj) : state :=
  State o (s_vnet s) (s_caller s) (s_draws s) (s_built s) (s_done s) (s_calls s) (s_means s).
Definition with_bn (o : obj) (b : bn W) : obj :=
  Obj (ob_kind o) (ob_target o) (ob_inputs o) (ob_log_probs o) (ob_observed o) (Some b) (ob_tensor o) (ob_log_joint o) (ob_entropy o).
Definition with_tensor (o : obj) (v : w_val W) : obj :=
  Obj (ob_kind o) (ob_target o) (ob_inputs o) (ob_log_probs o) (ob_observed o) (ob_bn o) (Some v) (ob_log_joint o) (ob_entropy o).
Definition with_log_joint (o : obj) (v : w_val W) : obj :=
  Obj (ob_kind o) (ob_target o) (ob_inputs o) (ob_log_probs o) (ob_observed o) (ob_bn o) (ob_tensor o) (Some v) (ob_entropy o).
Definition with_entropy (o : obj) (v : option (w_val W)) : obj :=
  Obj (ob_kind o) (ob_target o) (ob_inputs o) (ob_log_probs o) (ob_observed o) (ob_bn o) (ob_tensor o) (ob_log_joint o) (Some v).

(** A call on a network when [k] sampling ops exist in the program. *)
Definition at_draws (b : bn W) (k : nat) : bn W :=
  BN W (b_local W b) (b_custom W b) (b_observed W b) (b_nodes W b) (b_objs W b) (b_cache W b) k.
Definition step_at (b : bn W) (k : nat) (c : call W) : bn W * out W := step W (at_draws b k) c.

(** A latent input as an observation of the model: a StochasticTensor of the variational
    network stands for its tensor. *)
Definition input_obs (s : state) (x : vinput W) : option (w_obs W) :=
  match x with
  | VTensor _ t => Some (x_obs W X t)
  | VNode _ i =>
      match s_vnet s with
      | Some b => match read_tensor W (at_draws b (s_draws s)) i with
                  | (_, inr t) => Some (x_obs W X t)
                  | (_, inl _) => None
                  end
      | None => None
      end
  end.
(** merge_dicts(self._v_inputs, self._observed), base.py:134, 174. *)
Definition merged (s : state) : dict_obs :=
  variational_obs (map (fun p => (fst p, input_obs s (snd p))) (ob_inputs (s_obj s))) (ob_observed (s_obj s)).

(** Property bn, base.py:117-139, for a MetaBayesianNet [m]: the network is made on the
    first use. (The check of line 135 never raises: C38_validation_refuted.) *)
Definition get_bn (m : model) (s : state) : state * (exn + bn W) :=
  match ob_bn (s_obj s) with
  | Some b => (s, inr b)
  | None =>
      let '(b, e) := observe m (merged s) (s_draws s) in
      match e with
      | Some e => (State (s_obj s) (s_vnet s) (s_caller s) (b_draws W b) (s_built s) (s_done s) (s_calls s) (s_means s), inl e)
      | None => (State (with_bn (s_obj s) b) (s_vnet s) (s_caller s) (b_draws W b) (S (s_built s)) (s_done s) (s_calls s) (s_means s), inr b)
      end
  end.

(** _log_joint_term, base.py:169-175. *)
Definition log_joint_term (s : state) : state * (exn + w_val W) :=
  match ob_target (s_obj s) with
  | TModel m =>
      match get_bn m s with
      | (s1, inl e) => (s1, inl e)
      | (s1, inr b) =>
          let '(b', o) := log_joint W (at_draws b (s_draws s1)) in
          let s2 := State (with_bn (s_obj s1) b') (s_vnet s1) (s_caller s1) (b_draws W b') (s_built s1) (s_done s1) (s_calls s1) (s_means s1) in
          match o with
          | OVal _ v => (s2, inr v)
          | OErr _ e => (s2, inl e)
          | _ => (s2, inl TypeError)
          end
      end
  | TFun f =>
      match ob_log_joint (s_obj s) with
      | Some v => (s, inr v)
      | None =>
          match f (merged s) (s_calls s) with
          | inl e => (State (s_obj s) (s_vnet s) (s_caller s) (s_draws s) (s_built s) (s_done s) (S (s_calls s)) (s_means s), inl e)
          | inr v => (State (with_log_joint (s_obj s) v) (s_vnet s) (s_caller s) (s_draws s) (s_built s) (S (s_done s)) (S (s_calls s)) (s_means s), inr v)
          end
      end
  | TNothing => (s, inl AttributeError)           (* no attribute _log_joint *)
  end.

(** _entropy_term, base.py:177-183. *)
Definition entropy_term (s : state) : state * option (w_val W) :=
  match ob_entropy (s_obj s) with
  | Some e => (s, e)
  | None =>
      let e := entropy W (x_neg W X) (Objective W (ob_inputs (s_obj s)) (ob_log_probs (s_obj s))) in
      (with_obj s (with_entropy (s_obj s) e), e)
  end.

(** [self._log_joint_term()] and then [self._entropy_term()], which must not be None when
    it is added to the former. *)
Definition both (s : state) : state * (error + w_val W * option (w_val W)) :=
  match log_joint_term s with
  | (s1, inl e) => (s1, inl (Py e))
  | (s1, inr lj) => let '(s2, ent) := entropy_term s1 in (s2, inr (lj, ent))
  end.

(** _objective of the three classes, exclusive_kl.py:131-137, monte_carlo.py:137-141,
    inclusive_kl.py:99-102. *)
Definition objective_ (s : state) : state * (error + w_val W) :=
  match ob_kind (s_obj s) with
  | Elbo =>
      match both s with
      | (s1, inl e) => (s1, inl e)
      | (s1, inr (lj, Some e)) => (s1, inr (x_mean W X (x_add W X lj e)))
      | (s1, inr (lj, None)) => (s1, inr (x_mean W X lj))
      end
  | Iw =>
      match both s with
      | (s1, inl e) => (s1, inl e)
      | (s1, inr (lj, Some e)) => (s1, inr (x_log_mean_exp W X (x_add W X lj e)))
      | (s1, inr (lj, None)) => (s1, inl (Py TypeError))
      end
  | Klpq _ => (s, inl NotImplemented)
  end.

(** Property tensor, base.py:149-156. *)
Definition tensor_ (s : state) : state * (error + w_val W) :=
  match ob_tensor (s_obj s) with
  | Some v => (s, inr v)
  | None =>
      match objective_ s with
      | (s1, inl e) => (s1, inl e)
      | (s1, inr v) => (with_obj s1 (with_tensor (s_obj s1) v), inr v)
      end
  end.

(** What the program may do. *)
Inductive access :=
| ReadBn                                          (* obj.bn *)
| ReadObjective                                   (* obj.tensor, session.run(obj) *)
| Convert (dtype : option (x_dtype W X)) (as_ref : bool)  (* tf.convert_to_tensor, arithmetic *)
| Sgvb
  (** reinforce(variance_reduction, baseline), in variable scope [scope] whose reuse
      flag is [reuse] *)
| Reinforce (variance_reduction : bool) (baseline : option (w_val W)) (scope : nat) (reuse : bool)
| Vimco
| Importance                                      (* importance(), rws() *)
| OnBn (c : call W)                               (* a call on obj.bn *)
| OnVariational (c : call W)                      (* a call on the variational network *)
| Mutate (n : name) (o : option (w_obs W)).       (* observed[n] = o in the caller's dictionary *)

Inductive result :=
| RNone
| RBn
| RVal (v : w_val W)
| RPair (v w : w_val W)
| ROut (o : out W)
| RErr (e : error).
Definition of_sum (r : error + w_val W) : result := match r with inl e => RErr e | inr v => RVal v end.

(** tf.get_variable('moving_mean') of exclusive_kl.py:207-210. *)
Definition get_mean (scope : nat) (reuse : bool) (means : list nat) : option (list nat) :=
  if existsb (Nat.eqb scope) means then (if reuse then Some means else None)
  else (if reuse then None else Some (scope :: means)).

Definition act (a : access) (s : state) : state * result :=
  match a with
  | ReadBn =>
      match ob_target (s_obj s) with
      | TModel m => match get_bn m s with
                    | (s1, inl e) => (s1, RErr (Py e))
                    | (s1, inr _) => (s1, RBn)
                    end
      | _ => (s, RNone)
      end
  | ReadObjective => let '(s1, r) := tensor_ s in (s1, of_sum r)
  | Convert dtype as_ref =>                        (* _to_tensor, base.py:158-167 *)
      match tensor_ s with
      | (s1, inl e) => (s1, RErr e)
      | (s1, inr v) =>
          if match dtype with Some d => negb (x_compatible W X d v) | None => false end
          then (s1, RErr (Py ValueError))
          else if as_ref then (s1, RErr (Py ValueError)) else (s1, RVal v)
      end
  | Sgvb =>                                        (* exclusive_kl.py:159, monte_carlo.py:164 *)
      match ob_kind (s_obj s) with
      | Klpq _ => (s, RErr (Py AttributeError))
      | _ => match tensor_ s with
             | (s1, inl e) => (s1, RErr e)
             | (s1, inr v) => (s1, RVal (x_neg W X v))
             end
      end
  | Reinforce vr baseline scope reuse =>           (* exclusive_kl.py:194-231 *)
      match ob_kind (s_obj s) with
      | Elbo =>
          match both s with
          | (s1, inl e) => (s1, RErr e)
          | (s1, inr (lj, None)) => (s1, RErr (Py TypeError))
          | (s1, inr (lj, Some e)) =>
              if vr then
                match get_mean scope reuse (s_means s1) with
                | None => (s1, RErr (Py ValueError))
                | Some means =>
                    let s2 := State (s_obj s1) (s_vnet s1) (s_caller s1) (s_draws s1) (s_built s1) (s_done s1) (s_calls s1) means in
                    match baseline with
                    | Some bl => (s2, RPair (x_reinforce W X lj e baseline (Some scope)) (x_baseline_cost W X lj e bl))
                    | None => (s2, RVal (x_reinforce W X lj e baseline (Some scope)))
                    end
                end
              else (s1, RVal (x_reinforce W X lj e None None))
          end
      | _ => (s, RErr (Py AttributeError))
      end
  | Vimco =>                                       (* monte_carlo.py:182-227 *)
      match ob_kind (s_obj s) with
      | Iw =>
          match both s with
          | (s1, inl e) => (s1, RErr e)
          | (s1, inr (lj, None)) => (s1, RErr (Py TypeError))
          | (s1, inr (lj, Some e)) =>
              match x_vimco W X lj e with
              | Some v => (s1, RVal v)
              | None => (s1, RErr (Py ValueError))
              end
          end
      | _ => (s, RErr (Py AttributeError))
      end
  | Importance =>                                  (* inclusive_kl.py:136-150 *)
      match ob_kind (s_obj s) with
      | Klpq axis =>
          match both s with
          | (s1, inl e) => (s1, RErr e)
          | (s1, inr (lj, None)) => (s1, RErr (Py TypeError))
          | (s1, inr (lj, Some e)) => (s1, RVal (if axis then x_weighted W X lj e else e))
          end
      | _ => (s, RErr (Py AttributeError))
      end
  | OnBn c =>
      match ob_target (s_obj s) with
      | TModel m =>
          match get_bn m s with
          | (s1, inl e) => (s1, RErr (Py e))
          | (s1, inr b) =>
              let '(b', o) := step_at b (s_draws s1) c in
              (State (with_bn (s_obj s1) b') (s_vnet s1) (s_caller s1) (b_draws W b') (s_built s1) (s_done s1) (s_calls s1) (s_means s1), ROut o)
          end
      | _ => (s, RErr (Py AttributeError))         (* bn is None *)
      end
  | OnVariational c =>
      match s_vnet s with
      | Some b =>
          let '(b', o) := step_at b (s_draws s) c in
          (State (s_obj s) (Some b') (s_caller s) (b_draws W b') (s_built s) (s_done s) (s_calls s) (s_means s), ROut o)
      | None => (s, RErr (Py AttributeError))
      end
  | Mutate n o =>
      (State (s_obj s) (s_vnet s) (dict_set (s_caller s) n o) (s_draws s) (s_built s) (s_done s) (s_calls s) (s_means s), RNone)
  end.

Fixpoint acts (h : list access) (s : state) : state * list result :=
  match h with
  | [] => (s, [])
  | a :: h' => let '(s1, r) := act a s in let '(s2, rs) := acts h' s1 in (s2, r :: rs)
  end.

(** The constructors elbo(...), importance_weighted_objective(...) and klpq(...),
    base.py:49-89 (ModelObjective.construct), when the program has made [k] sampling ops.
    importance_weighted_objective first rejects axis=None (monte_carlo.py:126-129). *)
Definition create (kd : kind) (axis_given : bool) (t : target) (observed : dict_obs)
  (latent : option (list (name * (w_tensor W * w_val W)))) (variational : option (variational_arg W)) (k : nat)
  : exn + state :=
  match kd, axis_given with
  | Iw, false => inl ValueError
  | _, _ =>
      match construct W latent variational with
      | (_, inl e) => inl e
      | (b', inr o) =>
          let draws := match b' with Some b => b_draws W b | None => k end in
          inr (State (Obj kd t (o_inputs W o) (o_log_probs W o) observed None None None None)
                     b' observed draws 0 0 0 [])
      end
  end.
End Life.
