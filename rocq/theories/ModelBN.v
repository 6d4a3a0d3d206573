(** Model of BayesianNet and StochasticTensor (zhusuan/framework/bn.py).

    A network is a state machine: every public call is a transition
    [bn -> bn * out].  Stochastic node objects live in [b_objs] and are referred
    to by index (Python object identity), so that a handle kept by the user
    stays meaningful when the name is rebound. Node names are numbers. *)
From Coq Require Import List Arith Bool.
Import ListNotations.

Definition name := nat.

(** Everything taken from outside bn.py: distributions, tensors, user-supplied
    observations, log-probability tensors.
    - [w_sample d n k]: the tensor built by the k-th sampling op of the program,
      by [d.sample(n_samples=n)];
    - [w_log_prob]: [d.log_prob(t)];
    - [w_convert d o]: bn.py:96-115 [_check_observation]: the observation
      converted to a tensor, [None] when the dtype or static shape check raises
      ValueError;
    - [w_zero], [w_add]: the [0] and [+] of Python's [sum].
    Simplification: sample and log_prob themselves do not raise. *)
Record world := World {
  w_dist : Type; w_tensor : Type; w_obs : Type; w_val : Type;
  w_sample : w_dist -> option nat -> nat -> w_tensor;
  w_log_prob : w_dist -> w_tensor -> w_val;
  w_convert : w_dist -> w_obs -> option w_tensor;
  w_zero : w_val;
  w_add : w_val -> w_val -> w_val }.

Inductive exn := ValueError | TypeError | AttributeError.

Section BN.
Context (W : world).

(** StochasticTensor attributes, bn.py:84-94, 171-175, 202-204.
    [sn_obs] is None until/unless observed; [sn_ready] is false for an object
    whose __init__ raised after it was already stored in the network (only
    possible on the deprecated path, bn.py:78-82). *)
Record snode := SNode {
  sn_dist : w_dist W;
  sn_n_samples : option nat;
  sn_obs : option (w_tensor W);
  sn_samples : option (w_tensor W);
  sn_cond_log_p : option (w_val W);
  sn_ready : bool }.

(** Values of the [nodes] dictionary: a StochasticTensor or a plain Tensor. *)
Inductive noderef := RStoch (i : nat) | RDet (t : w_tensor W).

(** meta_bn.log_joint, meta_bn.py:69-85: None, a function of the network, or
    something not callable.  Simplification: a custom function is one that
    queries the conditional log-probabilities of given names and combines them
    (the documented use, docs/tutorials/concepts.rst). *)
Inductive custom :=
| CNone
| CFun (names : list name) (f : list (w_val W) -> w_val W)
| CNotCallable.

Record bn := BN {
  (** observations of the captured Local context, bn.py:342-346; None = created
      outside observe(); a missing key and a None value are not distinguished,
      as in [dict.get(name, None)] *)
  b_local : option (name -> option (w_obs W));
  (** log_joint of the captured meta_bn; CNone also when there is no meta_bn *)
  b_custom : custom;
  (** constructor argument [observed], bn.py:551-554 (values may be None) *)
  b_observed : list (name * option (w_obs W));
  b_nodes : list (name * noderef);
  b_objs : list snode;
  b_cache : option (w_val W);
  (** number of sampling ops created so far *)
  b_draws : nat }.

Inductive out :=
| OUnit
| ORef (r : noderef) | ORefs (l : list noderef)
| OTensor (t : w_tensor W) | OTensors (l : list (w_tensor W))
| OVal (v : w_val W) | OVals (l : list (w_val W))
| OErr (e : exn).

(** Python dict operations on association lists (insertion ordered). *)
Fixpoint dict_get {A} (d : list (name * A)) (n : name) : option A :=
  match d with
  | [] => None
  | (n', a) :: d' => if Nat.eqb n n' then Some a else dict_get d' n
  end.
Fixpoint dict_set {A} (d : list (name * A)) (n : name) (a : A) : list (name * A) :=
  match d with
  | [] => [(n, a)]
  | (n', a') :: d' => if Nat.eqb n n' then (n', a) :: d'
                      else (n', a') :: dict_set d' n a
  end.

Definition set_nodes b l := BN (b_local b) (b_custom b) (b_observed b) l
  (b_objs b) (b_cache b) (b_draws b).
Definition set_objs b l := BN (b_local b) (b_custom b) (b_observed b) (b_nodes b)
  l (b_cache b) (b_draws b).
Definition set_cache b c := BN (b_local b) (b_custom b) (b_observed b) (b_nodes b)
  (b_objs b) c (b_draws b).
Definition set_custom b c := BN (b_local b) c (b_observed b) (b_nodes b)
  (b_objs b) (b_cache b) (b_draws b).
Definition incr_draws b := BN (b_local b) (b_custom b) (b_observed b) (b_nodes b)
  (b_objs b) (b_cache b) (S (b_draws b)).

Fixpoint upd {A} (l : list A) (i : nat) (a : A) : list A :=
  match l, i with
  | [], _ => []
  | _ :: l', 0 => a :: l'
  | x :: l', S i' => x :: upd l' i' a
  end.

(** StochasticTensor.__init__, bn.py:86-93: which observation the node gets.
    [inl e] = raises [e]; [inr None] = not observed. *)
Definition init_observation (b : bn) (n : name) (d : w_dist W)
  (observation : option (w_obs W)) : exn + option (w_tensor W) :=
  match observation with
  | Some o => match w_convert W d o with
              | Some t => inr (Some t) | None => inl ValueError end
  | None =>
      match dict_get (b_observed b) n with
      | Some (Some o) => match w_convert W d o with
                         | Some t => inr (Some t) | None => inl ValueError end
      | Some None => inl ValueError   (* tf.convert_to_tensor(None) *)
      | None => inr None
      end
  end.

(** _BayesianNet._get_observation, bn.py:342-346. *)
Definition get_observation (b : bn) (n : name) : option (w_obs W) :=
  match b_local b with Some obs => obs n | None => None end.

(** _BayesianNet.stochastic, bn.py:348-371. *)
Definition stochastic (b : bn) (n : name) (d : w_dist W) (ns : option nat)
  : bn * out :=
  match dict_get (b_nodes b) n with
  | Some _ => (b, OErr ValueError)
  | None =>
      let b1 := set_cache b None in
      match init_observation b1 n d (get_observation b1 n) with
      | inl e => (b1, OErr e)
      | inr ob =>
          let i := length (b_objs b1) in
          let b2 := set_objs b1 (b_objs b1 ++ [SNode d ns ob None None true]) in
          (set_nodes b2 (dict_set (b_nodes b2) n (RStoch i)), ORef (RStoch i))
      end
  end.

(** Deprecated construction inside [with bn:], bn.py:69-94 with [bn=None]:
    stores the object first, no uniqueness check, no cache invalidation. *)
Definition legacy (b : bn) (n : name) (d : w_dist W) (ns : option nat)
  (observation : option (w_obs W)) : bn * out :=
  let i := length (b_objs b) in
  let b1 := set_nodes b (dict_set (b_nodes b) n (RStoch i)) in
  match init_observation b1 n d observation with
  | inl e => (set_objs b1 (b_objs b1 ++ [SNode d ns None None None false]), OErr e)
  | inr ob => (set_objs b1 (b_objs b1 ++ [SNode d ns ob None None true]),
               ORef (RStoch i))
  end.

(** _BayesianNet.deterministic, bn.py:373-385. *)
Definition deterministic (b : bn) (n : name) (t : w_tensor W) : bn * out :=
  (set_nodes b (dict_set (b_nodes b) n (RDet t)), OTensor t).

(** StochasticTensor.tensor, bn.py:163-175 (a half-initialised object has no
    [_observation]: AttributeError). *)
Definition read_tensor (b : bn) (i : nat) : bn * (exn + w_tensor W) :=
  match nth_error (b_objs b) i with
  | None => (b, inl AttributeError)
  | Some nd =>
      if sn_ready nd then
        match sn_obs nd with
        | Some t => (b, inr t)
        | None =>
            match sn_samples nd with
            | Some t => (b, inr t)
            | None =>
                let t := w_sample W (sn_dist nd) (sn_n_samples nd) (b_draws b) in
                let nd' := SNode (sn_dist nd) (sn_n_samples nd) (sn_obs nd)
                                 (Some t) (sn_cond_log_p nd) (sn_ready nd) in
                (incr_draws (set_objs b (upd (b_objs b) i nd')), inr t)
            end
        end
      else (b, inl AttributeError)
  end.

(** StochasticTensor.cond_log_p, bn.py:194-204. *)
Definition cond_log_p (b : bn) (i : nat) : bn * (exn + w_val W) :=
  match nth_error (b_objs b) i with
  | None => (b, inl AttributeError)
  | Some nd =>
      match sn_cond_log_p nd with
      | Some v => (b, inr v)
      | None =>
          match read_tensor b i with
          | (b1, inl e) => (b1, inl e)
          | (b1, inr t) =>
              let v := w_log_prob W (sn_dist nd) t in
              match nth_error (b_objs b1) i with
              | None => (b1, inl AttributeError)
              | Some nd1 =>
                  let nd2 := SNode (sn_dist nd1) (sn_n_samples nd1) (sn_obs nd1)
                                   (sn_samples nd1) (Some v) (sn_ready nd1) in
                  (set_objs b1 (upd (b_objs b1) i nd2), inr v)
              end
          end
      end
  end.

(** Threading a state through a list of calls, stopping at the first error
    (Python list comprehensions and generators over nodes). *)
Fixpoint map_state {A B} (f : bn -> A -> bn * (exn + B)) (b : bn) (l : list A)
  : bn * (exn + list B) :=
  match l with
  | [] => (b, inr [])
  | a :: l' =>
      match f b a with
      | (b1, inl e) => (b1, inl e)
      | (b1, inr x) =>
          match map_state f b1 l' with
          | (b2, inl e) => (b2, inl e)
          | (b2, inr xs) => (b2, inr (x :: xs))
          end
      end
  end.

(** name_or_names argument: one name or a sequence. *)
Inductive query := QOne (n : name) | QMany (l : list name).
Definition query_names (q : query) : list name :=
  match q with QOne n => [n] | QMany l => l end.

(** _check_name_exist / _check_names_exist, bn.py:387-420; [None] = fine.
    Simplification: names are always of the right type. *)
Definition check_name (b : bn) (only_stochastic : bool) (n : name) : option exn :=
  match dict_get (b_nodes b) n with
  | None => Some ValueError
  | Some (RDet _) => if only_stochastic then Some ValueError else None
  | Some (RStoch _) => None
  end.
Fixpoint check_names (b : bn) (only_stochastic : bool) (l : list name) : option exn :=
  match l with
  | [] => None
  | n :: l' => match check_name b only_stochastic n with
               | Some e => Some e
               | None => check_names b only_stochastic l'
               end
  end.

(** [self._nodes[name]] after a successful check. *)
Definition node_at (b : bn) (n : name) : exn + noderef :=
  match dict_get (b_nodes b) n with Some r => inr r | None => inl ValueError end.

(** _BayesianNet.get, bn.py:422-435 (and __getitem__, 480-482, for QOne). *)
Definition get (b : bn) (q : query) : bn * out :=
  match check_names b false (query_names q) with
  | Some e => (b, OErr e)
  | None =>
      match map_state (fun b n => (b, node_at b n)) b (query_names q) with
      | (b1, inl e) => (b1, OErr e)
      | (b1, inr l) => match q, l with
                       | QOne _, [r] => (b1, ORef r)
                       | _, _ => (b1, ORefs l)
                       end
      end
  end.

(** [self._nodes[name].cond_log_p] *)
Definition node_cond_log_p (b : bn) (n : name) : bn * (exn + w_val W) :=
  match dict_get (b_nodes b) n with
  | Some (RStoch i) => cond_log_p b i
  | Some (RDet _) => (b, inl AttributeError)
  | None => (b, inl ValueError)
  end.

(** _BayesianNet.cond_log_prob, bn.py:437-452 (local_log_prob, 1216-1226, is
    the same call). *)
Definition cond_log_prob (b : bn) (q : query) : bn * out :=
  match check_names b true (query_names q) with
  | Some e => (b, OErr e)
  | None =>
      match map_state node_cond_log_p b (query_names q) with
      | (b1, inl e) => (b1, OErr e)
      | (b1, inr l) => match q, l with
                       | QOne _, [v] => (b1, OVal v)
                       | _, _ => (b1, OVals l)
                       end
      end
  end.

(** Deprecated outputs(), bn.py:1200-1214: [.tensor] of each node; a plain
    Tensor has no such attribute. *)
Definition node_tensor (b : bn) (n : name) : bn * (exn + w_tensor W) :=
  match dict_get (b_nodes b) n with
  | Some (RStoch i) => read_tensor b i
  | Some (RDet _) => (b, inl AttributeError)
  | None => (b, inl ValueError)
  end.
Definition outputs (b : bn) (q : query) : bn * out :=
  match check_names b false (query_names q) with
  | Some e => (b, OErr e)
  | None =>
      match map_state node_tensor b (query_names q) with
      | (b1, inl e) => (b1, OErr e)
      | (b1, inr l) => match q, l with
                       | QOne _, [t] => (b1, OTensor t)
                       | _, _ => (b1, OTensors l)
                       end
      end
  end.

(** The stochastic nodes of the dictionary, in order, bn.py:456-457. *)
Definition stoch_ids (b : bn) : list nat :=
  flat_map (fun p => match snd p with RStoch i => [i] | RDet _ => [] end)
           (b_nodes b).

Definition py_sum (l : list (w_val W)) : w_val W :=
  fold_left (w_add W) l (w_zero W).

(** _BayesianNet._log_joint, bn.py:454-465. *)
Definition log_joint_compute (b : bn) : bn * (exn + w_val W) :=
  match b_custom b with
  | CNone =>
      match map_state cond_log_p b (stoch_ids b) with
      | (b1, inl e) => (b1, inl e)
      | (b1, inr l) => (b1, inr (py_sum l))
      end
  | CFun names f =>
      match cond_log_prob b (QMany names) with
      | (b1, OVals l) => (b1, inr (f l))
      | (b1, OErr e) => (b1, inl e)
      | (b1, _) => (b1, inl TypeError)
      end
  | CNotCallable => (b, inl TypeError)
  end.

(** _BayesianNet.log_joint, bn.py:467-478. *)
Definition log_joint (b : bn) : bn * out :=
  match b_cache b with
  | Some v => (b, OVal v)
  | None =>
      match log_joint_compute b with
      | (b1, inl e) => (b1, OErr e)
      | (b1, inr v) => (set_cache b1 (Some v), OVal v)
      end
  end.

(** Public calls. [SetLogJoint] is the assignment [meta_bn.log_joint = ...]
    (meta_bn.py:83-85); [SetItem] is [bn[name] = ...] (bn.py:484-490). *)
Inductive call :=
| Stochastic (n : name) (d : w_dist W) (ns : option nat)
| Legacy (n : name) (d : w_dist W) (ns : option nat) (o : option (w_obs W))
| Deterministic (n : name) (t : w_tensor W)
| ReadTensor (i : nat)
| CondLogP (i : nat)
| Get (q : query)
| CondLogProb (q : query)
| Outputs (q : query)
| LogJoint
| SetLogJoint (c : custom)
| SetItem (n : name).

Definition step (b : bn) (c : call) : bn * out :=
  match c with
  | Stochastic n d ns => stochastic b n d ns
  | Legacy n d ns o => legacy b n d ns o
  | Deterministic n t => deterministic b n t
  | ReadTensor i => match read_tensor b i with
                    | (b1, inl e) => (b1, OErr e) | (b1, inr t) => (b1, OTensor t) end
  | CondLogP i => match cond_log_p b i with
                  | (b1, inl e) => (b1, OErr e) | (b1, inr v) => (b1, OVal v) end
  | Get q => get b q
  | CondLogProb q => cond_log_prob b q
  | Outputs q => outputs b q
  | LogJoint => log_joint b
  | SetLogJoint c => (set_custom b c, OUnit)
  | SetItem n => (b, OErr TypeError)
  end.

Definition run (b : bn) (h : list call) : bn :=
  fold_left (fun b c => fst (step b c)) h b.

(** BayesianNet(observed), bn.py:320-331, 551-554, created with the given
    captured context; [k] sampling ops already exist in the program. *)
Definition new_bn (local : option (name -> option (w_obs W))) (c : custom)
  (observed : list (name * option (w_obs W))) (k : nat) : bn :=
  BN local c observed [] [] None k.
End BN.
