(** Construction of variational objectives (zhusuan/variational/base.py) on the
    networks of ModelBN.v. *)
From Coq Require Import List Arith Bool.
From Verif Require Import ModelBN.
Import ListNotations.

Section Objective.
Context (W : world).

(** StochasticTensor.is_observed, bn.py:155-161 (a half-initialised object has no
    [_observation]). *)
Definition is_observed (b : bn W) (i : nat) : exn + bool :=
  match nth_error (b_objs W b) i with
  | Some nd => if sn_ready W nd then inr (match sn_obs W nd with Some _ => true | None => false end)
               else inl AttributeError
  | None => inl AttributeError
  end.

(** Argument [variational]: a BayesianNet or anything else. *)
Inductive variational_arg := VNet (b : bn W) | VOther.

(** Values of [_v_inputs]: a node of the network, or a tensor of [latent]. *)
Inductive vinput := VNode (i : nat) | VTensor (t : w_tensor W).
Record objective := Objective {
  o_inputs : list (name * vinput);
  o_log_probs : list (name * w_val W) }.

(** The list comprehension of base.py:70-72. *)
Fixpoint unobserved (b : bn W) (d : list (name * noderef W)) : exn + list (name * nat) :=
  match d with
  | [] => inr []
  | (_, RDet _ _) :: d' => unobserved b d'
  | (n, RStoch _ i) :: d' =>
      match is_observed b i with
      | inl e => inl e
      | inr ob => match unobserved b d' with
                  | inl e => inl e
                  | inr l => inr (if ob then l else (n, i) :: l)
                  end
      end
  end.

(** VariationalObjective.__init__, base.py:49-89. The variational network changes
    because reading cond_log_p may sample. An empty [latent] fails at the
    unpacking of line 81. *)
Definition construct (latent : option (list (name * (w_tensor W * w_val W))))
  (variational : option variational_arg) : option (bn W) * (exn + objective) :=
  match variational, latent with
  | None, None | Some _, Some _ => (None, inl ValueError)
  | Some VOther, None => (None, inl TypeError)
  | Some (VNet b), None =>
      match unobserved b (b_nodes W b) with
      | inl e => (Some b, inl e)
      | inr l =>
          match map_state W (cond_log_p W) b (map snd l) with
          | (b', inl e) => (Some b', inl e)
          | (b', inr vs) =>
              (Some b', inr (Objective (map (fun p => (fst p, VNode (snd p))) l)
                                       (combine (map fst l) vs)))
          end
      end
  | None, Some [] => (None, inl ValueError)
  | None, Some l =>
      (None, inr (Objective (map (fun p => (fst p, VTensor (fst (snd p)))) l)
                            (map (fun p => (fst p, snd (snd p))) l)))
  end.

(** _entropy_term, base.py:177-183. *)
Definition entropy (neg : w_val W -> w_val W) (o : objective) : option (w_val W) :=
  match o_log_probs o with
  | [] => None
  | l => Some (neg (py_sum W (map snd l)))
  end.

(** _validate_variational_inputs, base.py:91-97: iterating over a dictionary
    yields its keys, which are strings. *)
Inductive pyobj := PStr (n : name) | PStochastic (i : nat) | PTensor (t : w_tensor W).
Definition iterate (d : list (name * noderef W)) : list pyobj := map (fun p => PStr (fst p)) d.
Definition rejected (b : bn W) (x : pyobj) : bool :=
  match x with
  | PStochastic i => match is_observed b i with inr false => true | _ => false end
  | _ => false
  end.
Definition validate_variational_inputs (b : bn W) : option exn :=
  if existsb (rejected b) (iterate (b_nodes W b)) then Some ValueError else None.
End Objective.
