(** The deprecated query() of BayesianNet and the deprecated methods of
    StochasticTensor, on top of ModelBN.v. *)
From Coq Require Import List.
From Verif Require Import ModelBN.
Import ListNotations.

Section Query.
Context (W : world).

(** What one option contributes for one name. *)
Inductive item := ITensor (t : w_tensor W) | IVal (v : w_val W).
(** The result of query(): a tuple, a list of tuples, or an exception. *)
Inductive answer := ATuple (l : list item) | AList (l : list (list item)) | AErr (e : exn).

(** What outputs() or local_log_prob() appended to [ret]: a single item for one name,
    a list for several. *)
Inductive part := POne (x : item) | PMany (l : list item).
Definition part_of (o : out W) : exn + part :=
  match o with
  | OTensor _ t => inr (POne (ITensor t))
  | OTensors _ l => inr (PMany (map ITensor l))
  | OVal _ v => inr (POne (IVal v))
  | OVals _ l => inr (PMany (map IVal l))
  | OErr _ e => inl e
  | _ => inl TypeError
  end.
(** [if option: ret.append(call)] *)
Definition append_if (option : bool) (b : bn W) (c : call W) (ret : list part) : bn W * (exn + list part) :=
  if option then
    match step W b c with
    | (b1, o) => (b1, match part_of o with inl e => inl e | inr p => inr (ret ++ [p]) end)
    end
  else (b, inr ret).

(** Python's zip of the appended lists: as long as the shortest. *)
Definition items (p : part) : list item := match p with POne x => [x] | PMany l => l end.
Fixpoint zip (l : list (list item)) : list (list item) :=
  match l with
  | [] => []
  | [a] => map (fun x => [x]) a
  | a :: l' => map (fun xy => fst xy :: snd xy) (combine a (zip l'))
  end.

(** BayesianNet.query, bn.py:1228-1249. *)
Definition query_net (b : bn W) (q : query) (outputs local_log_prob : bool) : bn W * answer :=
  match check_names W b false (query_names q) with
  | Some e => (b, AErr e)
  | None =>
      match append_if outputs b (Outputs W q) [] with
      | (b1, inl e) => (b1, AErr e)
      | (b1, inr ret1) =>
          match append_if local_log_prob b1 (CondLogProb W q) ret1 with
          | (b2, inl e) => (b2, AErr e)
          | (b2, inr []) => (b2, AErr ValueError)
          | (b2, inr ret2) =>
              match q with
              | QMany _ => (b2, AList (zip (map items ret2)))
              | QOne _ => (b2, ATuple (flat_map items ret2))
              end
          end
      end
  end.

(** StochasticTensor.sample, bn.py:252-267: a new sampling op; nothing is kept. *)
Definition node_sample (b : bn W) (i : nat) (n_samples : option nat) : bn W * out W :=
  match nth_error (b_objs W b) i with
  | Some nd => (incr_draws W b, OTensor W (w_sample W (sn_dist W nd) n_samples (b_draws W b)))
  | None => (b, OErr W AttributeError)
  end.
(** StochasticTensor.log_prob, bn.py:269-284. *)
Definition node_log_prob (b : bn W) (i : nat) (given : w_tensor W) : bn W * out W :=
  match nth_error (b_objs W b) i with
  | Some nd => (b, OVal W (w_log_prob W (sn_dist W nd) given))
  | None => (b, OErr W AttributeError)
  end.
End Query.
