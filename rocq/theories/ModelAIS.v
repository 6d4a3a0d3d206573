(** Annealed importance sampling (zhusuan/evaluation.py, class AIS). *)
From Coq Require Import Reals List Arith.
From Verif Require Import ModelDist.
Import ListNotations.
Local Open Scope R_scope.

(** _map_t and _get_schedule_t, evaluation.py:112-117, for [n] temperatures. *)
Definition map_t (n : nat) (t : R) : R := 1 / (1 + exp (-4 * (2 * t / INR n - 1))).
Definition schedule_t (n : nat) (t : R) : R :=
  (map_t n t - map_t n 0) / (map_t n (INR n) - map_t n 0).

(** log_fn, evaluation.py:101-103. *)
Definition log_fn {X} (log_prior log_joint : X -> R) (temperature : R) (x : X) : R :=
  log_prior x * (1 - temperature) + log_joint x * temperature.

(** _get_lower_bound, evaluation.py:167-172: reduction over the chain axis. *)
Definition max_weight (l : list R) : R := fold_right Rmax (hd 0 l) l.
Definition lower_bound (l : list R) : R :=
  ln (sumR (map (fun w => exp (w - max_weight l)) l) / INR (length l)) + max_weight l.

(** AIS.run, evaluation.py:119-165. The effects of the session ([init_latent],
    [sample_op] with its two reported log densities, [log_fn_val]) are operations in a
    monad; the state of the session has type [S]. One value of the data axis is
    modelled: a weight array is the list of its entries along the chain axis, and the
    np.mean over the remaining axes of line 165 is [data_mean]. Printing is left out. *)
Section Run.
Context {M : Type -> Type} (ret : forall A, A -> M A) (bind : forall A B, M A -> (A -> M B) -> M B).
Context {S : Type} (init_latent : S -> M S)
  (sample_op : R -> S -> M (S * (list R * list R))%type)
  (log_fn_val : R -> S -> M (list R)).
Arguments bind {A B}.
Arguments ret {A}.

Definition add_arrays (a b : list R) : list R := map (fun p => fst p + snd p) (combine a b).
Definition sub_arrays (a b : list R) : list R := map (fun p => fst p - snd p) (combine a b).

(** Lines 131-137. *)
Fixpoint adapt (n_adapt : nat) (adp_t : R) (s : S) : M S :=
  match n_adapt with
  | 0%nat => ret s
  | Datatypes.S k => bind (sample_op adp_t s) (fun r => adapt k adp_t (fst r))
  end.

(** Lines 146-163: [fuel] iterations left, [num_t] is next. *)
Fixpoint anneal (n : nat) (fuel num_t : nat) (s : S) (log_weights : list R) : M (list R) :=
  match fuel with
  | 0%nat => ret log_weights
  | Datatypes.S fuel' =>
      bind (sample_op (schedule_t n (INR (num_t + 1))) s) (fun r =>
        let old_log_p := fst (snd r) in
        let new_log_p := snd (snd r) in
        anneal n fuel' (Datatypes.S num_t) (fst r)
          (if Nat.ltb (num_t + 1) n
           then add_arrays log_weights (sub_arrays old_log_p new_log_p)
           else add_arrays log_weights old_log_p))
  end.

Definition ais_log_weights (n n_adapt : nat) (s : S) : M (list R) :=
  let adp_num_t := if Nat.ltb 1 n then 2 else 1 in
  let adp_t := schedule_t n adp_num_t in
  bind (init_latent s) (fun s =>
  bind (adapt n_adapt adp_t s) (fun s =>
  bind (init_latent s) (fun s =>
  bind (log_fn_val 0 s) (fun prior_density =>
  anneal n n 0 s (map Ropp prior_density))))).
Definition ais_run (n n_adapt : nat) (s : S) : M R :=
  bind (ais_log_weights n n_adapt s) (fun log_weights => ret (lower_bound log_weights)).
End Run.

(** np.mean over the data axes, line 165. *)
Definition data_mean (values : list R) : R := sumR values / INR (length values).
