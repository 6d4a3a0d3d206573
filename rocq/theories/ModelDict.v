(** Model of merge_dicts (zhusuan/utils.py) and of its uses.
    Dictionaries are association lists without repeated keys, in insertion
    order; keys are numbers. *)
From Coq Require Import List Arith.
From Verif Require Import ModelBN.
Import ListNotations.

Definition dict (V : Type) := list (nat * V).

Section Dict.
Context {V : Type}.

(** [result.update(dictionary)] *)
Definition update (r d : dict V) : dict V :=
  fold_left (fun r p => dict_set r (fst p) (snd p)) d r.

(** merge_dicts, utils.py:220-228 *)
Definition merge_dicts (ds : list (dict V)) : dict V := fold_left update ds [].

(** [dict(zip(ks, vs))] *)
Definition dict_zip (ks : list nat) (vs : list V) : dict V := update [] (combine ks vs).

(** VariationalObjective.bn and _log_joint_term, variational/base.py:133-134,
    173-174: the values the model is observed with. *)
Definition variational_obs (v_inputs observed : dict V) : dict V :=
  merge_dicts [v_inputs; observed].

(** get_log_posterior of HMC.sample, hmc.py:426-428, and of SGMCMC.sample,
    sgmcmc.py:92-94. *)
Definition sampler_obs (latent_k : list nat) (var_list : list V) (observed : dict V) : dict V :=
  merge_dicts [dict_zip latent_k var_list; observed].

(** AIS.__init__, evaluation.py:106: the values at which the initial weight is
    computed. *)
Definition ais_initial_obs (observed latent : dict V) : dict V :=
  merge_dicts [observed; latent].

(** AIS.run, evaluation.py:133-154: the user's feed_dict with the temperature. *)
Definition ais_feed (feed : dict V) (temperature_key : nat) (t : V) : dict V :=
  merge_dicts [feed; [(temperature_key, t)]].
End Dict.
