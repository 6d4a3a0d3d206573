(** Vocabulary for the life of a variational objective. *)
From Coq Require Import List Arith Bool.
From Verif Require Import ModelBN ModelObjective ModelLife.
Import ListNotations.

Section Spec.
Context (W : world) (X : ops W).

(** log p(x, z) and -log q(z) combined, before the average over samples; None: there are
    no latent variables. *)
Definition signal (lj : w_val W) (ent : option (w_val W)) : w_val W :=
  match ent with Some e => x_add W X lj e | None => lj end.

(** What each estimator of each objective returns for a log joint [lj] and entropy [ent]. *)
Definition value (kd : kind) (lj : w_val W) (ent : option (w_val W)) : option (w_val W) :=
  match kd, ent with
  | Elbo, _ => Some (x_mean W X (signal lj ent))
  | Iw, Some _ => Some (x_log_mean_exp W X (signal lj ent))
  | _, _ => None
  end.
Definition estimate (kd : kind) (a : access W X) (lj : w_val W) (ent : option (w_val W)) : option (result W) :=
  match a, kd, ent with
  | (ReadObjective _ _ | Convert _ _ _ _), _, _ => option_map (RVal W) (value kd lj ent)
  | Sgvb _ _, _, _ => option_map (fun v => RVal W (x_neg W X v)) (value kd lj ent)
  | Reinforce _ _ vr bl scope _, Elbo, Some e =>
      Some (match vr, bl with
            | true, Some b => RPair W (x_reinforce W X lj e bl (Some scope)) (x_baseline_cost W X lj e b)
            | true, None => RVal W (x_reinforce W X lj e None (Some scope))
            | false, _ => RVal W (x_reinforce W X lj e None None)
            end)
  | Vimco _ _, Iw, Some e => option_map (RVal W) (x_vimco W X lj e)
  | Importance _ _, Klpq axis, Some e => Some (RVal W (if axis then x_weighted W X lj e else e))
  | _, _, _ => None
  end.
Definition is_estimate (r : result W) : Prop := match r with RVal _ _ | RPair _ _ _ => True | _ => False end.

(** Minus the sum of the log probabilities of the latent variables. *)
Definition entropy_of (o : obj W) : option (w_val W) :=
  match ob_log_probs W o with
  | [] => None
  | l => Some (x_neg W X (fold_left (w_add W) (map snd l) (w_zero W)))
  end.

(** The program does not add stochastic nodes to obj.bn. *)
Definition adds_node (a : access W X) : Prop := match a with OnBn _ _ (Stochastic _ _ _ _) => True | _ => False end.
Definition mutates (a : access W X) : bool := match a with Mutate _ _ _ _ => true | _ => false end.
End Spec.
