(** Sampling operations over a whole session: what SGMCMC.sample (zhusuan/sgmcmc.py) and
    HMC.sample (zhusuan/hmc.py) accept, and what repeated runs of the operations made
    by one SGMCMC object do to the variables of the graph. The update formulas are those
    of ModelSGMCMC.v. Names are numbers, as in ModelDict.v. *)
From Coq Require Import List Arith Bool Reals ZArith.
From Verif Require Import ModelShape ModelBN ModelDict ModelHMC ModelSGMCMC.
Import ListNotations.
Local Open Scope R_scope.

(** ** Arguments of sample() *)
Inductive error := ValueError | TypeError (name : option nat) | KeyError.
(** A value of the dictionary [latent]: the [v]-th tf.Variable of the graph, or some
    other object. *)
Inductive lat := TfVariable (v : nat) | Other.
(** The loop of sgmcmc.py:84-88, hmc.py:419-423: the name of the first latent that is not
    a tf.Variable. *)
Fixpoint first_other (latent : dict lat) : option nat :=
  match latent with
  | [] => None
  | (k, Other) :: _ => Some k
  | _ :: l => first_other l
  end.
Definition variables (latent : dict lat) : list nat :=
  flat_map (fun p => match snd p with TfVariable v => [v] | Other => [] end) latent.

(** Where an entry of the dictionary given to the log joint function comes from. *)
Inductive source := Latent (j : nat) | Given.
(** sgmcmc.py:92-100, hmc.py:426-432: the latent values and the observations are merged and
    the log joint is differentiated with respect to the latent values. [reads] lists the
    names the log joint function depends on; tf.gradients gives None for a latent value
    that it does not reach. *)
Definition merged (latent : dict lat) (observed : list nat) : dict source :=
  sampler_obs (map fst latent) (map Latent (seq 0 (length latent))) (map (fun k => (k, Given)) observed).
Definition reaches (latent : dict lat) (observed reads : list nat) (j : nat) : bool :=
  existsb (fun k => match dict_get (merged latent observed) k with Some (Latent i) => Nat.eqb i j | _ => false end) reads.

(** The samplers; [Base] is the abstract class itself, whose _update returns (and does not
    raise) a NotImplementedError, sgmcmc.py:163-167. *)
Inductive sampler :=
| Base
| SGLD
| PSGLD (decay epsilon : R)
| SGHMC (alpha beta : R) (n_iter_resample_v : Z) (second_order : bool)
| SGNHT (a tune_rate : R) (n_iter_resample_v : Z) (second_order use_vector_alpha : bool).
(** PSGLD.__init__, sgmcmc.py:233-241: the only known preconditioner is 'rms'; the default
    hyper-parameters. SGHMC.__init__ and SGNHT.__init__, 313-314 and 441-442. *)
Definition psgld_init (preconditioner_is_rms : bool) (hparams : option (R * R)) : error + sampler :=
  if preconditioner_is_rms then
    inr (match hparams with Some (d, e) => PSGLD d e | None => PSGLD (9/10) (1/1000) end)
  else inl KeyError.
Definition period (n_iter_resample_v : option Z) : Z :=
  match n_iter_resample_v with None => 0 | Some n => n end.

(** What is raised on using None as a gradient: [grad ** 2] is a TypeError of Python
    (PSGLD, 230), multiplication by a tensor a ValueError of TensorFlow (SGLD, 196; SGHMC, 345
    and 354; SGNHT, 484 and 499; HMC, hmc.py:42). *)
Definition none_error (c : sampler) : error := match c with PSGLD _ _ => TypeError None | _ => ValueError end.
(** SGMCMC.sample up to the created operation, sgmcmc.py:75-108: unzipping an empty
    dictionary and unpacking the exception object returned by the abstract class fail. *)
Definition sg_sample (c : sampler) (latent : dict lat) (observed reads : list nat) : error + list nat :=
  match latent with
  | [] => inl ValueError
  | _ =>
    match first_other latent with
    | Some k => inl (TypeError (Some k))
    | None =>
      match c with
      | Base => inl (TypeError None)
      | _ => if forallb (reaches latent observed reads) (seq 0 (length latent)) then inr (variables latent)
             else inl (none_error c)
      end
    end
  end.
(** HMC.sample, hmc.py:418-442 and 38-43: [chain_rank_known] is the truth value of the static
    shape of the log joint. *)
Definition hmc_sample (chain_rank_known : bool) (latent : dict lat) (observed reads : list nat) : error + list nat :=
  match latent with
  | [] => inl ValueError
  | _ =>
    match first_other latent with
    | Some k => inl (TypeError (Some k))
    | None =>
      if chain_rank_known then
        if forallb (reaches latent observed reads) (seq 0 (length latent)) then inr (variables latent) else inl ValueError
      else inl ValueError
    end
  end.

(** sgmcmc_info, sgmcmc.py:109-115: [infos] has one dictionary of attributes per latent;
    zip(...) of the values stops at the shortest. *)
Fixpoint zip_star {A} (rows : list (list A)) (width : nat) : list (list A) :=
  match width with
  | O => []
  | S w => let cs := zip_star rows w in
           cs ++ (if forallb (fun r => Nat.ltb w (length r)) rows
                  then [flat_map (fun r => match nth_error r w with Some a => [a] | None => [] end) rows] else [])
  end.
Definition sgmcmc_info {A} (latent_k : list nat) (infos : list (dict A)) : dict (dict A) :=
  let list_attrib := zip_star (map (map snd) infos) (fold_right Nat.max 0%nat (map (@length _) infos)) in
  let list_attrib_with_k := map (dict_zip latent_k) list_attrib in
  dict_zip (map fst (hd [] infos)) list_attrib_with_k.

(** ** Running the operations *)
(** What one call of sess.run supplies: the learning rate and the gradient of the log joint
    (for the data fed), the random draws, and for each latent whether the counter is read
    after its increment (see ModelSGMCMC.v). *)
Record feed := Feed { f_lr : R; f_grad : state -> state; f_zeta : state; f_xi : state; f_late : nat -> bool }.
(** An operation: the variables of its latents with their shapes, and the variables
    created for it by _define_variables: momenta, frictions, preconditioner averages. *)
Record op := Op { o_vars : list nat; o_shapes : list shape; o_mom : state; o_fric : state; o_aux : state }.
(** _define_variables, sgmcmc.py:188-189, 225-226, 243-244, 320-324, 448-458, at initialisation;
    [draw] is standard normal. *)
Definition new_op (c : sampler) (vars : list nat) (shapes : list shape) (lr : R) (draw : state) : op :=
  Op vars shapes (fun x => sqrt lr * draw x)
     (match c with SGNHT a _ _ _ _ => fun _ => a | _ => fun _ => 0 end) (fun _ => 0).
(** One SGMCMC object with its counter (sgmcmc.py:73), its operations and the latent
    variables of the graph. *)
Record session := Session { s_t : nat; s_vars : nat -> index -> R; s_ops : list op }.

(** _update of each class on the operation's own variables: new latents and operation. *)
Definition latents (s : session) (o : op) : state := fun x =>
  match nth_error (o_vars o) (fst x) with Some v => s_vars s v (snd x) | None => 0 end.
Definition entering (f : feed) (n : Z) (t : nat) (o : op) : state :=
  old_momentum (f_lr f) (fun k => resamples n (Z.of_nat (if f_late f k then S t else t))) (o_mom o) (f_zeta f).
Definition update_op (c : sampler) (f : feed) (t : nat) (q : state) (o : op) : state * op :=
  match c with
  | Base => (q, o)
  | SGLD => (sgld_step (f_grad f) (f_lr f) q (f_xi f), o)
  | PSGLD decay epsilon =>
    let '(q', aux) := psgld_step (f_grad f) (f_lr f) decay epsilon q (o_aux o) (f_xi f) in
    (q', Op (o_vars o) (o_shapes o) (o_mom o) (o_fric o) aux)
  | SGHMC alpha beta n second_order =>
    let '(q', v) := sghmc_step (f_grad f) (f_lr f) alpha beta second_order q (entering f n t o) (f_xi f) in
    (q', Op (o_vars o) (o_shapes o) v (o_fric o) (o_aux o))
  | SGNHT a tune_rate n second_order use_vector_alpha =>
    let '(q', v, al) := sgnht_step (o_shapes o) (f_grad f) (f_lr f) a tune_rate second_order use_vector_alpha q
                          (entering f n t o) (o_fric o) (f_xi f) in
    (q', Op (o_vars o) (o_shapes o) v al (o_aux o))
  end.
(** The assignments, one variable after the other (simultaneous by C30 when the variables
    are distinct). *)
Fixpoint assign (vars : list nat) (k : nat) (q : state) (m : nat -> index -> R) : nat -> index -> R :=
  match vars with
  | [] => m
  | v :: vars => assign vars (S k) q (fun v' => if Nat.eqb v' v then content q k else m v')
  end.
Fixpoint replace {A} (l : list A) (i : nat) (a : A) : list A :=
  match l, i with
  | [], _ => []
  | _ :: l, O => a :: l
  | b :: l, S i => b :: replace l i a
  end.
(** sess.run(sample_op of the [i]-th operation), sgmcmc.py:102-108. *)
Definition run_op (c : sampler) (s : session) (i : nat) (f : feed) : session :=
  match nth_error (s_ops s) i with
  | None => s
  | Some o =>
    let '(q, o') := update_op c f (s_t s) (latents s o) o in
    Session (S (s_t s)) (assign (o_vars o) 0 q (s_vars s)) (replace (s_ops s) i o')
  end.
Definition runs (c : sampler) (s : session) (l : list (nat * feed)) : session :=
  fold_left (fun s r => run_op c s (fst r) (snd r)) l s.
