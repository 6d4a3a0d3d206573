(** zhusuan/sgmcmc.py. As in ModelHMC a state maps positions (latent number, index) to
    reals; tf.gradients of the log joint is the function argument [grad]. A draw of
    tf.random_normal(stddev=s) is [s] times a standard draw, which is an argument. *)
From Coq Require Import List Arith Bool Reals ZArith.
From Verif Require Import ModelShape ModelHMC.
Import ListNotations.
Local Open Scope R_scope.

Section Samplers.
(** Shape of each latent variable. *)
Variable shapes : list shape.
Variable grad : state -> state.

(** SGLD._update_single, sgmcmc.py:195-200 *)
Definition sgld_step (lr : R) (q xi : state) : state :=
  fun x => q x + (1/2) * lr * grad q x + sqrt lr * xi x.

(** PSGLD: RMSPreconditioner._get_preconditioner, sgmcmc.py:229-231, and
    _update_single, 250-257. Returns the new latents and the new auxiliary values. *)
Definition rms_aux (decay : R) (q aux : state) : state :=
  fun x => decay * aux x + (1 - decay) * grad q x ^ 2.
Definition preconditioner (epsilon : R) (aux : state) : state := fun x => 1 / (epsilon + sqrt (aux x)).
Definition psgld_step (lr decay epsilon : R) (q aux xi : state) : state * state :=
  let aux := rms_aux decay q aux in
  let g := preconditioner epsilon aux in
  (fun x => q x + (1/2) * lr * g x * grad q x + sqrt (lr * g x) * xi x, aux).

(** The momentum entering a step of SGHMC and SGNHT, sgmcmc.py:327-337 and 461-478:
    resampled when the counter [t] is a multiple of n_iter_resample_v; [zeta] is the
    draw. (None is converted to 0 by the constructors.) [resample k] is the outcome of
    the tf.cond of latent [k]: each reads the counter for itself. *)
Definition resamples (n_iter_resample_v t : Z) : bool :=
  if (n_iter_resample_v =? 0)%Z then false else (t mod n_iter_resample_v =? 0)%Z.
Definition old_momentum (lr : R) (resample : nat -> bool) (v zeta : state) : state :=
  fun x => if resample (fst x) then sqrt lr * zeta x else v x.

(** SGHMC._update, sgmcmc.py:338-357, from the momentum [old_v]. Returns new latents
    and momentum. *)
Definition sghmc_step (lr alpha beta : R) (second_order : bool) (q old_v xi : state) : state * state :=
  let gaussian_term := fun x => sqrt (2 * (alpha - beta) * lr) * xi x in
  if second_order then
    let decay_half := exp (- (1/2) * alpha) in
    let q1 := fun x => q x + 1/2 * old_v x in
    let g := grad q1 in
    let new_v := fun x => decay_half * (decay_half * old_v x + lr * g x + gaussian_term x) in
    (fun x => q1 x + 1/2 * new_v x, new_v)
  else
    let g := grad q in
    let new_v := fun x => (1 - alpha) * old_v x + lr * g x + gaussian_term x in
    (fun x => q x + new_v x, new_v).

(** maybe_reduce_mean of the squared momentum, sgmcmc.py:464-468: per entry, or the
    mean over the entries of the latent. The scalar friction variable of latent [k] is
    kept at position (k, []). *)
Definition mean_kinetic (use_vector_alpha : bool) (v : state) : state := fun x =>
  if use_vector_alpha then v x ^ 2
  else avg (map (fun i => v (fst x, i) ^ 2) (indices (nth (fst x) shapes []))).
Definition friction_at (use_vector_alpha : bool) (alpha : state) : state := fun x =>
  if use_vector_alpha then alpha x else alpha (fst x, []).

(** SGNHT._update, sgmcmc.py:479-505. Returns new latents, momentum and friction. *)
Definition sgnht_step (lr a tune_rate : R) (second_order use_vector_alpha : bool) (q old_v alpha xi : state)
  : state * state * state :=
  let gaussian_term := fun x => sqrt (2 * a * lr) * xi x in
  let fr := friction_at use_vector_alpha in
  let mk := mean_kinetic use_vector_alpha in
  if second_order then
    let q1 := fun x => q x + 1/2 * old_v x in
    let alpha1 := fun x => alpha x + 1/2 * tune_rate * (mk old_v x - lr) in
    let decay_half := fun x => exp (- (1/2) * fr alpha1 x) in
    let g := grad q1 in
    let new_v := fun x => decay_half x * (decay_half x * old_v x + lr * g x + gaussian_term x) in
    (fun x => q1 x + 1/2 * new_v x, new_v, fun x => alpha1 x + 1/2 * tune_rate * (mk new_v x - lr))
  else
    let g := grad q in
    let new_v := fun x => (1 - fr alpha x) * old_v x + lr * g x + gaussian_term x in
    (fun x => q x + new_v x, new_v, fun x => alpha x + tune_rate * (mk new_v x - lr)).
End Samplers.

(** ** Execution of one step as a dataflow graph

    Each variable [x] (a latent, momentum, friction or preconditioner variable) has an
    operation computing its new value from the variables in [uses x], and an operation
    assigning it. [Use c y] is the moment at which the contents of [y] are taken by the
    consumer class [c]; [via x] is the class of the computation of [x]. Two readings of
    a graph are covered: [via] constant is one read node per variable whose output is a
    snapshot shared by all consumers; [via] the identity lets every computation look at
    the variable's buffer at a time of its own. The computation of one new value is a
    single event. *)
Section Graph.
Context {X C V : Type}.
Variables (eqX : forall a b : X, {a = b} + {a <> b}) (eqC : forall a b : C, {a = b} + {a <> b}).
Inductive operation := Use (c : C) (y : X) | Compute (x : X) | Assign (x : X).
Record machine := Machine { mem : X -> V; seen : C -> X -> V; out : X -> V }.
Variables (via : X -> C) (new : X -> (X -> V) -> V).
Definition set {K W} (eq : forall a b : K, {a = b} + {a <> b}) (f : K -> W) (k : K) (w : W) : K -> W :=
  fun k' => if eq k' k then w else f k'.
Definition exec (s : machine) (e : operation) : machine :=
  match e with
  | Use c y => Machine (mem s) (fun c' => if eqC c' c then set eqX (seen s c) y (mem s y) else seen s c') (out s)
  | Compute x => Machine (mem s) (seen s) (set eqX (out s) x (new x (seen s (via x))))
  | Assign x => Machine (set eqX (mem s) x (out s x)) (seen s) (out s)
  end.
Definition run (l : list operation) (s : machine) : machine := fold_left exec l s.

(** The edges of the graph. [barrier] is tf.control_dependencies(new_vs + new_qs [+
    new_alphas]), sgmcmc.py:363 and 511; SGLD and PSGLD have none. *)
Variables (vars : list X) (uses : X -> list X) (barrier : bool).
Definition event_of_step (e : operation) : Prop :=
  match e with
  | Use c y => exists x, In x vars /\ c = via x /\ In y (uses x)
  | Compute x | Assign x => In x vars
  end.
Definition edge (e e' : operation) : Prop :=
  match e, e' with
  | Use c y, Compute x => In x vars /\ c = via x /\ In y (uses x)
  | Compute x, Assign y => In x vars /\ In y vars /\ (barrier = true \/ x = y)
  | _, _ => False
  end.
(** A schedule runs every operation once, each after the operations it depends on. *)
Definition precedes (l : list operation) (e e' : operation) : Prop := forall l1 l2, l = l1 ++ e' :: l2 -> In e l1.
Definition schedule (l : list operation) : Prop :=
  NoDup l /\ (forall e, In e l <-> event_of_step e) /\ (forall e e', edge e e' -> precedes l e e').
End Graph.
Arguments operation : clear implicits.

(** The variables of the samplers. *)
Inductive cell := Q (k : nat) | Mom (k : nat) | Fric (k : nat) | Aux (k : nat).
Definition cell_eq (a b : cell) : {a = b} + {a <> b}.
Proof. decide equality; apply Nat.eq_dec. Defined.
Definition latents_of (f : cell -> index -> R) : state := fun x => f (Q (fst x)) (snd x).
Definition momenta_of (f : cell -> index -> R) : state := fun x => f (Mom (fst x)) (snd x).
Definition frictions_of (f : cell -> index -> R) : state := fun x => f (Fric (fst x)) (snd x).
Definition aux_of (f : cell -> index -> R) : state := fun x => f (Aux (fst x)) (snd x).
Definition content (s : state) (k : nat) : index -> R := fun i => s (k, i).

(** sgmcmc_info: "q", "mean_k" and "alpha" of latent [k] are computed from the new
    values [o], not from the variables after assignment: SGHMC, sgmcmc.py:358-361, where
    mean_k is always a scalar; SGNHT, 487, 502 and 506-508; SGLD, 199, and PSGLD, 256,
    have "q" only. *)
Definition info_q (o : cell -> index -> R) (k : nat) : index -> R := o (Q k).
Definition info_alpha (o : cell -> index -> R) (k : nat) : index -> R := o (Fric k).
Definition info_mean_k (shapes : list shape) (use_vector_alpha : bool) (o : cell -> index -> R) (k : nat) : index -> R :=
  fun i => mean_kinetic shapes use_vector_alpha (momenta_of o) (k, i).

(** ** The iteration counter: sgmcmc.py:107 increments [t] with no ordering relative to
    the read of [t] that decides on resampling. In each step (0, 1, ...) the schedule
    decides for every latent whether the read comes after the increment. *)
Definition resampled_at (n_iter_resample_v : Z) (read_after : nat -> nat -> bool) (step latent : nat) : bool :=
  resamples n_iter_resample_v (Z.of_nat (if read_after step latent then S step else step)).
