(** HMC.sample (zhusuan/hmc.py) as a graph of operations that a session executes in any
    order its edges allow. An operation below is a group of TensorFlow operations that
    reads no variable assigned in between; [k] numbers the latent variables. *)
From Coq Require Import List Arith Bool Reals ZArith.
From Verif Require Import ModelShape ModelExt ModelHMC ModelExec.
Import ListNotations.
Local Open Scope R_scope.

(** The variables: HMC.t and step_size (hmc.py:258-264), StepsizeTuner (82-87), the moving
    variance (118-123) and the latent variables (424). They are distinct. *)
Inductive var := VT | VEps | VStep | VHbar | VLbar | VET | VMean (k : nat) | VVar (k : nat) | VQ (k : nat).
Inductive node :=
| NewT                                              (* 418 *)
| NewET | Incr (k : nat) | UMean (k : nat) | NVar (k : nat) | UVar (k : nat) (* 132-149 *)
| Prec (k : nat) | CMass (k : nat)                  (* 151-159, 287-305, 451-456 *)
| Mom (k : nat)                                     (* 458 *)
| Used                                              (* 463-472 *)
| Leap                                              (* 475-476 *)
| OldH | Rate | Accept                              (* 480-486 *)
| NewQ (k : nat) | SetQ (k : nat)                   (* 488-497 *)
| NewStep | NewH | LogEps | NewL | TuneOut          (* 91-110 *)
| SetEps                                            (* 379 *)
| Done.                                             (* 519-520 *)
Definition var_eq (a b : var) : {a = b} + {a <> b}.
Proof. decide equality; apply Nat.eq_dec. Defined.
Definition node_eq (a b : node) : {a = b} + {a <> b}.
Proof. decide equality; apply Nat.eq_dec. Defined.

(** What HMC(...), its sample method and the feeds of the run are given. *)
Record config := Config {
  latents : nat;
  given_step : bool; given_mass : bool;   (* adapt_step_size, adapt_mass is not None *)
  step_on : bool; mass_on : bool          (* their values in this run *)
}.
(** Contents of variables and outputs of operations: a counter, a number, an array (by
    index), an array of extended numbers, the end of a trajectory, an array of booleans. *)
Inductive value := Cnt (n : nat) | Num (r : R) | Arr (a : index -> R) | Ext (a : index -> ext) | Traj (q p : state) | Bits (b : index -> bool).
Definition cnt (v : value) : nat := match v with Cnt n => n | _ => O end.
Definition num (v : value) : R := match v with Num r => r | _ => 0 end.
Definition arr (v : value) : index -> R := match v with Arr a => a | _ => fun _ => 0 end.
Definition exts (v : value) : index -> ext := match v with Ext a => a | _ => fun _ => NaN end.
Definition traj (v : value) : state * state := match v with Traj q p => (q, p) | _ => (fun _ => 0, fun _ => 0) end.
Definition bits (v : value) : index -> bool := match v with Bits b => b | _ => fun _ => false end.

Section Graph.
Variable c : config.
Definition adapting_mass : bool := given_mass c && mass_on c.
Definition each (f : nat -> node) : list node := map f (seq 0 (latents c)).
Definition all_q : list var := map VQ (seq 0 (latents c)).
(** Data and control inputs. tf.cond executes the operations of the branch taken: the
    updates of the moving variance (hmc.py:287-289) and of the tuner (108-110) only in a run
    that feeds True; the other branch of the tuner is exp(log_epsilon_bar), which has no
    other input. *)
Definition hmc_deps (n : node) : list node :=
  match n with
  | NewT => [] | NewET => []
  | Incr k => [NewET]
  | UMean k => [Incr k]
  | NVar k => [NewET; Incr k; UMean k]
  | UVar k => [NVar k]
  | Prec k => if adapting_mass then [UVar k] else []
  | CMass k => if given_mass c then NewT :: each Prec else []
  | Mom k => [CMass k]
  | Used => if given_step c then NewT :: each CMass ++ each Mom else []
  | Leap => Used :: each CMass ++ each Mom
  | OldH => each CMass ++ each Mom
  | Rate => OldH :: Leap :: each CMass
  | Accept => [Rate]
  | NewQ k => [Accept; Leap]
  | SetQ k => [NewQ k]
  | NewStep => [NewT]
  | NewH => [NewT; NewStep; Rate]
  | LogEps => [NewStep; NewH]
  | NewL => [NewT; NewStep; LogEps]
  | TuneOut => if step_on c then [LogEps; NewL] else []
  | SetEps => [TuneOut]
  | Done => if given_step c then SetEps :: each SetQ else each SetQ
  end.
(** Variables used directly. *)
Definition hmc_reads (n : node) : list var :=
  match n with
  | NewT => [VT] | NewET => [VET]
  | Incr k => [VQ k; VMean k]
  | UMean k => [VMean k]
  | NVar k => [VVar k; VQ k]
  | Prec k => if adapting_mass then [] else [VVar k]
  | Mom k => [VQ k]
  | Used => if given_step c then VEps :: all_q else [VEps]
  | Leap => all_q
  | OldH => all_q
  | NewQ k => [VQ k]
  | NewStep => [VStep]
  | NewH => [VHbar]
  | NewL => [VLbar]
  | TuneOut => if step_on c then [] else [VLbar]
  | _ => []
  end.
(** Variables used through the output of tf.assign. *)
Definition hmc_refs (n : node) : list var :=
  match n with
  | Incr k => [VET]
  | NVar k => [VET; VMean k]
  | Prec k => if adapting_mass then [VVar k] else []
  | CMass k => if given_mass c then [VT] else []
  | Used => if given_step c then [VT] else []
  | NewStep => [VT]
  | NewH => [VT; VStep]
  | LogEps => [VStep; VHbar]
  | NewL => [VT; VStep]
  | _ => []
  end.
Definition hmc_writes (n : node) : option var :=
  match n with
  | NewT => Some VT | NewET => Some VET
  | UMean k => Some (VMean k) | UVar k => Some (VVar k)
  | SetQ k => Some (VQ k)
  | NewStep => Some VStep | NewH => Some VHbar | NewL => Some VLbar
  | SetEps => Some VEps
  | _ => None
  end.
Definition hmc_graph : graph var node := Graph hmc_deps hmc_reads hmc_refs hmc_writes.
End Graph.

Section Kernel.
Variable c : config.
Variable chain : shape.
Variables (initial_stepsize gamma t0 kappa delta decay : R) (mass_collect_iters : Z).
(** The numerical work on the log joint: initial momentum of latent [k] from its mass,
    step size search (308-345), trajectory (348-372), initial Hamiltonian and acceptance
    rates (46-61), the mean of the rates (tf.reduce_mean, 377), the uniform numbers. *)
Variable momentum : nat -> (index -> ext) -> index -> R.
Variable find_step : (nat -> index -> ext) -> state -> state -> R -> R.
Variable trajectory : (nat -> index -> ext) -> R -> state -> state -> state * state.
Variable energy0 : (nat -> index -> ext) -> state -> state -> index -> ext.
Variable rates : (nat -> index -> ext) -> (index -> ext) -> state * state -> index -> ext.
Variable mean_rate : (index -> ext) -> R.
Variable u01 : index -> R.

(** The contents of the latent variables, the masses and the momenta, by latent. *)
Definition latent_values (v : var -> value) : state := fun x => if (fst x <? latents c)%nat then arr (v (VQ (fst x))) (snd x) else 0.
Definition masses (o : node -> value) : nat -> index -> ext := fun k d => if (k <? latents c)%nat then exts (o (CMass k)) d else Fi 1.
Definition momenta_of (o : node -> value) : state := fun x => if (fst x <? latents c)%nat then arr (o (Mom (fst x))) (snd x) else 0.
Definition weight (t : nat) : R := (1 - decay) / (1 - decay ^ t).
Definition initialize (t : nat) : bool := if_initialize_step_size (effective_collect (given_mass c) mass_collect_iters) t.
Definition fresh (t : nat) : R := if initialize t then 1 else 0.
Definition chain_of (i : index) : index := firstn (length chain) i.
Definition data_of (i : index) : index := skipn (length chain) i.

Definition hmc_kernel (n : node) (o : node -> value) (v : var -> value) : value :=
  match n with
  | NewT => Cnt (S (cnt (v VT)))
  | NewET => Cnt (S (cnt (v VET)))
  | Incr k => Arr (fun i => weight (cnt (v VET)) * (arr (v (VQ k)) i - arr (v (VMean k)) (data_of i)))
  | UMean k => Arr (fun d => arr (v (VMean k)) d + avg (map (fun ch => arr (o (Incr k)) (ch ++ d)) (indices chain)))
  | NVar k => Arr (fun d => (1 - weight (cnt (v VET))) * arr (v (VVar k)) d +
                avg (map (fun ch => arr (o (Incr k)) (ch ++ d) * (arr (v (VQ k)) (ch ++ d) - arr (v (VMean k)) d)) (indices chain)))
  | UVar k => Arr (arr (o (NVar k)))
  | Prec k => Ext (fun d => ediv (Fi 1) (arr (v (VVar k)) d))
  | CMass k =>
    if given_mass c then
      if (Z.of_nat (cnt (v VT)) <? mass_collect_iters)%Z then Ext (fun _ => Fi 1) else Ext (exts (o (Prec k)))
    else Ext (fun _ => Fi 1)
  | Mom k => Arr (momentum k (exts (o (CMass k))))
  | Used =>
    if given_step c then
      Num (if initialize (cnt (v VT)) then find_step (masses o) (latent_values v) (momenta_of o) (num (v VEps)) else num (v VEps))
    else Num (num (v VEps))
  | Leap => let '(q, p) := trajectory (masses o) (num (o Used)) (latent_values v) (momenta_of o) in Traj q p
  | OldH => Ext (energy0 (masses o) (latent_values v) (momenta_of o))
  | Rate => Ext (rates (masses o) (exts (o OldH)) (traj (o Leap)))
  | Accept => Bits (fun ch => eltb (u01 ch) (exts (o Rate) ch))
  | NewQ k => Arr (fun i => if bits (o Accept) (chain_of i) then fst (traj (o Leap)) (k, i) else arr (v (VQ k)) i)
  | SetQ k => Arr (arr (o (NewQ k)))
  | NewStep => Num ((1 - fresh (cnt (v VT))) * num (v VStep) + 1)
  | NewH =>
    let rate1 := 1 / (num (v VStep) + t0) in
    Num ((1 - fresh (cnt (v VT))) * (1 - rate1) * num (v VHbar) + rate1 * (delta - mean_rate (exts (o Rate))))
  | LogEps => Num (mu initial_stepsize - sqrt (num (v VStep)) / gamma * num (v VHbar))
  | NewL =>
    let rate := Rpower (num (v VStep)) (- kappa) in
    Num (rate * num (o LogEps) + (1 - fresh (cnt (v VT))) * (1 - rate) * num (v VLbar))
  | TuneOut => Num (exp (if step_on c then num (o LogEps) else num (v VLbar)))
  | SetEps => Num (num (o TuneOut))
  | Done => Num 0
  end.
(** One run of the sampling operation in the order [l]. *)
Definition hmc_run (l : list (event var node)) (s : machine var node value) : machine var node value :=
  run var_eq node_eq (hmc_graph c) hmc_kernel l s.
End Kernel.

(** The numerical work of hmc.py on finite masses, for one draw of the noise. *)
Section Physics.
Variables (chain : shape) (data : list shape).
Variables (log_post : state -> index -> ext) (grad : state -> state) (n_leapfrogs : Z) (noise : state).
Definition finite (a : ext) : R := match a with Fi x => x | _ => 0 end.
Definition real_mass (m : nat -> index -> ext) (k : nat) (d : index) : R := finite (m k d).
(** random_momentum, hmc.py:21-23 *)
Definition draw_momentum (k : nat) (m : index -> ext) (i : index) : R := noise (k, i) * sqrt (finite (m (data_of chain i))).
(** hmc.py:475-476 *)
Definition run_leapfrog (m : nat -> index -> ext) (eps : R) (q p : state) : state * state :=
  leapfrog grad (full_mass chain (real_mass m)) n_leapfrogs eps q p.
(** hmc.py:47-50 *)
Definition old_energy (m : nat -> index -> ext) (q p : state) (c : index) : ext :=
  fst (hamiltonian (log_post q c) (momenta data (real_mass m) p c)).
(** hmc.py:54-59 *)
Definition accept_rates (m : nat -> index -> ext) (old : index -> ext) (x : state * state) (c : index) : ext :=
  let '(new_h, new_log_prob) := hamiltonian (log_post (fst x) c) (momenta data (real_mass m) (snd x) c) in
  let acceptance_rate := eexp (emin (eadd (eneg new_h) (old c)) (Fi 0)) in
  if is_finite acceptance_rate && is_finite new_log_prob then acceptance_rate else Fi 0.
End Physics.
