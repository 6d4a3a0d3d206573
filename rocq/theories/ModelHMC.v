(** zhusuan/hmc.py. A state is a function from positions to reals: position (k, i)
    is index [i] of the k-th latent variable, whose shape is [chain axes ++ data
    axes of k]. Log-densities and acceptance rates are extended numbers (ModelExt);
    positions and momenta of the integrator are real numbers. tf.gradients of the
    log joint is a function argument [grad]. *)
From Coq Require Import List Arith Bool Reals ZArith.
From Verif Require Import ModelShape ModelExt.
Import ListNotations.
Local Open Scope R_scope.

(** ** The integrator *)
Section Integrator.
Context {I : Type}.
Notation vec := (I -> R).
Variables (grad : vec -> vec) (mass : vec).

(** velocity, hmc.py:26-27 *)
Definition velocity (p : vec) : vec := fun i => p i / mass i.
(** leapfrog_integrator, hmc.py:38-43 *)
Definition leapfrog_integrator (step_size1 step_size2 : R) (q p : vec) : vec * vec :=
  let q := fun i => q i + step_size1 * velocity p i in
  let grads := grad q in
  let p := fun i => p i + step_size2 * grads i in
  (q, p).
(** HMC._leapfrog, hmc.py:348-372: the body of the while loop ... *)
Definition leapfrog_body (n_leapfrogs : Z) (step_size : R) (i : Z) (q p : vec) : vec * vec :=
  let step_size1 := if (0 <? i)%Z then step_size else 0 in
  let step_size2 := if (i <? n_leapfrogs)%Z && (0 <? i)%Z then step_size else step_size / 2 in
  leapfrog_integrator step_size1 step_size2 q p.
(** ... the loop, run while i < n_leapfrogs + 1 ([fuel] bounds the iterations and is
    chosen so that it never cuts the loop short) ... *)
Fixpoint leapfrog_loop (fuel : nat) (n_leapfrogs : Z) (step_size : R) (i : Z) (qp : vec * vec) : vec * vec :=
  match fuel with
  | O => qp
  | S fuel' =>
      if (i <? n_leapfrogs + 1)%Z
      then leapfrog_loop fuel' n_leapfrogs step_size (i + 1)
             (leapfrog_body n_leapfrogs step_size i (fst qp) (snd qp))
      else qp
  end.
(** ... and the call. *)
Definition leapfrog (n_leapfrogs : Z) (step_size : R) (q p : vec) : vec * vec :=
  leapfrog_loop (Z.to_nat (n_leapfrogs + 1)) n_leapfrogs step_size 0 (q, p).
(** The single step tried by the step size search, hmc.py:316-321. *)
Definition trial_step (step_size : R) (q p : vec) : vec * vec :=
  let '(q1, p1) := leapfrog_integrator 0 (step_size / 2) q p in
  leapfrog_integrator step_size (step_size / 2) q1 p1.
End Integrator.

(** ** Acceptance *)

(** Multiplication by a finite number and squaring of extended numbers. *)
Definition escale (c : R) (a : ext) : ext :=
  match a with
  | Fi x => Fi (c * x)
  | PInf => if Rlt_dec 0 c then PInf else if Rlt_dec c 0 then MInf else NaN
  | MInf => if Rlt_dec 0 c then MInf else if Rlt_dec c 0 then PInf else NaN
  | NaN => NaN
  end.
Definition esquare (a : ext) : ext :=
  match a with Fi x => Fi (x * x) | PInf | MInf => PInf | NaN => NaN end.
(** hamiltonian, hmc.py:30-35, of one chain: its log posterior and the (momentum,
    mass) pairs of its data entries. Returns the Hamiltonian and -potential. *)
Definition hamiltonian (log_posterior : ext) (pm : list (ext * R)) : ext * ext :=
  let potential := eneg log_posterior in
  let kinetic := escale (1/2) (reduce_sum (map (fun x => ediv (esquare (fst x)) (snd x)) pm)) in
  (eadd potential kinetic, eneg potential).
(** get_acceptance_rate, hmc.py:46-61, of one chain: old and new Hamiltonian and log
    probability, acceptance rate. The old log probability is the output of
    tf.check_numerics: [None] if evaluating it raises. The acceptance rate is computed from
    the Hamiltonians and does not depend on that output. *)
Definition get_acceptance_rate (old_lp : ext) (old_pm : list (ext * R)) (new_lp : ext) (new_pm : list (ext * R))
  : ext * ext * option ext * ext * ext :=
  let '(old_h, old_log_prob) := hamiltonian old_lp old_pm in
  let '(new_h, new_log_prob) := hamiltonian new_lp new_pm in
  let checked := if is_finite old_log_prob then Some old_log_prob else None in
  let acceptance_rate := eexp (emin (eadd (eneg new_h) old_h) (Fi 0)) in
  let rate := if is_finite acceptance_rate && is_finite new_log_prob then acceptance_rate else Fi 0 in
  (old_h, new_h, checked, new_log_prob, rate).

(** ** One transition of all chains: HMC.sample, hmc.py:382-522, for given mass and
    step size *)
Definition position := (nat * index)%type.
Definition state := position -> R.

Fixpoint indices (s : shape) : list index :=
  match s with
  | [] => [[]]
  | d :: s' => flat_map (fun k => map (cons k) (indices s')) (seq 0 d)
  end.

(** tf.less on extended numbers *)
Definition eltb (u : R) (a : ext) : bool :=
  match a with Fi x => if Rlt_dec u x then true else false | PInf => true | MInf | NaN => false end.
(** tf.expand_dims(t, -1) repeated [n] times, hmc.py:483-484 *)
Fixpoint expand_n {A} (n : nat) (t : tensor A) : tensor A :=
  match n with
  | O => t
  | S n' => expand_n n' (Tensor (t_shape t ++ [1%nat]) (fun i => t_at t (removelast i)))
  end.

Section Sample.
(** [chain]: the static chain shape. [data]: data shape of each latent. *)
Variables (chain : shape) (data : list shape).
Variables (log_post : state -> index -> ext) (grad : state -> state).
(** The mass of a data entry; it is the same for all chains (broadcast axes). *)
Variable mass : nat -> index -> R.

Definition full_mass : state := fun x => mass (fst x) (skipn (length chain) (snd x)).
(** random_momentum, hmc.py:21-23 *)
Definition random_momentum (noise : state) : state := fun x => noise x * sqrt (full_mass x).
(** The (momentum, mass) pairs of chain [c]: reduce_sum over the data axes of each
    latent, then add_n. *)
Definition entries : list (nat * index) :=
  flat_map (fun x => map (pair (fst x)) (indices (snd x))) (combine (seq 0 (length data)) data).
Definition momenta (p : state) (c : index) : list (ext * R) :=
  map (fun x => (Fi (p (fst x, c ++ snd x)), mass (fst x) (snd x))) entries.
Definition chain_rate (q p q' p' : state) (c : index) :=
  get_acceptance_rate (log_post q c) (momenta p c) (log_post q' c) (momenta p' c).

(** hmc.py:476-488: where(if_accept, new, old) for latent [k]. *)
Definition select_latent (if_accept : tensor bool) (ds : shape) (nq oq : tensor R) : option (tensor R) :=
  match elementwise andb (expand_n (length ds) if_accept) (ones_like true nq) with
  | Some e => Some (Tensor (t_shape nq) (fun i => if t_at e i then t_at nq i else t_at oq i))
  | None => None
  end.
Definition latent_tensor (q : state) (k : nat) (ds : shape) : tensor R := Tensor (chain ++ ds) (fun i => q (k, i)).

(** HMCInfo: the two log probabilities are [None] if fetching them raises (check_numerics;
    the other statistics, and the update itself, do not depend on it). *)
Record info := Info { i_accept : tensor bool; i_rate : tensor ext; i_samples : list (option (tensor R));
                      i_orig_log_prob : option (tensor ext); i_log_prob : option (tensor ext) }.
Definition sample_step (n_leapfrogs : Z) (step_size : R) (q noise : state) (u01 : index -> R) : info :=
  let p := random_momentum noise in
  let '(q', p') := leapfrog grad full_mass n_leapfrogs step_size q p in
  let rate c := snd (chain_rate q p q' p' c) in
  let checked := forallb (fun c => match snd (fst (fst (chain_rate q p q' p' c))) with Some _ => true | None => false end) (indices chain) in
  let if_accept := Tensor chain (fun c => eltb (u01 c) (rate c)) in
  Info if_accept (Tensor chain rate)
       (map (fun x => select_latent if_accept (snd x) (latent_tensor q' (fst x) (snd x))
                                    (latent_tensor q (fst x) (snd x)))
            (combine (seq 0 (length data)) data))
       (if checked then Some (Tensor chain (log_post q)) else None)
       (if checked then Some (Tensor chain (fun c => if t_at if_accept c then log_post q' c else log_post q c)) else None).

(** The acceptance rate of the step size search, hmc.py:316-326: mean over the chains
    of the rate of [trial_step]; the checked log probability is not used. *)
Definition trial_acceptance (q p : state) (step_size : R) : ext :=
  let '(q', p') := trial_step grad full_mass step_size q p in
  reduce_mean (map (fun c => snd (chain_rate q p q' p' c)) (indices chain)).
End Sample.

(** ** Adaptation *)

(** StepsizeTuner, hmc.py:64-112 *)
Record tuner := Tuner { tn_step : R; tn_log_epsilon_bar : R; tn_h_bar : R }.
Definition tuner0 : tuner := Tuner 0 0 0.
Section Tuner.
Variables (initial_stepsize gamma t0 kappa delta : R).
Definition mu : R := 10 * initial_stepsize.
(** tune, hmc.py:87-112: [fresh_start] is 0 or 1. Returns the new state and the step
    size. *)
Definition tune (s : tuner) (adapt : bool) (acceptance_rate : R) (fresh : bool) : tuner * R :=
  if adapt then
    let fresh_start := if fresh then 1 else 0 in
    let new_step := (1 - fresh_start) * tn_step s + 1 in
    let rate1 := 1 / (new_step + t0) in
    let new_h_bar := (1 - fresh_start) * (1 - rate1) * tn_h_bar s + rate1 * (delta - acceptance_rate) in
    let log_epsilon := mu - sqrt new_step / gamma * new_h_bar in
    let rate := Rpower new_step (- kappa) in
    let new_bar := rate * log_epsilon + (1 - fresh_start) * (1 - rate) * tn_log_epsilon_bar s in
    (Tuner new_step new_bar new_h_bar, exp log_epsilon)
  else (s, exp (tn_log_epsilon_bar s)).
End Tuner.

(** ExponentialWeightedMovingVariance, hmc.py:115-159, for one data entry; [x] lists
    the values of that entry in all chains. *)
Record ewmv := Ewmv { ew_t : nat; ew_mean : R; ew_var : R }.
Definition ewmv0 : ewmv := Ewmv 0 0 0.
Definition avg (l : list R) : R := fold_right Rplus 0 l / INR (length l).
Definition ewmv_update (decay : R) (s : ewmv) (x : list R) : ewmv :=
  let new_t := S (ew_t s) in
  let weight := (1 - decay) / (1 - decay ^ new_t) in
  let incr := map (fun q => weight * (q - ew_mean s)) x in
  let mean := ew_mean s + avg incr in
  let var := (1 - weight) * ew_var s + avg (map (fun iq => fst iq * (snd iq - mean)) (combine incr x)) in
  Ewmv new_t mean var.
(** get_precision, hmc.py:148-149 *)
Definition precision (s : ewmv) : ext := ediv (Fi 1) (ew_var s).
(** _adapt_mass, hmc.py:284-305: new moving variance and the mass used at iteration [t]. *)
Definition adapt_mass (decay : R) (mass_collect_iters : Z) (s : ewmv) (adapt : bool) (t : nat) (x : list R)
  : ewmv * ext :=
  let s' := if adapt then ewmv_update decay s x else s in
  (s', if (Z.of_nat t <? mass_collect_iters)%Z then Fi 1 else precision s').

(** _init_step_size, hmc.py:308-345: [acc eps] is the mean acceptance rate of
    [trial_step eps]. [None]: still running after [fuel] iterations. *)
Section Search.
Variables (acc : R -> R) (target : R).
Definition lessb (a b : R) : bool := if Rlt_dec a b then true else false.
Fixpoint search (fuel : nat) (step_size last_acceptance_rate : R) (cond : bool) : option R :=
  if cond then
    match fuel with
    | O => None
    | S fuel' =>
        let acceptance_rate := acc step_size in
        let new_step_size := if lessb acceptance_rate target then step_size * (1 / (3/2)) else step_size * (3/2) in
        search fuel' new_step_size acceptance_rate
          (negb (xorb (lessb last_acceptance_rate target) (lessb acceptance_rate target)))
    end
  else Some step_size.
(** The while loop returns [r]. *)
Definition init_step_size (step_size r : R) : Prop := exists fuel, search fuel step_size 1 true = Some r.
End Search.

(** The step size bookkeeping of HMC.sample over a run, hmc.py:413, 455-467, 494-498:
    iteration [t] (from 1) restarts the tuner and runs the search when [t = 1] or
    [t = mass_collect_iters]. [found] is the search result of this iteration. *)
Record adaptation := Adaptation { ad_t : nat; ad_step_size : R; ad_tuner : tuner }.
Section Run.
Variables (initial_stepsize gamma t0 kappa delta : R) (mass_collect_iters : Z).
Definition if_initialize_step_size (new_t : nat) : bool :=
  Nat.eqb new_t 1 || (Z.of_nat new_t =? mass_collect_iters)%Z.
(** Returns the new state and the step size the leapfrog uses. *)
Definition adapt_iter (s : adaptation) (adapt : bool) (found acceptance_rate : R) : adaptation * R :=
  let new_t := S (ad_t s) in
  let init := if_initialize_step_size new_t in
  let used := if init then found else ad_step_size s in
  let '(tn, eps) := tune initial_stepsize gamma t0 kappa delta (ad_tuner s) adapt acceptance_rate init in
  (Adaptation new_t eps tn, used).
Definition adaptation0 : adaptation := Adaptation 0 initial_stepsize tuner0.
End Run.

(** HMC.__init__, hmc.py:252-281: adapt_mass requires adapt_step_size ([false] is the
    ValueError), and without mass adaptation mass_collect_iters is replaced by 0. *)
Definition hmc_accepts (adapt_step_size_given adapt_mass_given : bool) : bool :=
  negb adapt_mass_given || adapt_step_size_given.
Definition effective_collect (adapt_mass_given : bool) (mass_collect_iters : Z) : Z :=
  if adapt_mass_given then mass_collect_iters else 0%Z.
(** HMC.sample, hmc.py:456-469 and 494-498: without adapt_step_size the configured step
    size is used and returned unchanged, and the increment of [t] (line 418) is not part of
    the sampling operation, which does not depend on it; with it, [adapt_iter]. *)
Definition hmc_iter (adapt_step_size_given adapt_mass_given : bool) (initial_stepsize gamma t0 kappa delta : R)
  (mass_collect_iters : Z) (s : adaptation) (adapt : bool) (found acceptance_rate : R) : adaptation * R :=
  if adapt_step_size_given then
    adapt_iter initial_stepsize gamma t0 kappa delta (effective_collect adapt_mass_given mass_collect_iters)
      s adapt found acceptance_rate
  else (s, ad_step_size s).
(** hmc.py:451-454: one entry of the mass. *)
Definition hmc_mass (adapt_mass_given : bool) (decay : R) (mass_collect_iters : Z) (s : ewmv) (adapt : bool) (t : nat) (x : list R)
  : ewmv * ext :=
  if adapt_mass_given then adapt_mass decay mass_collect_iters s adapt t x else (s, Fi 1).
