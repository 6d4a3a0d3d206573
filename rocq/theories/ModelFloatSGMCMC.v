(** The stochastic-gradient samplers in floating-point arithmetic (zhusuan/sgmcmc.py).
    Formats and operations are those of ModelFloat.v, ModelFloatSample.v and
    ModelFloatTune.v. *)
From Coq Require Import List Arith Bool Reals ZArith.
From Flocq Require Import Core.
From Verif Require Import ModelExt ModelSpecial ModelNum ModelFloat ModelFloatSample ModelFloatTune.
Import ListNotations.
Local Open Scope R_scope.

(** All entries of all latents in one vector: the updates of different latents are
    independent except through the gradient, which is a function of all of them, and the
    mean kinetic energy of SGNHT with a scalar friction, which is not modelled here. *)
Definition vec := nat -> ext.

Section Format.
Variables prec top : Z.
Notation fadd := (fadd prec top).
Notation fsub := (fsub prec top).
Notation fmul := (fmul prec top).
Notation fdiv := (fdiv prec top).
Notation fsqrt := (fsqrt prec top).
(** exp, and the square computed by tf.pow(x, 2), of finite numbers. *)
Variables libexp libsquare : R -> R.
Definition fsquare (a : ext) : ext :=
  match a with Fi x => overflow top (libsquare x) | PInf | MInf => PInf | NaN => NaN end.
(** tf.random_normal(shape, stddev=s): a standard normal number times s (the mean 0 that
    is added changes nothing). *)
Definition random_normal (z stddev : ext) : ext := fmul z stddev.

(** What an iteration takes from outside: the learning rate (possibly fed), the gradient
    function of the current minibatch, the standard normal numbers of the update, and for
    SGHMC and SGNHT those of a resampled momentum, if this iteration resamples (C31 says
    which ones do). *)
Record step_input := StepInput { s_lr : ext; s_grad : vec -> vec; s_normal : vec; s_resample : option vec }.

(** ** SGLD._update_single, sgmcmc.py:195-200 *)
Definition fsgld (q : vec) (x : step_input) : vec := fun i =>
  fadd (fadd (q i) (fmul (fmul (Fi (1/2)) (s_lr x)) (s_grad x q i))) (random_normal (s_normal x i) (fsqrt (s_lr x))).
Definition fsgld_run (q : vec) (xs : list step_input) : vec := fold_left fsgld xs q.

(** ** PSGLD, sgmcmc.py:219-257. [decay1] is the float nearest to the Python number
    1 - decay. *)
Section PSGLD.
Variables decay decay1 epsilon : ext.
(** _define_variables, 225-226 *)
Definition faux0 : vec := fun _ => Fi 0.
(** _get_preconditioner, 229-231: the new auxiliary variable and the preconditioner *)
Definition frms (aux grad : ext) : ext := fadd (fmul decay aux) (fmul decay1 (fsquare grad)).
Definition fpreconditioner (aux : ext) : ext := fdiv (Fi 1) (fadd epsilon (fsqrt aux)).
(** _update_single, 250-257 *)
Definition fpsgld (s : vec * vec) (x : step_input) : vec * vec :=
  let '(q, aux) := s in
  let aux' := fun i => frms (aux i) (s_grad x q i) in
  let g := fun i => fpreconditioner (aux' i) in
  (fun i => fadd (fadd (q i) (fmul (fmul (fmul (Fi (1/2)) (s_lr x)) (g i)) (s_grad x q i)))
                 (random_normal (s_normal x i) (fsqrt (fmul (s_lr x) (g i)))),
   aux').
Definition fpsgld_run (s : vec * vec) (xs : list step_input) : vec * vec := fold_left fpsgld xs s.
End PSGLD.

(** ** The momentum of SGHMC and SGNHT, sgmcmc.py:320-338, 448-474 *)
Definition fmomentum0 (lr : ext) (z : vec) : vec := fun i => random_normal (z i) (fsqrt lr).
Definition fold_v (v : vec) (x : step_input) : vec :=
  match s_resample x with Some z => fmomentum0 (s_lr x) z | None => v end.

(** ** SGHMC._update, sgmcmc.py:326-371 *)
Section SGHMC.
Variables (alpha beta : ext) (second_order : bool).
Definition fsghmc (s : vec * vec) (x : step_input) : vec * vec :=
  let '(q, v) := s in
  let old_v := fold_v v x in
  let gaussian_term i := random_normal (s_normal x i) (fsqrt (fmul (fmul (Fi 2) (fsub alpha beta)) (s_lr x))) in
  if negb second_order then
    let new_v := fun i => fadd (fadd (fmul (fsub (Fi 1) alpha) (old_v i)) (fmul (s_lr x) (s_grad x q i))) (gaussian_term i) in
    (fun i => fadd (q i) (new_v i), new_v)
  else
    let decay_half := feexp top libexp (fmul (Fi (-1/2)) alpha) in
    let q1 := fun i => fadd (q i) (fmul (Fi (1/2)) (old_v i)) in
    let new_v := fun i => fmul decay_half (fadd (fadd (fmul decay_half (old_v i)) (fmul (s_lr x) (s_grad x q1 i))) (gaussian_term i)) in
    (fun i => fadd (q1 i) (fmul (Fi (1/2)) (new_v i)), new_v).
Definition fsghmc_run (s : vec * vec) (xs : list step_input) : vec * vec := fold_left fsghmc xs s.
End SGHMC.

(** ** SGNHT._update with use_vector_alpha, sgmcmc.py:460-523: position, momentum, friction *)
Section SGNHT.
Variables (a tune_rate : ext) (second_order : bool).
Definition fsgnht (s : vec * vec * vec) (x : step_input) : vec * vec * vec :=
  let '(q, v, alpha) := s in
  let old_v := fold_v v x in
  let gaussian_term i := random_normal (s_normal x i) (fsqrt (fmul (fmul (Fi 2) a) (s_lr x))) in
  if negb second_order then
    let new_v := fun i => fadd (fadd (fmul (fsub (Fi 1) (alpha i)) (old_v i)) (fmul (s_lr x) (s_grad x q i))) (gaussian_term i) in
    (fun i => fadd (q i) (new_v i), new_v,
     fun i => fadd (alpha i) (fmul tune_rate (fsub (fsquare (new_v i)) (s_lr x))))
  else
    let q1 := fun i => fadd (q i) (fmul (Fi (1/2)) (old_v i)) in
    let alpha1 := fun i => fadd (alpha i) (fmul (fmul (Fi (1/2)) tune_rate) (fsub (fsquare (old_v i)) (s_lr x))) in
    let decay_half := fun i => feexp top libexp (fmul (Fi (-1/2)) (alpha1 i)) in
    let new_v := fun i => fmul (decay_half i) (fadd (fadd (fmul (decay_half i) (old_v i)) (fmul (s_lr x) (s_grad x q1 i))) (gaussian_term i)) in
    (fun i => fadd (q1 i) (fmul (Fi (1/2)) (new_v i)), new_v,
     fun i => fadd (alpha1 i) (fmul (fmul (Fi (1/2)) tune_rate) (fsub (fsquare (new_v i)) (s_lr x)))).
Definition fsgnht_run (s : vec * vec * vec) (xs : list step_input) : vec * vec * vec := fold_left fsgnht xs s.
End SGNHT.
End Format.
