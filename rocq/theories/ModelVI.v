(** Variational objectives: zhusuan/variational/exclusive_kl.py, monte_carlo.py,
    inclusive_kl.py, and is_loglikelihood of zhusuan/evaluation.py.

    What an optimizer does with these tensors is to differentiate them, and
    tf.stop_gradient is part of their definition, so a tensor element is a dual
    number: its value and its derivative with respect to one scalar parameter
    (the gradient is one such derivative per parameter). *)
From Coq Require Import List Arith Bool ZArith Reals.
From Verif Require Import ModelShape.
Import ListNotations.
Local Open Scope R_scope.

Record dual := Dual { val : R; tan : R }.

(** TensorFlow elementwise ops and their gradients. *)
Definition dconst (c : R) : dual := Dual c 0.
Definition dadd (a b : dual) : dual := Dual (val a + val b) (tan a + tan b).
Definition dneg (a : dual) : dual := Dual (- val a) (- tan a).
Definition dsub (a b : dual) : dual := Dual (val a - val b) (tan a - tan b).
Definition dmul (a b : dual) : dual := Dual (val a * val b) (tan a * val b + val a * tan b).
Definition ddiv (a b : dual) : dual :=
  Dual (val a / val b) ((tan a * val b - val a * tan b) / (val b * val b)).
Definition dexp (a : dual) : dual := Dual (exp (val a)) (tan a * exp (val a)).
Definition dlog (a : dual) : dual := Dual (ln (val a)) (tan a / val a).
Definition dsquare (a : dual) : dual := Dual (val a * val a) (2 * val a * tan a).
Definition stop_gradient (a : dual) : dual := Dual (val a) 0.

(** Reductions of the entries of one slice. The gradient of tf.reduce_max is
    shared equally by the entries that attain the maximum. *)
Definition dsum (l : list dual) : dual := fold_right dadd (dconst 0) l.
Definition dmean (l : list dual) : dual := ddiv (dsum l) (dconst (INR (length l))).
Definition max_val (l : list dual) : R :=
  match l with [] => 0 | x :: l' => fold_right (fun y m => Rmax (val y) m) (val x) l' end.
Definition dmax (l : list dual) : dual :=
  let top := filter (fun x => if Req_EM_T (val x) (max_val l) then true else false) l in
  Dual (max_val l) (tan (dmean top)).

(** Elementwise op on two slices of the same length. *)
Definition zip_with {A B C} (f : A -> B -> C) (x : list A) (y : list B) : list C :=
  map (fun p => f (fst p) (snd p)) (combine x y).

(** log_mean_exp, utils.py:177-196 (on finite numbers; ModelUtils.v has the
    infinities). The last reduction is over an axis of extent 1. *)
Definition log_mean_exp_keep (l : list dual) : dual :=
  dadd (dlog (dmean (map (fun x => dexp (dsub x (dmax l))) l))) (dmax l).
Definition log_mean_exp (l : list dual) : dual := dmean [log_mean_exp_keep l].

(** [tf.reduce_mean(x, axis)] when the axis is given. A list is the elements
    along the sample axis at one position of the other axes. *)
Definition mean_if (axis : bool) (l : list dual) : list dual :=
  if axis then [dmean l] else l.

(** VariationalObjective._entropy_term, base.py:177-183: minus Python's sum of
    the log probabilities of the latent nodes; None when there are none.
    Simplification: the terms have the same shape (they may broadcast). *)
Definition entropy_term (v_log_probs : list (list dual)) : option (list dual) :=
  match v_log_probs with
  | [] => None
  | x :: l => Some (map dneg (fold_left (zip_with dadd) l (map (dadd (dconst 0)) x)))
  end.

(** ** EvidenceLowerBoundObjective *)

(** _objective, exclusive_kl.py:131-137. *)
Definition elbo_objective (axis : bool) (log_joint : list dual) (entropy : option (list dual))
  : list dual :=
  let lower_bound := log_joint in
  let lower_bound := match entropy with
                     | Some e => zip_with dadd lower_bound e
                     | None => lower_bound
                     end in
  mean_if axis lower_bound.

(** sgvb, exclusive_kl.py:159. *)
Definition elbo_sgvb (axis : bool) (log_joint : list dual) (entropy : option (list dual))
  : list dual := map dneg (elbo_objective axis log_joint entropy).

(** reinforce, exclusive_kl.py:161-231, given the value [moving_mean] the
    subtraction reads. Returns the cost, the baseline cost, and the value [bc]
    given to the moving average; [None] = error (adding None to a tensor).
    Simplification: a baseline has one entry per sample. *)
Record reinforce_out := ReinforceOut {
  r_cost : list dual; r_baseline_cost : option (list dual); r_bc : option dual }.
Definition reinforce (axis variance_reduction : bool) (baseline : option (list dual))
  (moving_mean : R) (log_joint : list dual) (entropy : option (list dual))
  : option reinforce_out :=
  match entropy with
  | None => None
  | Some ent =>
      let l_signal := zip_with dadd log_joint ent in
      let '(l_signal, baseline_cost, bc) :=
        if variance_reduction then
          let '(l_signal, baseline_cost) :=
            match baseline with
            | Some b =>
                (zip_with dsub l_signal b,
                 Some (mean_if axis
                   (map (fun d => dmul (dconst (/ 2)) (dsquare d))
                        (zip_with dsub (map stop_gradient l_signal) b))))
            | None => (l_signal, None)
            end in
          (map (fun d => dsub d (dconst moving_mean)) l_signal,
           baseline_cost, Some (dmean l_signal))
        else (l_signal, None, None) in
      let cost := map dneg log_joint in
      let cost := zip_with dadd cost (zip_with dmul (map stop_gradient l_signal) ent) in
      Some (ReinforceOut (mean_if axis cost) baseline_cost bc)
  end.

(** assign_moving_average(moving_mean, bc, decay) with its default
    zero_debias=True (TensorFlow python/training/moving_averages.py), called at
    exclusive_kl.py:215-216: shadow value, number of updates, variable. *)
Record average := Average { a_biased : R; a_step : nat; a_mean : R }.
Definition average_init : average := Average 0 0 0.
Definition assign_moving_average (decay value : R) (a : average) : average :=
  let biased := a_biased a - (a_biased a - value) * (1 - decay) in
  let step := S (a_step a) in
  Average biased step (a_mean a - (a_mean a - biased / (1 - decay ^ step))).

(** One run of the reinforce cost against the moving average. The read of
    [moving_mean] at line 217 and the update of line 215 are not ordered with
    respect to each other (the control dependency of line 218 only orders the
    later identity), so TensorFlow may do either first. *)
Definition reinforce_run (read_first : bool) (axis : bool) (baseline : option (list dual))
  (decay : R) (a : average) (log_joint : list dual) (entropy : option (list dual))
  : option (reinforce_out * average) :=
  match reinforce axis true baseline 0 log_joint entropy with
  | Some o =>
      match r_bc o with
      | Some bc =>
          let a' := assign_moving_average decay (val bc) a in
          let read := if read_first then a_mean a else a_mean a' in
          match reinforce axis true baseline read log_joint entropy with
          | Some o' => Some (o', a')
          | None => None
          end
      | None => None
      end
  | None => None
  end.

(** ** ImportanceWeightedObjective *)

(** Constructor and _objective, monte_carlo.py:124-141; [None] = error (axis is
    None, or no latent variables). *)
Definition iw_objective (axis : bool) (log_joint : list dual) (entropy : option (list dual))
  : option dual :=
  if axis then
    match entropy with
    | None => None
    | Some ent => Some (log_mean_exp (zip_with dadd log_joint ent))
    end
  else None.

(** sgvb, monte_carlo.py:164. *)
Definition iw_sgvb (axis : bool) (log_joint : list dual) (entropy : option (list dual))
  : option dual := option_map dneg (iw_objective axis log_joint entropy).

(** is_loglikelihood, evaluation.py:22-54. *)
Definition is_loglikelihood (axis : bool) (log_joint : list dual) (entropy : option (list dual))
  : option dual := iw_objective axis log_joint entropy.

(** vimco, monte_carlo.py:166-227, on tensors. *)
Section Tensors.
Context {A : Type}.

(** Index [i] with [k] inserted at position [axis]. *)
Definition insert_at (axis k : nat) (i : index) : index :=
  firstn axis i ++ k :: skipn axis i.
(** The entries along [axis], at the position [i] of the other axes. *)
Definition along (axis : nat) (t : tensor A) (i : index) : list A :=
  map (fun k => t_at t (insert_at axis k i)) (seq 0 (nth axis (t_shape t) 0%nat)).
Definition drop_axis (axis : nat) (s : list nat) : list nat := firstn axis s ++ skipn (S axis) s.
Definition set_axis (axis k : nat) (s : list nat) : list nat := firstn axis s ++ k :: skipn (S axis) s.

(** Reduction over an axis, without and with keepdims. *)
Definition reduce_axis {B} (f : list A -> B) (axis : nat) (t : tensor A) : tensor B :=
  Tensor (drop_axis axis (t_shape t)) (fun i => f (along axis t i)).
Definition reduce_axis_keep {B} (f : list A -> B) (axis : nat) (t : tensor A) : tensor B :=
  Tensor (set_axis axis 1 (t_shape t)) (fun i => f (along axis t (drop_axis axis i))).

(** tf.transpose: output axis [d] is input axis [perm[d]]. *)
Fixpoint index_of (p : list nat) (d : nat) : nat :=
  match p with
  | [] => 0%nat
  | x :: p' => if Nat.eqb x d then 0%nat else S (index_of p' d)
  end.
Definition transpose (perm : list nat) (t : tensor A) : tensor A :=
  Tensor (map (fun d => nth d (t_shape t) 0%nat) perm)
         (fun i => t_at t (map (fun d => nth (index_of perm d) i 0%nat)
                               (seq 0 (length perm)))).

(** tf.tile(tf.expand_dims(x, n_dim), [1, ..., 1, K]), monte_carlo.py:210-215. *)
Definition expand_tile (k : nat) (t : tensor A) : tensor A :=
  Tensor (t_shape t ++ [k]) (fun i => t_at t (removelast i)).

(** tf.matrix_diag *)
Definition matrix_diag (zero : A) (t : tensor A) : tensor A :=
  Tensor (t_shape t ++ [last (t_shape t) 0%nat])
         (fun i => if Nat.eqb (last i 0%nat) (last (removelast i) 0%nat)
                   then t_at t (removelast i) else zero).

(** Elementwise op on tensors of the same shape. *)
Definition same_shape_op (f : A -> A -> A) (x y : tensor A) : tensor A :=
  Tensor (t_shape x) (fun i => f (t_at x i) (t_at y i)).
(** [y] has extent 1 along [axis] and is broadcast. *)
Definition keep_op_l (f : A -> A -> A) (axis : nat) (y x : tensor A) : tensor A :=
  Tensor (t_shape x) (fun i => f (t_at y (set_axis axis 0 i)) (t_at x i)).
End Tensors.

(** perm, monte_carlo.py:203-209. [axis] is the Python int; the one_hot of a
    negative index is all zeros. *)
Definition one_hot_mask (k : Z) (n : nat) : list bool :=
  map (fun d => Z.eqb k (Z.of_nat d)) (seq 0 n).
Definition where_ {X} (c : list bool) (x y : list X) : list X :=
  zip_with (fun (b : bool) p => if b then fst p else snd p) c (combine x y).
Definition vimco_perm (axis : Z) (n_dim : nat) : list Z :=
  let axis_dim_mask := one_hot_mask axis n_dim in
  let original_mask := one_hot_mask (Z.of_nat n_dim - 1) n_dim in
  let axis_dim := repeat axis n_dim in
  let originals := repeat (Z.of_nat n_dim - 1)%Z n_dim in
  let perm := where_ original_mask axis_dim (map Z.of_nat (seq 0 n_dim)) in
  where_ axis_dim_mask originals perm.

(** tf.transpose accepts exactly the permutations of 0..n-1. *)
Definition check_perm (p : list Z) : bool :=
  forallb (fun d => existsb (Z.eqb (Z.of_nat d)) p) (seq 0 (length p)).

(** The control variate of lines 197-218. *)
Definition vimco_control_variate (axis : nat) (perm : list nat) (l_signal : tensor dual)
  : tensor dual :=
  let k := nth axis (t_shape l_signal) 0%nat in
  let total := reduce_axis_keep dsum axis l_signal in
  let mean_except_signal :=
    keep_op_l (fun s x => ddiv (dsub s x) (dconst (INR k - 1))) axis total l_signal in
  let x := transpose perm l_signal in
  let sub_x := transpose perm mean_except_signal in
  let n_dim := length (t_shape l_signal) in
  let x_ex := expand_tile k x in
  let x_ex := same_shape_op dadd (same_shape_op dsub x_ex (matrix_diag (dconst 0) x))
                            (matrix_diag (dconst 0) sub_x) in
  transpose perm (reduce_axis log_mean_exp (n_dim - 1) x_ex).

(** vimco. The axis is a Python int within the rank; [None] = error. The size
    check is the same at graph construction and at run time (lines 186-195).
    Simplification: log_joint and entropy have the same shape. *)
Definition vimco (axis : Z) (log_joint : tensor dual) (entropy : option (tensor dual))
  : option (tensor dual) :=
  match entropy with
  | None => None
  | Some ent =>
      let log_w := same_shape_op dadd log_joint ent in
      let n_dim := length (t_shape log_w) in
      let ax := Z.to_nat (if (axis <? 0)%Z then axis + Z.of_nat n_dim else axis) in
      if Nat.ltb (nth ax (t_shape log_w) 0%nat) 2 then None
      else
        let perm := vimco_perm axis n_dim in
        if negb (check_perm perm) then None
        else
          let control_variate := vimco_control_variate ax (map Z.to_nat perm) log_w in
          let l_signal := keep_op_l dsub ax (reduce_axis_keep log_mean_exp_keep ax log_w)
                                    control_variate in
          let fake_term := reduce_axis dsum ax
            (same_shape_op dmul (Tensor (t_shape ent) (fun i => dneg (t_at ent i)))
                           (Tensor (t_shape l_signal) (fun i => stop_gradient (t_at l_signal i)))) in
          Some (same_shape_op dsub (Tensor (t_shape fake_term) (fun i => dneg (t_at fake_term i)))
                              (reduce_axis log_mean_exp ax log_w))
  end.

(** ** InclusiveKLObjective *)

(** The weights of importance, inclusive_kl.py:139-142. *)
Definition importance_weights (log_w : list dual) : list dual :=
  let w_u := map (fun x => dexp (dsub x (dmax log_w))) log_w in
  map (fun w => stop_gradient (ddiv w (dsum w_u))) w_u.

(** importance, inclusive_kl.py:116-151 (rws, 106-114, is the same call);
    [None] = error (no latent variables). *)
Definition klpq_importance (axis : bool) (log_joint : list dual) (entropy : option (list dual))
  : option (list dual) :=
  match entropy with
  | None => None
  | Some ent =>
      let log_w := zip_with dadd log_joint ent in
      if axis then Some [dsum (zip_with dmul (importance_weights log_w) ent)]
      else Some ent
  end.
