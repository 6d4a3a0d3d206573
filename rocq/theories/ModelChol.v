(** MultivariateNormalCholesky and MatrixVariateNormalCholesky
    (zhusuan/distributions/multivariate.py) on whole tensors, with the matrix
    operations of TensorFlow they call. Values are reals; dtype checks,
    check_numerics and gradient switches are not modelled. *)
From Coq Require Import List Arith Bool Reals.
From Verif Require Import ModelShape ModelTensor ModelDist.
Import ListNotations.
Local Open Scope R_scope.

(** ** Matrix operations of TensorFlow: the last two axes are rows and columns *)
Definition split2 (s : shape) : option (shape * nat * nat) :=
  match rev s with c :: r :: b => Some (rev b, r, c) | _ => None end.
(** The matrix of [t] at batch index [b]. *)
Definition mat (t : tensor R) (b : index) : nat -> nat -> R := fun r c => t_at t (b ++ [r; c]).
Definition at2 (f : index -> nat -> nat -> R) (i : index) : R :=
  f (removelast (removelast i)) (last (removelast i) 0%nat) (last i 0%nat).
Definition sumn (n : nat) (f : nat -> R) : R := sumR (map f (seq 0 n)).

(** tf.matmul: equal batch shapes and matching inner extents, or an error. *)
Definition matmul (x y : tensor R) : option (tensor R) :=
  match split2 (t_shape x), split2 (t_shape y) with
  | Some (bx, m, k), Some (b', k', n) =>
      if list_eq_dec Nat.eq_dec bx b' then
        if Nat.eqb k k' then
          Some (Tensor (bx ++ [m; n]) (at2 (fun b r c => sumn k (fun j => mat x b r j * mat y b j c))))
        else None
      else None
  | _, _ => None
  end.
(** Forward substitution: only the lower triangle of [L] is read. *)
Fixpoint fsub (L : nat -> nat -> R) (y : nat -> R) (n : nat) : list R :=
  match n with
  | O => []
  | S k => let xs := fsub L y k in
           xs ++ [(y k - sumn k (fun j => L k j * nth j xs 0)) / L k k]
  end.
(** tf.matrix_triangular_solve(L, Y, lower=True) *)
Definition triangular_solve (l y : tensor R) : option (tensor R) :=
  match split2 (t_shape l), split2 (t_shape y) with
  | Some (bl, m, m'), Some (b', k, n) =>
      if list_eq_dec Nat.eq_dec bl b' then
        if Nat.eqb m m' && Nat.eqb m k then
          Some (Tensor (bl ++ [m; n]) (at2 (fun b r c => nth r (fsub (mat l b) (fun i => mat y b i c) m) 0)))
        else None
      else None
  | _, _ => None
  end.
(** tf.matrix_transpose *)
Definition matrix_transpose (t : tensor R) : option (tensor R) :=
  match split2 (t_shape t) with
  | Some (b, r, c) => Some (Tensor (b ++ [c; r]) (at2 (fun b r c => mat t b c r)))
  | None => None
  end.
(** tf.matrix_diag_part *)
Definition diag_part (t : tensor R) : option (tensor R) :=
  match split2 (t_shape t) with
  | Some (b, r, c) => Some (Tensor (b ++ [Nat.min r c]) (fun i => mat t (removelast i) (last i 0%nat) (last i 0%nat)))
  | None => None
  end.
(** The local function [tile] of both _sample methods: n copies on a new first axis. *)
Definition tile0 (n : nat) (t : tensor R) : tensor R := Tensor (n :: t_shape t) (fun i => t_at t (tl i)).
(** tf.expand_dims(t, -1), tf.squeeze(t, -1) *)
Definition expand_last (t : tensor R) : tensor R := Tensor (t_shape t ++ [1%nat]) (fun i => t_at t (removelast i)).
Definition squeeze_last (t : tensor R) : option (tensor R) :=
  match rev (t_shape t) with
  | 1%nat :: b => Some (Tensor (rev b) (fun i => t_at t (i ++ [0%nat])))
  | _ => None
  end.

(** ** MultivariateNormalCholesky *)

(** __init__, multivariate.py:72-114: ranks at least 1 and 2, and
    cov_tril.shape == mean.shape + [n_dim] (static check, then tf.assert_equal). *)
Definition mvn_accepts (mean cov_tril : tensor R) : bool :=
  match t_shape mean with
  | [] => false
  | _ => if list_eq_dec Nat.eq_dec (t_shape cov_tril) (t_shape mean ++ [last (t_shape mean) 0%nat])
         then true else false
  end.
(** _sample, multivariate.py:145-166: [noise] is the standard normal tensor of the
    shape of the expanded tiled mean. *)
Definition mvn_sample (mean cov_tril : tensor R) (n_samples : nat) (noise : tensor R) : option (tensor R) :=
  let batch_mean := expand_last (tile0 n_samples mean) in
  obind (matmul (tile0 n_samples cov_tril) noise) (fun z =>
  obind (elementwise Rplus z batch_mean) squeeze_last).
Definition mvn_noise_shape (mean : tensor R) (n_samples : nat) : shape :=
  t_shape (expand_last (tile0 n_samples mean)).
(** _log_prob, multivariate.py:168-190. *)
Definition mvn_log_prob (mean cov_tril given : tensor R) : option (tensor R) :=
  let n_dim := INR (last (t_shape mean) 0%nat) in
  obind (diag_part cov_tril) (fun diag =>
  let log_det := Const 2 ⊗ Row sumR (Un ln (Leaf diag)) in
  let log_z := (Const (- n_dim) ⊘ Const 2) ⊗ Const (ln (2 * PI)) ⊖ log_det ⊘ Const 2 in
  obind (eval (Expand (Leaf given ⊖ Leaf mean))) (fun y =>
  obind (eval (bcast (Leaf cov_tril) (Leaf y))) (fun L =>
  obind (triangular_solve L y) (fun x =>
  obind (squeeze_last x) (fun x =>
  eval (log_z ⊕ Const (- (1/2)) ⊗ Row sumR (Un square (Leaf x)))))))).

(** ** MatrixVariateNormalCholesky *)

(** __init__, multivariate.py:995-1056. *)
Definition mvmn_accepts (mean u_tril v_tril : tensor R) : bool :=
  match split2 (t_shape mean) with
  | None => false
  | Some (b, r, c) =>
      (if list_eq_dec Nat.eq_dec (t_shape u_tril) (b ++ [r; r]) then true else false) &&
      (if list_eq_dec Nat.eq_dec (t_shape v_tril) (b ++ [c; c]) then true else false)
  end.
(** _sample, multivariate.py:1097-1121. *)
Definition mvmn_sample (mean u_tril v_tril : tensor R) (n_samples : nat) (noise : tensor R) : option (tensor R) :=
  obind (matmul (tile0 n_samples u_tril) noise) (fun a =>
  obind (matrix_transpose (tile0 n_samples v_tril)) (fun vt =>
  obind (matmul a vt) (fun z => elementwise Rplus mean z))).
(** _log_prob, multivariate.py:1123-1159. The two tensors of ones against which the
    factors are broadcast only carry shapes. *)
Definition mvmn_log_prob (mean u_tril v_tril given : tensor R) : option (tensor R) :=
  obind (split2 (t_shape mean)) (fun s =>
  let '(_, nr, nc) := s in
  let n_row := INR nr in let n_col := INR nc in
  obind (diag_part u_tril) (fun du =>
  obind (diag_part v_tril) (fun dv =>
  let log_det_u := Const 2 ⊗ Row sumR (Un ln (Leaf du)) in
  let log_det_v := Const 2 ⊗ Row sumR (Un ln (Leaf dv)) in
  let logZ := Un Ropp (Const n_row ⊗ Const n_col) ⊘ Const 2 ⊗ Const (ln (2 * PI))
              ⊖ Const n_row ⊘ Const 2 ⊗ log_det_v ⊖ Const n_col ⊘ Const 2 ⊗ log_det_u in
  obind (eval (Leaf given ⊖ Leaf mean)) (fun y =>
  obind (split2 (t_shape y)) (fun sy =>
  let '(wb, yr, yc) := sy in
  obind (eval (bcast (Leaf u_tril) (Leaf (Tensor (wb ++ [yr; 1%nat]) (fun _ => 1))))) (fun Lu =>
  obind (eval (bcast (Leaf v_tril) (Leaf (Tensor (wb ++ [yc; 1%nat]) (fun _ => 1))))) (fun Lv =>
  obind (triangular_solve Lu y) (fun x =>
  obind (matrix_transpose x) (fun xt =>
  obind (triangular_solve Lv xt) (fun x_t =>
  eval (logZ ⊕ Const (- (1/2)) ⊗ Row sumR (Row sumR (Un square (Leaf x_t)))))))))))))).
