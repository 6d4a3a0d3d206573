(** The Gaussian process example: examples/gaussian_process/utils.py and the model and
    variational posterior of examples/gaussian_process/svgp.py. Matrices are functions of a row
    and a column with the extents passed separately; values are reals. Not modelled: the batched
    (rank 3) form of the kernel, which treats each batch element alike, and dtypes. *)
From Coq Require Import Reals Arith.
From Verif Require Import ModelChol.
From Coq Require Import List.
Import ListNotations.
Local Open Scope R_scope.

(** tf.nn.softplus *)
Definition softplus (a : R) : R := ln (1 + exp a).

(** RBFKernel.__init__: one scale for every covariate (utils.py:12-16). *)
Definition kernel_scale (raw : nat -> R) : nat -> R := fun c => softplus (raw c).
(** RBFKernel.__call__ on one row of x and one row of y (utils.py:18-40); d is n_covariates. *)
Definition rbf (d : nat) (raw : nat -> R) (x y : nat -> R) : R :=
  exp (- sumn d (fun c => (x c - y c) ^ 2 / kernel_scale raw c) / 2).
(** RBFKernel.Kdiag (utils.py:42-49) *)
Definition kdiag (x : nat -> nat -> R) : nat -> R := fun _ => 1.

Section conditional.
(** gp_conditional (utils.py:52-91): n_z inducing points [z], the values [fz] of one particle at
    them, the points [x]; [cholesky] stands for tf.cholesky on an n-by-n matrix. *)
Variables (cholesky : nat -> (nat -> nat -> R) -> nat -> nat -> R)
          (d : nat) (raw : nat -> R) (n_z : nat) (z : nat -> nat -> R) (fz : nat -> R)
          (x : nat -> nat -> R) (given : option (nat -> nat -> R)).
Let kernel (a b : nat -> nat -> R) (i j : nat) : R := rbf d raw (a i) (b j).
(** Kzz_chol, given or computed (utils.py:63-64) *)
Definition Kzz_chol : nat -> nat -> R :=
  match given with Some l => l | None => cholesky n_z (kernel z z) end.
(** tf.matrix_triangular_solve(Kzz_chol, tf.eye(n_z)) (utils.py:69) *)
Definition Kzz_chol_inv (r c : nat) : R :=
  nth r (fsub Kzz_chol (fun i => if Nat.eqb i c then 1 else 0) n_z) 0.
(** utils.py:70 *)
Definition Kzz_inv (i j : nat) : R := sumn n_z (fun k => Kzz_chol_inv k i * Kzz_chol_inv k j).
(** utils.py:71 *)
Definition Kxz (i j : nat) : R := kernel x z i j.
(** utils.py:72 *)
Definition Kxziz (i j : nat) : R := sumn n_z (fun k => Kxz i k * Kzz_inv k j).
(** utils.py:73 *)
Definition gp_mean (i : nat) : R := sumn n_z (fun k => fz k * Kxziz i k).
(** The covariance before its Cholesky factor is taken, full_cov=True (utils.py:76). *)
Definition gp_cov (i j : nat) : R := kernel x x i j - sumn n_z (fun k => Kxziz i k * Kxz j k).
(** The variances with full_cov=False (utils.py:85-87) and their roots (88). *)
Definition gp_var (i : nat) : R :=
  kdiag x i - sumn n_z (fun k => (sumn n_z (fun m => Kxz i m * Kzz_chol_inv k m)) ^ 2).
Definition gp_std (i : nat) : R := sqrt (gp_var i).
End conditional.

(** z_cov_tril of the variational posterior (svgp.py:80-84): matrix_band_part(raw, -1, 0) keeps
    the lower triangle, matrix_set_diag puts softplus of the diagonal. *)
Definition z_cov_tril (raw : nat -> nat -> R) (r c : nat) : R :=
  if Nat.eqb r c then softplus (raw r r) else if Nat.leb c r then raw r c else 0.
