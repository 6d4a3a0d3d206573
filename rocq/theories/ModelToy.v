(** The toy examples, examples/toy_examples: gaussian.py, mixture_sgnht.py and
    toy2d_intractable.py. Values are reals. *)
From Coq Require Import List Reals Arith.
From Verif Require Import SpecDist SpecTrain ModelExamples ModelTrain.
Import ListNotations.
Local Open Scope R_scope.

(** kde at one point [x], gaussian.py:74-85 and mixture_sgnht.py:69-80. None: the assertion
    fails, or the remainder by zero raises. *)
Definition kde (kernel_width : R) (mu : list R) (batch_size : nat) (x : R) : option R :=
  match batch_size with
  | O => None
  | _ =>
      if Nat.eqb (length mu mod batch_size) 0
      then Some (fold_left (fun ys b =>
               ys + 1 / sqrt (2 * PI) / kernel_width *
                    reduce_mean (fun m => exp (- (1 / 2) / kernel_width ^ 2 * (x - m) ^ 2)) (batch batch_size mu b))
             (seq 0 (length mu / batch_size)) 0
           / (INR (length mu) / INR batch_size))
      else None
  end.
(** The iterations of gaussian.py:51-62: whether step size and mass adapt in iteration [i] (57-58),
    and whether its sample is kept (61-62). *)
Definition gaussian_burnin (n_iters : nat) : nat := (n_iters / 2)%nat.
Definition gaussian_adapts (n_iters i : nat) : bool := Nat.ltb i (gaussian_burnin n_iters / 2).
Definition gaussian_keeps (n_iters i : nat) : bool := Nat.leb (gaussian_burnin n_iters) i.
Definition gaussian_samples {X} (n_iters : nat) (sample : nat -> list X) : list X :=
  concat (map sample (filter (gaussian_keeps n_iters) (seq 0 n_iters))).
(** log_joint, mixture_sgnht.py:30-35 *)
Definition mixture_log_joint (stdev mu1 mu2 x : R) : R :=
  let a1 := - (1 / 2) * ((x - mu1) / stdev) ^ 2 in
  let a2 := - (1 / 2) * ((x - mu2) / stdev) ^ 2 in
  let amax := Rmax a1 a2 in
  amax + ln (exp (a1 - amax) + exp (a2 - amax)).
(** Expected mean and total_stdev, mixture_sgnht.py:61, 63 *)
Definition mixture_mean (mu1 mu2 : R) : R := 1 / 2 * (mu1 + mu2).
Definition total_stdev (stdev mu1 mu2 : R) : R :=
  sqrt (stdev ^ 2 + 1 / 2 * (mu1 ^ 2 + mu2 ^ 2) - (1 / 2 * (mu1 + mu2)) ^ 2).
(** build_toy2d_intractable, toy2d_intractable.py:15-20: log joint of z1, z2 ([normal_log_prob] takes
    the log of the standard deviation). *)
Definition toy2d_log_joint (z1 z2 : R) : R :=
  normal_log_prob 0 (ln (135 / 100)) z2 + normal_log_prob 0 z2 z1.
(** The log density of the mean-field family, toy2d_intractable.py:23-30 *)
Definition mean_field_log_prob (m1 l1 m2 l2 z1 z2 : R) : R := normal_log_prob m1 l1 z1 + normal_log_prob m2 l2 z2.
(** The plotted functions, 68-77; stats.norm.pdf(x, mu, scale) is [normal_pdf mu scale x]. A
    multivariate normal with a diagonal covariance matrix is a product of normals with the
    roots of the diagonal. *)
Definition plotted_log_prob (z1 z2 : R) : R := ln (normal_pdf 0 (135 / 100) z2) + ln (normal_pdf 0 (exp z2) z1).
Definition variational_contour (m1 l1 m2 l2 z1 z2 : R) : R :=
  normal_pdf m1 (sqrt (exp l1)) z1 * normal_pdf m2 (sqrt (exp l2)) z2.
