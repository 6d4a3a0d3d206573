(** zhusuan/diagnostics.py, the effective sample size, in floating-point arithmetic. The
    samples are an array of the format (np.float64; with np.float32 numpy mixes two
    formats, not modelled), the integers n, n - 1, 1 and 2 are converted to it exactly.
    Formats, operations and plans of reductions are those of ModelFloat.v and
    ModelFloatSample.v. *)
From Coq Require Import List Arith Bool Reals ZArith.
From Flocq Require Import Core.
From Verif Require Import ModelExt ModelNum ModelFloat ModelFloatSample.
Import ListNotations.
Local Open Scope R_scope.

(** How numpy adds up: in np.mean(samples), in the mean and in the sum of squares of
    np.var(samples), and in the mean of auto_covariance(lag). *)
Record reductions := Reductions { p_mean : plan; p_var_mean : plan; p_var : plan; p_lag : nat -> plan }.

Section Format.
Variables prec top : Z.
Notation fadd := (fadd prec top).
Notation fsub := (fsub prec top).
Notation fmul := (fmul prec top).
Notation fdiv := (fdiv prec top).
(** np.mean *)
Definition fmean (p : plan) (l : list ext) : ext := fdivn prec top (fsum prec top p l) (length l).
(** np.var (numpy/core/_methods.py _var) *)
Definition fnp_var (p p' : plan) (s : list ext) : ext :=
  fmean p' (map (fun x => fmul (fsub x (fmean p s)) (fsub x (fmean p s))) s).
(** auto_covariance, diagnostics.py:29-30 *)
Definition fauto_covariance (p : plan) (mu_hat : ext) (s : list ext) (lag : nat) : ext :=
  fmean p (map (fun q => fmul (fsub (fst q) mu_hat) (fsub (snd q) mu_hat)) (combine (firstn (length s - lag) s) (skipn lag s))).
(** rho, diagnostics.py:24-27, 34 *)
Definition fvar (k : reductions) (s : list ext) : ext :=
  fdiv (fmul (fnp_var (p_var_mean k) (p_var k) s) (Fi (INR (length s)))) (Fi (INR (length s) - 1)).
Definition fvar_plus (k : reductions) (s : list ext) : ext :=
  fdiv (fmul (fvar k s) (Fi (INR (length s) - 1))) (Fi (INR (length s))).
Definition frho (k : reductions) (s : list ext) (t : nat) : ext :=
  fsub (Fi 1) (fdiv (fsub (fvar k s) (fauto_covariance (p_lag k t) (fmean (p_mean k) s) s t)) (fvar_plus k s)).
(** The loop of diagnostics.py:32-37, as in ModelDiag.v; a comparison with NaN is false. *)
Fixpoint fsum_rho_loop (rho : nat -> ext) (fuel t : nat) (acc : ext) : ext :=
  match fuel with
  | O => acc
  | S fuel' => if eltb (rho t) (Fi 0) then acc else fsum_rho_loop rho fuel' (S t) (fadd acc (rho t))
  end.
(** effective_sample_size_1d, diagnostics.py:17-40 *)
Definition fess_1d (k : reductions) (s : list ext) : ext :=
  fdiv (Fi (INR (length s))) (fadd (Fi 1) (fmul (Fi 2) (fsum_rho_loop (frho k s) (length s) 0 (Fi 0)))).

(** effective_sample_size, diagnostics.py:43-64; see ModelDiag.v for the exceptions. Each
    column comes with the reductions numpy makes for it. *)
Inductive fess_result := FEss (e : ext) | FEssIndexError | FEssAssertionError.
Fixpoint fess_columns (columns : list (reductions * list ext)) (current : ext) : fess_result :=
  match columns with
  | [] => FEss current
  | (k, c) :: cs =>
      if Nat.eqb (length c) 1 then FEssIndexError
      else let ess := fess_1d k c in
           if eltb ess (Fi 0) || match ess with NaN => true | _ => false end then FEssAssertionError
           else if eltb (Fi 0) ess then fess_columns cs (if eltb ess current then ess else current)
           else fess_columns cs current
  end.
Definition fess (plans : nat -> reductions) (dim : nat) (samples : list (list ext)) (burn_in : nat) : fess_result :=
  fess_columns (map (fun d => (plans d, map (fun r => nth d r (Fi 0)) (skipn burn_in samples))) (seq 0 dim)) PInf.
End Format.
