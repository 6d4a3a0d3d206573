(** Effective sample size (zhusuan/diagnostics.py). numpy floats are reals; [None]
    stands for NaN. *)
From Coq Require Import Reals List Arith.
From Verif Require Import ModelDist.
Import ListNotations.
Local Open Scope R_scope.

(** np.mean, np.var *)
Definition np_mean (l : list R) : R := sumR l / INR (length l).
Definition np_var (l : list R) : R := np_mean (map (fun x => (x - np_mean l) * (x - np_mean l)) l).

(** auto_covariance, diagnostics.py:29-30 *)
Definition auto_covariance (s : list R) (lag : nat) : R :=
  np_mean (map (fun p => (fst p - np_mean s) * (snd p - np_mean s))
               (combine (firstn (length s - lag) s) (skipn lag s))).

(** The loop of diagnostics.py:32-37: [fuel] iterations are left, [t] is next. *)
Fixpoint sum_rho_loop (rho : nat -> R) (fuel t : nat) (acc : R) : R :=
  match fuel with
  | 0%nat => acc
  | S fuel' => if Rlt_dec (rho t) 0 then acc else sum_rho_loop rho fuel' (S t) (acc + rho t)
  end.

(** effective_sample_size_1d, diagnostics.py:17-40. For an empty chain mean and
    variance are NaN but the loop does not run and the result is 0/1. For one sample
    n - 1 = 0, and for a constant chain var_plus = 0: every rho is NaN, comparisons
    with NaN are false, and the result is NaN. *)
Definition effective_sample_size_1d (s : list R) : option R :=
  let n := length s in
  match n with
  | 0%nat => Some 0
  | 1%nat => None
  | _ =>
      let var := np_var s * INR n / (INR n - 1) in
      let var_plus := var * (INR n - 1) / INR n in
      if Req_EM_T var_plus 0 then None
      else
        let rho t := 1 - (var - auto_covariance s t) / var_plus in
        Some (INR n / (1 + 2 * sum_rho_loop rho n 0 0))
  end.

(** Result of effective_sample_size: np.inf, a number, or an exception. *)
Inductive ess_result := EssInf | Ess (e : R) | EssIndexError | EssAssertionError.

(** The loop of diagnostics.py:57-64. np.squeeze turns a chain of one sample into a
    0-d array, whose shape[0] raises IndexError; the assertion fails on NaN. *)
Fixpoint ess_columns (columns : list (list R)) (current : option R) : ess_result :=
  match columns with
  | [] => match current with None => EssInf | Some e => Ess e end
  | c :: cs =>
      if Nat.eqb (length c) 1 then EssIndexError
      else match effective_sample_size_1d c with
           | None => EssAssertionError
           | Some e =>
               if Rlt_dec e 0 then EssAssertionError
               else if Rlt_dec 0 e
               then ess_columns cs (match current with None => Some e | Some m => Some (Rmin m e) end)
               else ess_columns cs current
           end
  end.

(** effective_sample_size, diagnostics.py:43-64: [samples] is a list of rows of length
    [dim]; [burn_in] is not negative. *)
Definition effective_sample_size (dim : nat) (samples : list (list R)) (burn_in : nat) : ess_result :=
  ess_columns (map (fun d => map (fun r => nth d r 0) (skipn burn_in samples)) (seq 0 dim)) None.
