(** Vocabulary of C63: the exact quantities behind the importance weighted estimators. *)
From Coq Require Import List Reals.
Import ListNotations.
Local Open Scope R_scope.

Definition rsum (xs : list R) : R := fold_right Rplus 0 xs.
(** The normalised weight of sample k; the logarithm of the mean weight. *)
Definition weight (xs : list R) (k : nat) : R := exp (nth k xs 0) / rsum (map exp xs).
Definition log_mean (xs : list R) : R := ln (rsum (map exp xs) / INR (length xs)).
(** The samples other than sample k. *)
Definition others (xs : list R) (k : nat) : list R := firstn k xs ++ skipn (S k) xs.
(** VIMCO's learning signal of sample k: the bound, minus the bound with the log weight of
    sample k replaced by the mean of the other log weights. *)
Definition mean_of (xs : list R) : R := rsum xs / INR (length xs).
Definition vimco_signal (xs : list R) (k : nat) : R := log_mean xs - log_mean (mean_of (others xs k) :: others xs k).
(** The surrogate cost; [es] are the values of minus log q. *)
Definition vimco_cost (xs es : list R) : R :=
  rsum (map (fun k => nth k es 0 * vimco_signal xs k) (seq 0 (length xs))) - log_mean xs.
