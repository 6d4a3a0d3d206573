(** Vocabulary of C68. *)
From Coq Require Import List Reals ZArith.
From Flocq Require Import Core.
From Verif Require Import ModelExt ModelDist ModelFlow ModelFloat ModelFloatIaf SpecFloat SpecFloatFlow.
Import ListNotations.
Local Open Scope R_scope.

(** The scale by which the update multiplies an entry when the network reports [s]. *)
Definition scale (u : update_name) (s : R) : R := match u with Normal => s | Gru => sigmoid s | OtherName => 1 end.
(** An output of the network for which the logarithms of the scales are at most 2 ^ t: floats,
    as many as entries, with scales in the normal range. *)
Definition moderate (prec top t : Z) (d : nat) (u : update_name) (s : list R) : Prop :=
  length s = d /\ Forall (fun x => is_float prec top x /\ bpow radix2 (2 - top) <= scale u x /\ Rabs (ln (scale u x)) <= bpow radix2 t) s.
(** Minus the log determinant of one layer. *)
Definition log_scales (u : update_name) (s : list R) : R := fold_right Rplus 0 (map (fun x => ln (scale u x)) s).

Section Run.
Variables (prec top t : Z) (d : nat) (liblog libsigmoid : R -> R) (p : nat -> plan) (u : update_name) (nn : nat -> list ext -> list ext * list ext).
(** The rows visited by the flow: the outputs of the network are moderate at each, and the
    exact log determinants add up to [total]. *)
Inductive run : nat -> nat -> list ext * ext -> R -> Prop :=
| run_end iter zl : run iter 0 zl 0
| run_step iter n zl s total : snd (nn iter (fst zl)) = map Fi s -> moderate prec top t d u s ->
    run (S iter) n (fiaf_layer prec top liblog libsigmoid (p iter) u (nn iter) zl) total -> run iter (S n) zl (log_scales u s + total).
End Run.
(** Errors of the sum of the logarithms of one layer and of the log probability after [n]
    layers, starting from [l]. *)
Definition log_scales_error (prec t : Z) (d : nat) : R := 11 * (INR d * INR d) * unit_roundoff prec * bpow radix2 t.
Definition run_size (t : Z) (d n : nat) (l : R) : R := Rabs l + INR n * (INR d * bpow radix2 t + 2).
Definition run_error (prec t : Z) (d n : nat) (l : R) : R := log_scales_error prec t d + 5 / 4 * unit_roundoff prec * run_size t d n l.
