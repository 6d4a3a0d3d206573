(** zhusuan/transform.py, linear_ar and inv_autoregressive_flow, in floating-point
    arithmetic, on one row (as ModelFlow.v). Inner products are those of ModelFloatFlow.v. *)
From Coq Require Import List Arith Bool Reals ZArith.
From Flocq Require Import Core.
From Verif Require Import ModelExt ModelSpecial ModelNum ModelFlow ModelFloat ModelFloatSample ModelFloatFlow.
Import ListNotations.
Local Open Scope R_scope.

Section Format.
Variables prec top : Z.
Variables libexp liblog libsigmoid : R -> R.
Notation fadd := (fadd prec top).
Notation fsub := (fsub prec top).
Notation fmul := (fmul prec top).
(** linear_ar, transform.py:31-67: the mask of lines 39-45, mask * m_w and tf.matmul(z, m_w)
    of 57-61 ([p j] is how entry [j] is added up), tf.exp of 63. *)
Definition fmask (i j : nat) : ext := if Nat.ltb i j then Fi 1 else Fi 0.
Definition fmatmul_row (p : nat -> plan) (d : nat) (z : list ext) (w : nat -> nat -> ext) : list ext :=
  map (fun j => fdot prec top (p j) z (map (fun i => fmul (fmask i j) (w i j)) (seq 0 d))) (seq 0 d).
Definition flinear_ar (pm ps : nat -> plan) (d : nat) (m_w s_w : nat -> nat -> ext) (z : list ext) : list ext * list ext :=
  (fmatmul_row pm d z m_w, map (feexp top libexp) (fmatmul_row ps d z s_w)).

(** One pass of the loop of inv_autoregressive_flow, transform.py:277-289; [p] is how
    tf.reduce_sum adds up the logarithms. *)
Definition fiaf_layer (p : plan) (u : update_name) (nn : list ext -> list ext * list ext) (zl : list ext * ext) : list ext * ext :=
  let z := fst zl in
  let m := fst (nn z) in
  let s := snd (nn z) in
  let '(z', l') :=
    match u with
    | Gru =>
        let sigma := map (fsigmoid top libsigmoid) s in
        (map (fun k => fadd (fmul (nth k sigma NaN) (nth k z NaN)) (fmul (fsub (Fi 1) (nth k sigma NaN)) (nth k m NaN))) (seq 0 (length z)),
         fsub (snd zl) (fsum prec top p (map (felog top liblog) sigma)))
    | Normal =>
        (map (fun k => fadd (fmul (nth k s NaN) (nth k z NaN)) (nth k m NaN)) (seq 0 (length z)),
         fsub (snd zl) (fsum prec top p (map (felog top liblog) s)))
    | OtherName => zl
    end in
  (rev z', l').
Fixpoint fiaf_row (p : nat -> plan) (u : update_name) (nn : nat -> list ext -> list ext * list ext) (iter n : nat)
  (zl : list ext * ext) : list ext * ext :=
  match n with
  | 0 => zl
  | S n' => fiaf_row p u nn (S iter) n' (fiaf_layer (p iter) u (nn iter) zl)
  end.
End Format.
