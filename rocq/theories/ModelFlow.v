(** Normalizing flows (zhusuan/transform.py). The parameters (TensorFlow
    variables) and the autoregressive network are arguments. *)
From Coq Require Import Reals List Arith Bool.
From Verif Require Import ModelShape ModelTensor ModelDist.
Import ListNotations.
Local Open Scope R_scope.

(** Parameters of one planar layer, transform.py:144-156. *)
Record planar_params := Planar { p_w : list R; p_aux_u : list R; p_b : R }.

(** param_u, transform.py:157-161. *)
Definition planar_u (p : planar_params) : list R :=
  let dot_prod := dot (p_w p) (p_aux_u p) in
  map (fun uw => fst uw + snd uw / dot (p_w p) (p_w p) * (ln (exp dot_prod + 1) - 1 - dot_prod))
      (combine (p_aux_u p) (p_w p)).

(** One pass of the loop of transform.py:169-190 on one row of [z] and its entry of
    [log_probs]: [None] when the assertion fails. *)
Definition planar_layer (p : planar_params) (zl : list R * R) : option (list R * R) :=
  let u := planar_u p in
  let scalar := dot u (p_w p) in
  if Rlt_dec scalar (-1) then None
  else
    let act := tanh (dot (fst zl) (p_w p) + p_b p) in
    let det_ja := scalar * (1 - act * act) + 1 in
    Some (map (fun zu => fst zu + act * snd zu) (combine (fst zl) u), snd zl - ln det_ja).

(** The whole loop on one row. *)
Fixpoint planar_row (ps : list planar_params) (zl : list R * R) : option (list R * R) :=
  match ps with
  | [] => Some zl
  | p :: ps' => obind (planar_layer p zl) (planar_row ps')
  end.

(** linear_ar on one row, transform.py:31-67: [m_w], [s_w] are the variables. *)
Definition mask (i j : nat) : R := if Nat.ltb i j then 1 else 0.
Definition matmul_row (d : nat) (z : list R) (w : nat -> nat -> R) : list R :=
  map (fun j => sumR (map (fun i => nth i z 0 * w i j) (seq 0 d))) (seq 0 d).
Definition linear_ar (d : nat) (m_w s_w : nat -> nat -> R) (z : list R) : list R * list R :=
  (matmul_row d z (fun i j => mask i j * m_w i j),
   map exp (matmul_row d z (fun i j => mask i j * s_w i j))).

(** The [update] argument: 'normal', 'gru' or any other string. *)
Inductive update_name := Normal | Gru | OtherName.

(** One pass of the loop of inv_autoregressive_flow on one row, transform.py:277-289.
    [nn iter z] is (m, s) for a row; the network is applied to each row separately
    ([hidden], which the code only passes on, is part of [nn]). *)
Definition iaf_layer (u : update_name) (nn : list R -> list R * list R) (zl : list R * R) : list R * R :=
  let z := fst zl in
  let m := fst (nn z) in
  let s := snd (nn z) in
  let '(z', l') :=
    match u with
    | Gru => (map (fun k => sigmoid (nth k s 0) * nth k z 0 + (1 - sigmoid (nth k s 0)) * nth k m 0)
                  (seq 0 (length z)),
              snd zl - sumR (map (fun x => ln (sigmoid x)) s))
    | Normal => (map (fun k => nth k s 0 * nth k z 0 + nth k m 0) (seq 0 (length z)),
                 snd zl - sumR (map ln s))
    | OtherName => zl
    end in
  (rev z', l').
Fixpoint iaf_row (u : update_name) (nn : nat -> list R -> list R * list R) (iter n : nat)
  (zl : list R * R) : list R * R :=
  match n with
  | 0 => zl
  | S n' => iaf_row u nn (S iter) n' (iaf_layer u (nn iter) zl)
  end.

(** The shape checks, transform.py:96-132 and 230-268. Shapes not known statically
    are checked when the graph runs, so the outcome is the same for every split
    into static and dynamic information; [false] is any error. *)
Definition check_shapes (samples log_probs : shape) : bool :=
  (2 <=? length samples)%nat && (length samples =? length log_probs + 1)%nat &&
  (if list_eq_dec Nat.eq_dec (removelast samples) log_probs then true else false).

(** A function of rows applied to a matrix of rows and a vector. *)
Definition on_rows (f : list R * R -> option (list R * R)) (z l : tensor R) : option (tensor R * tensor R) :=
  match t_shape z, t_shape l with
  | [n; d], [n'] =>
      if forallb (fun r => match f (row z [r], t_at l [r]) with Some _ => true | None => false end) (seq 0 n)
      then Some (Tensor [n; d] (fun i =>
                   match f (row z (removelast i), t_at l (removelast i)) with
                   | Some r => nth (last i 0%nat) (fst r) 0 | None => 0 end),
                 Tensor [n'] (fun i =>
                   match f (row z i, t_at l i) with Some r => snd r | None => 0 end))
      else None
  | _, _ => None
  end.

(** planar_normalizing_flow, transform.py:89-198. [is_int]: the isinstance test of
    n_iters, whose value is the number of layers. *)
Definition planar_normalizing_flow (is_int : bool) (ps : list planar_params)
  (samples log_probs : tensor R) : option (tensor R * tensor R) :=
  if negb is_int then None
  else if negb (check_shapes (t_shape samples) (t_shape log_probs)) then None
  else
    let d := last (t_shape samples) 0%nat in
    obind (reshape_flat log_probs) (fun l =>
    obind (reshape_rows d samples) (fun z =>
    obind (on_rows (planar_row ps) z l) (fun zl =>
    obind (reshape (t_shape samples) (fst zl)) (fun z' =>
    obind (reshape (removelast (t_shape samples)) (snd zl)) (fun l' =>
    Some (z', l')))))).

(** inv_autoregressive_flow, transform.py:221-291. *)
Definition inv_autoregressive_flow (is_int : bool) (u : update_name)
  (nn : nat -> list R -> list R * list R) (n_iters : nat)
  (samples log_probs : tensor R) : option (tensor R * tensor R) :=
  if negb is_int then None
  else if negb (check_shapes (t_shape samples) (t_shape log_probs)) then None
  else
    Some (Tensor (t_shape samples) (fun i =>
            nth (last i 0%nat) (fst (iaf_row u nn 0 n_iters (row samples (removelast i), t_at log_probs (removelast i)))) 0),
          Tensor (t_shape log_probs) (fun i =>
            snd (iaf_row u nn 0 n_iters (row samples i, t_at log_probs i)))).
