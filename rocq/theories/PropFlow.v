(** C39, C40: normalizing flows, one row at a time. *)
From Coq Require Import Reals Lra List Lia FunctionalExtensionality.
From Coquelicot Require Import Coquelicot.
From mathcomp Require Import all_ssreflect all_algebra.
From Verif Require Import ProofRing SpecJacobian ProofJacobian ModelTensor ModelDist ModelFlow ProofFlow SpecFlow ProofFlowJac ProofFlowIAF.
From Verif Require PropHMC PropSupport.
Local Open Scope R_scope.
Set Bullet Behavior "Strict Subproofs".

(** Parameters of the right dimension, with w not the zero vector. *)
Definition planar_ok (d : nat) (p : planar_params) : Prop :=
  length (p_w p) = d /\ length (p_aux_u p) = d /\ exists x, List.In x (p_w p) /\ x <> 0.

Lemma dot_nonzero w : (exists x, List.In x w /\ x <> 0) -> dot w w <> 0.
Proof.
  move=> [x [H N]]. suff : 0 < dot w w by lra.
  elim: w H => [|a w IH] //= [->|H]; rewrite dot_cons; have := dot_pos w.
  - have : 0 < x * x by nra. lra.
  - have := IH H. nra.
Qed.

(** Whatever the free parameter aux_u, w.u > -1, so the code's assertion holds. *)
Theorem C39_constraint d p : planar_ok d p ->
  dot (p_w p) (planar_u p) = ln (1 + exp (dot (p_w p) (p_aux_u p))) - 1 /\
  -1 < dot (p_w p) (planar_u p).
Proof.
  move=> [Lw [La N]]. have L : length (p_aux_u p) = length (p_w p) by congruence.
  have N' := dot_nonzero _ N. rewrite (dot_comm (p_w p) (planar_u p)). split.
  - exact: planar_scalar.
  - exact: planar_scalar_gt.
Qed.
Print Assumptions C39_constraint.

(** The map of the documentation: z + tanh (w.z + b) u. *)
Theorem C39_layer_map d p z l : planar_ok d p -> length z = d ->
  exists z' l', planar_layer p (z, l) = Some (z', l') /\ length z' = d /\
    forall k, List.nth k z' 0 = List.nth k z 0 + tanh (dot (p_w p) z + p_b p) * List.nth k (planar_u p) 0.
Proof.
  move=> [Lw [La N]] Lz. have L : length (p_aux_u p) = length (p_w p) by congruence.
  rewrite planar_layer_eq //; last exact: dot_nonzero.
  do 2 eexists. split; [reflexivity|]. have Lu := planar_u_length p L. split.
  - rewrite axpy_length; congruence.
  - move=> k. rewrite /planar_map axpy_nth; last by congruence. by rewrite (dot_comm (p_w p) z).
Qed.
Print Assumptions C39_layer_map.

(** Each layer subtracts the log of its Jacobian determinant, which is positive. *)
Theorem C39_layer_jacobian d p (x : 'I_d -> R) l : planar_ok d p ->
  exists F J, (forall z l, length z = d -> exists l', planar_layer p (z, l) = Some (F z, l')) /\
    has_jacobian (as_map d F) x J /\ 0 < determinant J /\
    planar_layer p (coords x, l) = Some (F (coords x), l - ln (determinant J)).
Proof.
  move=> [Lw [La N]]. have L : length (p_aux_u p) = length (p_w p) by congruence.
  have N' := dot_nonzero _ N. have [J [HJ E]] := planar_jac d p x Lw La N'.
  exists (planar_map p), J. split; [|split; [|split]].
  - move=> z l' _. rewrite planar_layer_eq //. by eexists.
  - exact: HJ.
  - rewrite E. exact: planar_det_pos.
  - by rewrite planar_layer_eq // E.
Qed.
Print Assumptions C39_layer_jacobian.

(** Any number of layers: the assertions hold, the map is a bijection of R^d, and the
    returned log probability is the given one minus the log determinant of the whole
    map. *)
Theorem C39_flow d ps : List.Forall (planar_ok d) ps ->
  exists F logdet, flow d F logdet /\
    forall z l, length z = d -> planar_row ps (z, l) = Some (F z, l - logdet z).
Proof.
  elim: ps => [|p ps IH] H.
  - exists (fun z => z), (fun _ => 0). split; first exact: flow_id.
    move=> z l _ /=. by rewrite Rminus_0_r.
  - inversion H as [|? ? Hp Hps]; subst. have [F [a [HF E]]] := IH Hps.
    move: Hp => [Lw [La N]]. have L : length (p_aux_u p) = length (p_w p) by congruence.
    have N' := dot_nonzero _ N. have HP := flow_planar d p Lw La N'.
    exists (fun z => F (planar_map p z)), (fun z => ln (planar_det p z) + a (planar_map p z)).
    split; first exact: (flow_comp d (planar_map p) F).
    move=> z l Lz. rewrite /= planar_layer_eq //= E; last exact: (proj1 (proj1 HP)).
    congr (Some (_, _)). ring.
Qed.
Print Assumptions C39_flow.

Example C39_case : List.Forall (planar_ok 2) (Planar (1 :: 2 :: nil) (0 :: 1 :: nil) 3 :: Planar (0 :: -1 :: nil) (5 :: 1 :: nil) 0 :: nil).
Proof.
  apply: List.Forall_cons; last apply: List.Forall_cons; last exact: List.Forall_nil.
  - do 2 (split => //). exists 1. split; [by left|lra].
  - do 2 (split => //). exists (-1). split; [by right; left|lra].
Qed.

(** ** C40 *)

(** linear_ar: output j depends only on the inputs before j, the scales are positive,
    and both outputs are differentiable. *)
Theorem C40_linear_ar d m_w s_w :
  autoregressive d (fun z => fst (linear_ar d m_w s_w z)) /\
  autoregressive d (fun z => snd (linear_ar d m_w s_w z)) /\
  smooth d (fun z => fst (linear_ar d m_w s_w z)) /\
  smooth d (fun z => snd (linear_ar d m_w s_w z)) /\
  forall z k, (k < d)%coq_nat -> 0 < List.nth k (snd (linear_ar d m_w s_w z)) 0.
Proof.
  have L : forall w z, length (matmul_row d z w) = d by move=> w z; rewrite /matmul_row List.map_length List.seq_length.
  split; [|split; [|split; [|split]]].
  - exact: masked_autoregressive.
  - apply: autoregressive_map. exact: masked_autoregressive.
  - exact: matmul_smooth.
  - apply: (smooth_map _ _ exp exp); [by []|exact: matmul_smooth|]. exact: is_derive_exp.
  - move=> z k Hk. rewrite /= (List.nth_indep _ 0 (exp 0)); last by rewrite List.map_length L.
    rewrite List.map_nth. exact: exp_pos.
Qed.
Print Assumptions C40_linear_ar.

(** Which function it is: shift k is the combination of the inputs before k with the
    weights of column k, and the scale the exponential of such a combination with the
    other weights. *)
Theorem C40_linear_formula d m_w s_w z k : (k < d)%coq_nat ->
  List.nth k (fst (linear_ar d m_w s_w z)) 0 = sumR (List.map (fun i => List.nth i z 0 * m_w i k) (List.seq 0 k)) /\
  List.nth k (snd (linear_ar d m_w s_w z)) 0 = exp (sumR (List.map (fun i => List.nth i z 0 * s_w i k) (List.seq 0 k))).
Proof.
  move=> Hk.
  have A : forall w, List.nth k (matmul_row d z (fun i j => mask i j * w i j)) 0 = sumR (List.map (fun i => List.nth i z 0 * w i k) (List.seq 0 k)).
  { move=> w. rewrite /matmul_row (List.nth_indep _ 0 ((fun j => sumR (List.map (fun i => List.nth i z 0 * (mask i j * w i j)) (List.seq 0 d))) 0%nat)); last by rewrite List.map_length List.seq_length.
    rewrite (List.map_nth (fun j => sumR (List.map (fun i => List.nth i z 0 * (mask i j * w i j)) (List.seq 0 d)))) List.seq_nth //=. replace d with (Nat.add k (Nat.sub d k)) by Lia.lia. rewrite List.seq_app List.map_app.
    have S : forall a b, sumR (a ++ b)%list = sumR a + sumR b.
    { elim=> [|x a IH] b /=; [ring|]. rewrite /sumR /= -!/(sumR _) IH. ring. }
    rewrite S. rewrite (_ : sumR (List.map _ (List.seq (0 + k) (d - k))) = 0).
    - rewrite Rplus_0_r. congr sumR. apply: List.map_ext_in => i /List.in_seq Hi. rewrite /mask.
      have -> : Nat.ltb i k = true by apply/Nat.ltb_lt; Lia.lia. ring.
    - have G : forall l, (forall i, List.In i l -> (k <= i)%coq_nat) -> sumR (List.map (fun i => List.nth i z 0 * (mask i k * w i k)) l) = 0.
      { elim=> [|x l IH] H //=. rewrite /sumR /= -/(sumR _) IH; last by move=> i Hi; apply: H; right.
        rewrite /mask. have -> : Nat.ltb x k = false by apply/Nat.ltb_ge; apply: H; left. ring. }
      apply: G => i /List.in_seq [Hi _]. exact: Hi. }
  split; first exact: A.
  rewrite /= (List.nth_indep _ 0 (exp 0)); last by rewrite List.map_length /matmul_row List.map_length List.seq_length.
  by rewrite List.map_nth A.
Qed.
Print Assumptions C40_linear_formula.

(** An admissible network: shift and scale outputs autoregressive and differentiable;
    for update='normal' also positive scales. *)
Definition network_ok (d : nat) (u : update_name) (nn : list R -> list R * list R) : Prop :=
  autoregressive d (fun z => fst (nn z)) /\ autoregressive d (fun z => snd (nn z)) /\
  smooth d (fun z => fst (nn z)) /\ smooth d (fun z => snd (nn z)) /\
  match u with
  | Normal => forall z k, length z = d -> (k < d)%coq_nat -> 0 < List.nth k (snd (nn z)) 0
  | Gru => True
  | OtherName => False
  end.

Lemma sigmoid_derive x : is_derive sigmoid x (sigmoid x * (1 - sigmoid x)).
Proof.
  rewrite /sigmoid. have P := exp_pos (- x). auto_derive; [lra|]. field. lra.
Qed.

Lemma gru_layer d nn : network_ok d Gru nn ->
  flow d (affine (fun z => List.map sigmoid (snd (nn z)))
                 (fun z => mul_lists d (List.map (fun s => 1 - sigmoid s) (snd (nn z))) (fst (nn z))))
         (fun z => sumR (List.map ln (List.map sigmoid (snd (nn z))))).
Proof.
  move=> [Am [As [Sm [Ss _]]]].
  apply: (flow_affine d (fun z => List.map sigmoid (snd (nn z)))).
  - exact: autoregressive_map.
  - apply: autoregressive_mul => //. exact: autoregressive_map.
  - apply: (smooth_map _ _ _ (fun x => sigmoid x * (1 - sigmoid x))); [exact: (proj1 As)|by []|exact: sigmoid_derive].
  - apply: smooth_mul => //.
    apply: (smooth_map _ _ (fun s => 1 - sigmoid s) (fun x => - (sigmoid x * (1 - sigmoid x)))); [exact: (proj1 As)|by []|].
    move=> x. have -> : - (sigmoid x * (1 - sigmoid x)) = 0 - sigmoid x * (1 - sigmoid x) by ring.
    apply: (is_derive_minus (K := R_AbsRing) (V := R_NormedModule)); [exact: is_derive_const|exact: sigmoid_derive].
  - move=> z k Lz Hk. rewrite (List.nth_indep _ 0 (sigmoid 0)); last by rewrite List.map_length (proj1 As).
    rewrite List.map_nth. exact: (proj1 (PropSupport.sigmoid_range _)).
Qed.

Lemma iaf_layer_flow d u nn : network_ok d u nn ->
  exists F logdet, flow d F logdet /\
    forall z l, length z = d -> iaf_layer u nn (z, l) = (F z, l - logdet z).
Proof.
  case: u => H; last by case: H => _ [_ [_ []]].
  - case: H => [Am [As [Sm [Ss P]]]].
    have A := flow_affine d (fun z => snd (nn z)) (fun z => fst (nn z)) As Am Ss Sm P.
    exists (fun z => List.rev (affine (fun z => snd (nn z)) (fun z => fst (nn z)) z)), (fun z => sumR (List.map ln (snd (nn z))) + 0).
    split; first exact: (flow_comp d _ _ _ _ A (flow_rev d)).
    move=> z l Lz. by rewrite /iaf_layer /= Rplus_0_r.
  - have A := gru_layer d nn H. have [_ [As _]] := H.
    exists (fun z => List.rev (affine (fun z => List.map sigmoid (snd (nn z)))
                 (fun z => mul_lists d (List.map (fun s => 1 - sigmoid s) (snd (nn z))) (fst (nn z))) z)),
           (fun z => sumR (List.map ln (List.map sigmoid (snd (nn z)))) + 0).
    split; first exact: (flow_comp d _ _ _ _ A (flow_rev d)).
    move=> z l Lz. rewrite /iaf_layer /= Rplus_0_r List.map_map. congr (List.rev _, _).
    rewrite /affine. apply: List.map_ext_in => k /List.in_seq [_ Hk]. rewrite Lz in Hk.
    have Ls : length (snd (nn z)) = d by exact: (proj1 As).
    rewrite mul_nth //.
    rewrite (List.nth_indep (List.map sigmoid _) 0 (sigmoid 0)); last by rewrite List.map_length Ls.
    rewrite (List.nth_indep (List.map _ _) 0 (1 - sigmoid 0)); last by rewrite List.map_length Ls.
    by rewrite (List.map_nth sigmoid) (List.map_nth (fun s => 1 - sigmoid s)).
Qed.

(** Any number of iterations with admissible networks: the map is a bijection of R^d and
    the returned log probability is the given one minus the log of the absolute value of
    its Jacobian determinant. *)
Theorem C40_flow d u nn n iter : u <> OtherName -> (forall k, network_ok d u (nn k)) ->
  exists F logdet, flow d F logdet /\
    forall z l, length z = d -> iaf_row u nn iter n (z, l) = (F z, l - logdet z).
Proof.
  move=> _ H. elim: n iter => [|n IH] iter.
  - exists (fun z => z), (fun _ => 0). split; first exact: flow_id.
    move=> z l _ /=. by rewrite Rminus_0_r.
  - have [F [a [HF E]]] := iaf_layer_flow d u (nn iter) (H iter). have [G [b [HG E']]] := IH (S iter).
    exists (fun z => G (F z)), (fun z => a z + b (F z)). split; first exact: flow_comp.
    move=> z l Lz. rewrite /= E // E'; last exact: (proj1 (proj1 HF)). congr (_, _). ring.
Qed.
Print Assumptions C40_flow.

(** The documented updates, coordinate by coordinate, before the reversal. *)
Theorem C40_layer_map d u nn z l k : network_ok d u nn -> length z = d -> (k < d)%coq_nat ->
  let m := List.nth k (fst (nn z)) 0 in
  let s := List.nth k (snd (nn z)) 0 in
  List.nth k (List.rev (fst (iaf_layer u nn (z, l)))) 0 =
  match u with
  | Normal => s * List.nth k z 0 + m
  | Gru => sigmoid s * List.nth k z 0 + (1 - sigmoid s) * m
  | OtherName => List.nth k z 0
  end.
Proof.
  move=> H Lz Hk m s. case: u H => _; rewrite /iaf_layer /= List.rev_involutive // Lz nth_seq //.
Qed.
Print Assumptions C40_layer_map.

(** The determinant of one layer is, up to sign, the product of the scales. *)
Theorem C40_logdet d u nn (x : 'I_d -> R) l : u <> OtherName -> network_ok d u nn ->
  exists J, has_jacobian (as_map d (fun z => fst (iaf_layer u nn (z, l)))) x J /\
    Rabs (determinant J) = (\prod_(i < d) (match u with Gru => sigmoid (List.nth i (snd (nn (coords x))) 0)
                                      | _ => List.nth i (snd (nn (coords x))) 0 end))%R /\
    snd (iaf_layer u nn (coords x, l)) = l - ln (Rabs (determinant J)).
Proof.
  move=> Nu H. have [F [a [[_ HF] E]]] := iaf_layer_flow d u nn H.
  have [J [HJ [DJ EJ]]] := HF x. exists J. split; [|split].
  - apply: jac_ext HJ => y. rewrite /as_map E //. exact: coords_length.
  - have E2 := E (coords x) 0 (coords_length d x). rewrite EJ in E2.
    have [_ [As [_ [_ Ps]]]] := H. have Ls : length (snd (nn (coords x))) = d by apply: (proj1 As); exact: coords_length.
    have P : forall i : 'I_d, 0 < match u with Gru => sigmoid (List.nth i (snd (nn (coords x))) 0)
                                      | _ => List.nth i (snd (nn (coords x))) 0 end.
    { move=> i. case: u Nu Ps {E E2 H} => // _ Ps.
      - apply: Ps; [exact: coords_length|exact/ltP].
      - exact: (proj1 (PropSupport.sigmoid_range _)). }
    have [P1 P2] := ln_prod _ (index_enum _) _ P.
    apply: ln_inv => //; first exact: Rabs_pos_lt.
    rewrite P2. have := f_equal snd E2. rewrite /= /iaf_layer.
    case: u Nu {Ps E E2 H P P1 P2} => // _ /= E3.
    + rewrite -(sumR_coords d ln) coords_of //. lra.
    + rewrite -(sumR_coords d (fun x => ln (sigmoid x)) (fun i => List.nth i (snd (nn (coords x))) 0)) coords_of //. lra.
  - by rewrite E ?coords_length // EJ.
Qed.
Print Assumptions C40_logdet.

(** An update name other than 'normal' and 'gru' is not rejected: the "flow" only
    reverses the coordinates, and an even number of iterations does nothing. *)
Theorem C40_unknown_update_refuted nn n iter z l :
  iaf_row OtherName nn iter n (z, l) = (if Nat.even n then z else List.rev z, l).
Proof.
  elim: n iter z => [|n IH] iter z //.
  rewrite [LHS]/= IH. rewrite Nat.even_succ -Nat.negb_even. case: Nat.even => //=.
  by rewrite List.rev_involutive.
Qed.
Print Assumptions C40_unknown_update_refuted.

(** linear_ar is admissible for both updates, in any dimension and with any weights. *)
Theorem C40_linear_admissible d m_w s_w u : u <> OtherName -> network_ok d u (linear_ar d m_w s_w).
Proof.
  move=> N. have [A [B [C [D E]]]] := C40_linear_ar d m_w s_w.
  do 4 (split => //). case: u N => // _ z k _. exact: E.
Qed.
Print Assumptions C40_linear_admissible.
Example C40_case : exists F logdet, flow 3 F logdet /\ forall z l, length z = 3%N ->
  iaf_row Normal (fun k => linear_ar 3 (fun i j => INR (i + k)) (fun i j => INR (i * j))) 0 5 (z, l) = (F z, l - logdet z).
Proof. apply: C40_flow => // k. exact: C40_linear_admissible. Qed.
