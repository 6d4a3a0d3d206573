(** Jacobians of the layers of normalizing flows. *)
From Coq Require Import Reals Lra List Lia FunctionalExtensionality.
From Coquelicot Require Import Coquelicot.
From mathcomp Require Import all_ssreflect all_algebra.
From Verif Require Import ProofRing SpecJacobian ProofJacobian ModelDist ModelFlow ProofFlow SpecFlow.
Local Open Scope R_scope.
Set Bullet Behavior "Strict Subproofs".

(** ** Lists and points *)
Lemma coords_length d (x : 'I_d -> R) : length (coords x) = d.
Proof. rewrite /coords List.map_length. exact: size_enum_ord. Qed.
Lemma nth_nth_error {T} (x0 a : T) : forall (l : list T) k, (k < length l)%coq_nat -> nth x0 l k = a ->
  List.nth_error l k = Some a.
Proof. elim=> [|b l IH] [|k] /=; try lia; [by move=> _ ->|]. move=> L. apply: IH. lia. Qed.
Lemma nth_enum d (i : 'I_d) : List.nth_error (enum 'I_d) i = Some i.
Proof.
  apply: (nth_nth_error i); last exact: nth_ord_enum.
  rewrite -[length _]/(size (enum 'I_d)) size_enum_ord. exact/ltP.
Qed.
Lemma coords_nth d (x : 'I_d -> R) (i : 'I_d) : List.nth i (coords x) 0 = x i.
Proof.
  rewrite /coords. apply: List.nth_error_nth. by rewrite (List.map_nth_error x _ _ (nth_enum d i)).
Qed.
Lemma coords_of d (l : list R) : length l = d -> coords (fun i : 'I_d => List.nth i l 0) = l.
Proof.
  move=> H. apply: (List.nth_ext _ _ 0 0); first by rewrite coords_length.
  rewrite coords_length => k Hk. have Hk' : (k < d)%N by apply/ltP.
  exact: (coords_nth d (fun i => List.nth i l 0) (Ordinal Hk')).
Qed.
Lemma as_map_comp d F G : (forall x, length x = d -> length (F x) = d) -> forall x,
  as_map d (fun z => G (F z)) x = as_map d G (as_map d F x).
Proof.
  move=> H x. rewrite /as_map. by rewrite (coords_of d (F (coords x))) // H // coords_length.
Qed.

Lemma det_neq_mul {n} (A B : 'M[R]_n) : determinant A <> R0 -> determinant B <> R0 -> determinant (mulmx A B) <> R0.
Proof. move=> HA HB. rewrite det_mulmx R_mulE. exact: Rmult_integral_contrapositive_currified. Qed.

(** ** Composition *)
Lemma flow_id d : flow d (fun z => z) (fun _ => 0).
Proof.
  split; [split|].
  - by [].
  - move=> y Hy. exists y. by split.
  - move=> x. exists (scalar_mx R1). split; [|split].
    + apply: (jac_ext (fun y : 'I_d -> R => y)); last exact: jac_id.
      move=> y. apply: functional_extensionality => i. by rewrite /as_map coords_nth.
    + rewrite det_scalar GRing.expr1n. exact: R1_neq_R0.
    + rewrite det_scalar GRing.expr1n R_oneE Rabs_R1. by rewrite ln_1.
Qed.
Lemma flow_comp d F G a b : flow d F a -> flow d G b -> flow d (fun z => G (F z)) (fun z => a z + b (F z)).
Proof.
  move=> [[LF BF] JF] [[LG BG] JG]. split; [split|].
  - move=> x H. by apply: LG; apply: LF.
  - move=> y Hy. have [z [[Lz Ez] Uz]] := BG y Hy. have [x [[Lx Ex] Ux]] := BF z Lz.
    exists x. split; first by rewrite Ex.
    move=> x' Lx' E. apply: Ux => //. apply: Uz => //. exact: LF.
  - move=> x. have [J [HJ [DJ EJ]]] := JF x. have [K [HK [DK EK]]] := JG (as_map d F x).
    exists (mulmx K J). split; [|split].
    + apply: (jac_ext (fun y => as_map d G (as_map d F y))); last exact: jac_comp.
      move=> y. by rewrite -as_map_comp.
    + exact: det_neq_mul.
    + have E : coords (as_map d F x) = F (coords x).
      { apply: (coords_of d (F (coords x))). apply: LF. exact: coords_length. }
      rewrite -E EJ EK det_mulmx R_mulE Rabs_mult ln_mult; [exact: Rplus_comm| |]; exact: Rabs_pos_lt.
Qed.
Lemma flow_ext d F G a b : (forall z, length z = d -> F z = G z) -> (forall z, length z = d -> a z = b z) ->
  flow d F a -> flow d G b.
Proof.
  move=> E1 E2 [[L B] J]. split; [split|].
  - move=> x H. rewrite -E1 //. exact: L.
  - move=> y Hy. have [x [[Lx Ex] U]] := B y Hy. exists x. rewrite -E1 //. split => //.
    move=> x' Lx'. rewrite -E1 //. exact: U.
  - move=> x. have [K [HK [D E]]] := J x. exists K. split; [|split] => //.
    + apply: jac_ext HK => y. rewrite /as_map E1 //. exact: coords_length.
    + rewrite -E2 //. exact: coords_length.
Qed.

(** ** Derivatives of finite sums *)
Lemma derive_bigsum {I : Type} (r : list I) (f : I -> R -> R) (f' : I -> R) t :
  (forall i, is_derive (f i) t (f' i)) ->
  is_derive (fun t => (\sum_(i <- r) f i t)%R) t (\sum_(i <- r) f' i)%R.
Proof.
  move=> H. elim: r => [|a r IH].
  - rewrite big_nil. apply: (is_derive_ext (fun _ => R0)); [by move=> s; rewrite big_nil|exact: is_derive_const].
  - rewrite big_cons. apply: (is_derive_ext (fun s => f a s + (\sum_(i <- r) f i s)%R)).
    + move=> s. by rewrite big_cons.
    + exact: (is_derive_plus (K := R_AbsRing) (V := R_NormedModule)).
Qed.
Lemma dot_coords d (x : 'I_d -> R) w : length w = d -> dot (coords x) w = (\sum_i x i * List.nth i w 0)%R.
Proof.
  move=> H. rewrite -{1}(coords_of d w H) /coords /index_enum -enumT.
  elim: (enum 'I_d) => [|a l IH]; first by rewrite big_nil.
  by rewrite big_cons /= dot_cons IH.
Qed.

(** ** det (1 + u v) = 1 + v u *)
Lemma det_rank1 {n} (u : 'cV[R]_n) (v : 'rV[R]_n) :
  determinant (scalar_mx R1 + u *m v)%R = (R1 + (v *m u) ord0 ord0)%R.
Proof.
  pose L : 'M[R]_(n + 1) := block_mx (scalar_mx R1) (GRing.zero _) v (scalar_mx R1).
  pose M : 'M[R]_(n + 1) := block_mx (scalar_mx R1 + u *m v)%R u (GRing.zero _) (scalar_mx R1).
  pose L' : 'M[R]_(n + 1) := block_mx (scalar_mx R1) (GRing.zero _) (- v)%R (scalar_mx R1).
  have E : (L *m M *m L')%R = block_mx (scalar_mx R1) u (GRing.zero _) (scalar_mx R1 + v *m u)%R.
  { rewrite /L /M /L' !mulmx_block.
    rewrite !mulmx0 !mul0mx !mul1mx !mulmx1 !GRing.addr0 !GRing.add0r.
    congr block_mx.
    - by rewrite mulmxN GRing.addrK.
    - rewrite mulmxN mulmxDr mulmx1 mulmxDl mul1mx mulmxA [X in (_ - X)%R]GRing.addrC.
      by rewrite GRing.subrr.
    - by rewrite GRing.addrC. }
  have D := f_equal (fun A => determinant A) E.
  rewrite /= !det_mulmx /L /M /L' !det_lblock !det_ublock !det_scalar !GRing.expr1n !GRing.mul1r !GRing.mulr1 in D.
  rewrite D. by rewrite det_mx11 !mxE eqxx.
Qed.

(** ** Planar layers *)
Lemma axpy_nth c : forall (z u : list R) k, length z = length u ->
  List.nth k (List.map (fun zu => fst zu + c * snd zu) (List.combine z u)) 0 = List.nth k z 0 + c * List.nth k u 0.
Proof.
  elim=> [|a z IH] [|b u] k //= H.
  - case: k => [|k]; ring.
  - case: k => [|k] //. apply: IH. lia.
Qed.
Lemma planar_jac d p (x : 'I_d -> R) : length (p_w p) = d -> length (p_aux_u p) = d -> dot (p_w p) (p_w p) <> 0 ->
  exists J, has_jacobian (as_map d (planar_map p)) x J /\ determinant J = planar_det p (coords x).
Proof.
  move=> Lw La N. have L : length (p_aux_u p) = length (p_w p) by congruence.
  have Lu := planar_u_length p L.
  pose u := planar_u p. pose w := p_w p.
  pose th := tanh (dot (coords x) w + p_b p). pose k := 1 - th * th.
  pose U : 'cV[R]_d := (\matrix_(i, j) (k * List.nth i u 0))%R.
  pose V : 'rV[R]_d := (\matrix_(i, j) (List.nth j w 0))%R.
  have Huw : dot u w = (\sum_(i < d) List.nth i u 0 * List.nth i w 0)%R.
  { have Lud : length u = d by rewrite /u; congruence. rewrite -{1}(coords_of d u Lud). exact: dot_coords. }
  have Edet : determinant (scalar_mx R1 + U *m V)%R = planar_det p (coords x).
  { rewrite det_rank1 /planar_det -/u -/w -/th -/k Huw R_addE Rplus_comm. congr (_ + _).
    rewrite mxE -R_mulE GRing.mulr_suml. apply: eq_bigr => i _. rewrite !mxE !R_mulE. ring. }
  exists (scalar_mx R1 + U *m V)%R. split; [|exact: Edet].
  { move=> c v Hc Hv i.
    have -> : mulv (scalar_mx R1 + U *m V)%R v i = v i + (\sum_j v j * List.nth j w 0)%R * k * List.nth i u 0.
    { have -> : mulv (scalar_mx R1 + U *m V)%R v i = mulv (scalar_mx R1 : 'M[R]_d) v i + mulv (U *m V)%R v i.
      { rewrite /mulv -R_addE -big_split /=. apply: eq_bigr => j _. by rewrite mxE GRing.mulrDl. }
      rewrite mulv1. congr (_ + _). rewrite Rmult_assoc -!R_mulE GRing.mulr_suml /mulv.
      apply: eq_bigr => j _. rewrite !mxE big_ord_recl big_ord0 GRing.addr0 !mxE !R_mulE. ring. }
    apply: (is_derive_ext (fun t => c t i + tanh ((\sum_j c t j * List.nth j w 0)%R + p_b p) * List.nth i u 0)).
    { move=> t. rewrite /as_map /planar_map axpy_nth ?coords_length; last by congruence.
      by rewrite coords_nth dot_coords. }
    apply: (is_derive_plus (K := R_AbsRing) (V := R_NormedModule)); first exact: Hv.
    have D : is_derive (fun t => tanh ((\sum_j c t j * List.nth j w 0)%R + p_b p)) R0 ((\sum_j v j * List.nth j w 0)%R * k).
    { have S : is_derive (fun t => (\sum_j c t j * List.nth j w 0)%R + p_b p) R0 (\sum_j v j * List.nth j w 0)%R.
      { have S1 : is_derive (fun t => (\sum_j c t j * List.nth j w 0)%R) R0 (\sum_j v j * List.nth j w 0)%R.
        { apply: derive_bigsum => j. rewrite R_mulE Rmult_comm.
          apply: (is_derive_ext (fun t => List.nth j w 0 * c t j)); first by move=> t; exact: Rmult_comm.
          apply: is_derive_scal. exact: Hv. }
        move: S1. move: (\sum_j v j * List.nth j w 0)%R => sv S1.
        have -> : sv = plus sv zero by rewrite plus_zero_r.
        apply: (is_derive_plus (K := R_AbsRing) (V := R_NormedModule)); [exact: S1|exact: is_derive_const]. }
      have E0 : (\sum_j c R0 j * List.nth j w 0)%R + p_b p = dot (coords x) w + p_b p by rewrite Hc dot_coords.
      apply: (is_derive_comp tanh (fun t => (\sum_j c t j * List.nth j w 0)%R + p_b p)) S.
      rewrite E0. exact: derive_tanh. }
    rewrite Rmult_comm.
    apply: (is_derive_ext (fun t => List.nth i u 0 * tanh ((\sum_j c t j * List.nth j w 0)%R + p_b p)));
      first by move=> t; exact: Rmult_comm.
    exact: is_derive_scal. }
Qed.
Lemma flow_planar d p : length (p_w p) = d -> length (p_aux_u p) = d -> dot (p_w p) (p_w p) <> 0 ->
  flow d (planar_map p) (fun z => ln (planar_det p z)).
Proof.
  move=> Lw La N. have L : length (p_aux_u p) = length (p_w p) by congruence.
  have Lu := planar_u_length p L. split; [split|].
  - move=> x H. rewrite /planar_map axpy_length; congruence.
  - move=> y Hy. rewrite -Lw in Hy. have [x [Lx Ex]] := planar_surj p y L N Hy.
    exists x. split; first by split => //; congruence.
    move=> x' Lx' E. apply: (planar_inj p) => //; congruence.
  - move=> x. have [J [HJ E]] := planar_jac d p x Lw La N. have P := planar_det_pos p (coords x) L N.
    exists J. rewrite E. split; [|split] => //.
    + move=> H0. rewrite H0 in P. exact: (Rlt_irrefl _ P).
    + rewrite Rabs_pos_eq //. exact: Rlt_le.
Qed.
