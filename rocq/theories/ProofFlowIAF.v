(** Autoregressive layers and the reversal. *)
From Coq Require Import Reals Lra List Lia FunctionalExtensionality.
From Coquelicot Require Import Coquelicot.
From mathcomp Require Import all_ssreflect all_algebra all_fingroup.
From Verif Require Import ProofRing SpecJacobian ProofJacobian ModelDist ModelFlow ProofFlow SpecFlow ProofFlowJac.
From Verif Require PropHMC.
Local Open Scope R_scope.
Set Bullet Behavior "Strict Subproofs".

Lemma sumR_coords d (f : R -> R) (x : 'I_d -> R) : sumR (List.map f (coords x)) = (\sum_i f (x i))%R.
Proof.
  rewrite /coords /index_enum -enumT.
  elim: (enum 'I_d) => [|a l IH]; first by rewrite big_nil.
  by rewrite big_cons /= IH.
Qed.
Lemma ln_prod (I : Type) (r : list I) (f : I -> R) : (forall i, 0 < f i) ->
  0 < (\prod_(i <- r) f i)%R /\ ln (\prod_(i <- r) f i)%R = (\sum_(i <- r) ln (f i))%R.
Proof.
  move=> H. elim: r => [|a r [IH1 IH2]].
  - rewrite !big_nil. split; [exact: Rlt_0_1|exact: ln_1].
  - rewrite !big_cons. split.
    + exact: Rmult_lt_0_compat.
    + rewrite R_mulE ln_mult // IH2 //.
Qed.

(** A component that does not depend on coordinate j has zero derivative there. *)
Lemma jac_independent d f (x : 'I_d -> R) J (i j : 'I_d) : has_jacobian (as_map d f) x J ->
  autoregressive d f -> (i <= j)%N -> J i j = R0.
Proof.
  move=> H [_ A] L. have D := PropHMC.C24_jacobian_entries _ _ _ _ _ H i j.
  have C : is_derive (fun t => as_map d f (fun k => if k == j then x k + t else x k) i) R0 R0.
  { apply: (is_derive_ext (fun _ => as_map d f x i)); last exact: is_derive_const.
    move=> t. rewrite /as_map. apply: A; try exact: coords_length; first exact/ltP.
    move=> k Hk. have Hkd : (k < d)%N by apply: (ltn_trans _ (ltn_ord i)); apply/ltP.
    have -> : k = nat_of_ord (Ordinal Hkd) by [].
    rewrite !coords_nth. case: eqP => // E. exfalso.
    have : (j < i)%N by rewrite -E /=; apply/ltP. by rewrite ltnNge L. }
  rewrite -(is_derive_unique _ _ _ D). exact: is_derive_unique.
Qed.

Definition affine (a b : list R -> list R) (z : list R) : list R :=
  List.map (fun k => List.nth k (a z) 0 * List.nth k z 0 + List.nth k (b z) 0) (List.seq 0 (length z)).
Lemma affine_length a b z : length (affine a b z) = length z.
Proof. by rewrite /affine List.map_length List.seq_length. Qed.
Lemma affine_nth a b z k : (k < length z)%coq_nat ->
  List.nth k (affine a b z) 0 = List.nth k (a z) 0 * List.nth k z 0 + List.nth k (b z) 0.
Proof.
  move=> H. rewrite /affine.
  rewrite (List.nth_indep _ 0 (List.nth 0 (a z) 0 * List.nth 0 z 0 + List.nth 0 (b z) 0)); last by rewrite List.map_length List.seq_length.
  rewrite (List.map_nth (fun k => List.nth k (a z) 0 * List.nth k z 0 + List.nth k (b z) 0)).
  by rewrite List.seq_nth.
Qed.

Definition put (j : nat) (v : R) (z : list R) : list R :=
  List.map (fun k => if Nat.eqb k j then v else List.nth k z 0) (List.seq 0 (length z)).
Lemma put_length j v z : length (put j v z) = length z.
Proof. by rewrite /put List.map_length List.seq_length. Qed.
Lemma put_nth j v z k : (k < length z)%coq_nat -> List.nth k (put j v z) 0 = if Nat.eqb k j then v else List.nth k z 0.
Proof.
  move=> H. rewrite /put.
  rewrite (List.nth_indep _ 0 ((fun k => if Nat.eqb k j then v else List.nth k z 0) 0%N)); last by rewrite List.map_length List.seq_length.
  by rewrite (List.map_nth (fun k => if Nat.eqb k j then v else List.nth k z 0)) List.seq_nth.
Qed.

Section Affine.
Variables (d : nat) (a b : list R -> list R).
Hypotheses (Aa : autoregressive d a) (Ab : autoregressive d b) (Sa : smooth d a) (Sb : smooth d b).
Hypothesis pos : forall z k, length z = d -> (k < d)%coq_nat -> 0 < List.nth k (a z) 0.

Lemma affine_inj x y : length x = d -> length y = d -> affine a b x = affine a b y -> x = y.
Proof.
  move=> Lx Ly E.
  have H : forall n k, (k < n)%coq_nat -> (k < d)%coq_nat -> List.nth k x 0 = List.nth k y 0.
  { elim=> [|n IH] k Hk Hd; first by lia.
    have B : forall i, (i < k)%coq_nat -> List.nth i x 0 = List.nth i y 0 by move=> i Hi; apply: IH; lia.
    have Ea := proj2 Aa x y k Lx Ly Hd B. have Eb := proj2 Ab x y k Lx Ly Hd B.
    have := f_equal (fun l => List.nth k l 0) E. rewrite !affine_nth ?Lx ?Ly // Ea Eb => H.
    have P := pos y k Ly Hd. apply: (Rmult_eq_reg_l (List.nth k (a y) 0)); lra. }
  apply: (List.nth_ext _ _ 0 0); first by congruence.
  move=> k Hk. apply: (H (S k)); lia.
Qed.
Lemma affine_surj y : length y = d -> exists x, length x = d /\ affine a b x = y.
Proof.
  move=> Ly.
  have H : forall n, (n <= d)%coq_nat -> exists x, length x = d /\
    forall k, (k < n)%coq_nat -> List.nth k (affine a b x) 0 = List.nth k y 0.
  { elim=> [|n IH] Hn.
    - exists y. split => // k Hk. lia.
    - have [|x [Lx Ex]] := IH; first by lia.
      pose x' := put n ((List.nth n y 0 - List.nth n (b x) 0) / List.nth n (a x) 0) x.
      have Lx' : length x' = d by rewrite /x' put_length.
      exists x'. split => // k Hk.
      have B : forall i, (i < n)%coq_nat -> List.nth i x 0 = List.nth i x' 0.
      { move=> i Hi. rewrite /x' put_nth ?Lx; last by lia. by have -> : Nat.eqb i n = false by apply/Nat.eqb_neq; lia. }
      have Hkd : (k < d)%coq_nat by lia.
      have B' : forall i, (i < k)%coq_nat -> List.nth i x 0 = List.nth i x' 0 by move=> i Hi; apply: B; lia.
      have Ea := proj2 Aa x x' k Lx Lx' Hkd B'. have Eb := proj2 Ab x x' k Lx Lx' Hkd B'.
      rewrite affine_nth ?Lx' // -Ea -Eb.
      case: (Nat.eq_dec k n) => [->|Nk].
      + rewrite /x' put_nth ?Lx; last by lia. rewrite Nat.eqb_refl.
        have P : 0 < List.nth n (a x) 0 by apply: pos; lia || by []. field. lra.
      + rewrite -B; last by lia. rewrite -affine_nth ?Lx //. apply: Ex. lia. }
  have [|x [Lx Ex]] := H d; first by [].
  exists x. split => //. apply: (List.nth_ext _ _ 0 0); first by rewrite affine_length; congruence.
  rewrite affine_length Lx. exact: Ex.
Qed.
Lemma flow_affine : flow d (affine a b) (fun z => sumR (List.map ln (a z))).
Proof.
  split; [split|].
  - move=> x <-. exact: affine_length.
  - move=> y Hy. have [x [Lx Ex]] := affine_surj y Hy. exists x. split => //.
    move=> x' Lx' E. apply: affine_inj => //. by rewrite E.
  - move=> x. have [Ja Ha] := Sa x. have [Jb Hb] := Sb x.
    pose J : 'M[R]_d := (\matrix_(i, j) ((i == j)%:R * as_map d a x i + x i * Ja i j + Jb i j))%R.
    have Pa : forall i, 0 < as_map d a x i by move=> i; apply: pos; [exact: coords_length|exact/ltP].
    have Edet : determinant J = (\prod_i as_map d a x i)%R.
    { have T : is_trig_mx J.
      { apply/is_trig_mxP => i j L. rewrite mxE.
        rewrite (jac_independent _ _ _ _ _ _ Ha Aa (ltnW L)) (jac_independent _ _ _ _ _ _ Hb Ab (ltnW L)).
        have -> : (i == j) = false by apply/eqP => E; move: L; rewrite E ltnn.
        by rewrite GRing.mul0r GRing.mulr0 !GRing.addr0. }
      rewrite det_trig //. apply: eq_bigr => i _.
      rewrite mxE (jac_independent _ _ _ _ _ _ Ha Aa (leqnn i)) (jac_independent _ _ _ _ _ _ Hb Ab (leqnn i)).
      by rewrite eqxx GRing.mul1r GRing.mulr0 !GRing.addr0. }
    have [P1 P2] := ln_prod _ (index_enum _) (as_map d a x) Pa.
    exists J. split; [|split].
    + move=> c v Hc Hv i.
      have -> : mulv J v i = (mulv Ja v i * x i + as_map d a x i * v i) + mulv Jb v i.
      { rewrite /mulv.
        have -> : (\sum_j J i j * v j = \sum_j (i == j)%:R * as_map d a x i * v j + (\sum_j x i * Ja i j * v j) + \sum_j Jb i j * v j)%R.
        { rewrite -!big_split /=. apply: eq_bigr => j _. by rewrite mxE !GRing.mulrDl. }
        rewrite !R_addE. congr (_ + _). rewrite Rplus_comm. congr (_ + _).
        - rewrite -R_mulE GRing.mulr_suml. apply: eq_bigr => j _. rewrite !R_mulE. ring.
        - rewrite (bigD1 i) //= big1 ?eqxx ?GRing.mul1r ?GRing.addr0 //.
          move=> j Hj. by rewrite eq_sym (negbTE Hj) !GRing.mul0r. }
      apply: (is_derive_ext (fun t => as_map d a (c t) i * c t i + as_map d b (c t) i)).
      { move=> t. rewrite /as_map affine_nth; last by rewrite coords_length; exact/ltP.
        by rewrite coords_nth. }
      apply: (is_derive_plus (K := R_AbsRing) (V := R_NormedModule)); last exact: Hb.
      have M := is_derive_mult (fun t => as_map d a (c t) i) (fun t => c t i) R0 _ _ (Ha c v Hc Hv i) (Hv i) Rmult_comm.
      rewrite /= Hc in M. exact: M.
    + rewrite Edet => E. rewrite E in P1. exact: (Rlt_irrefl _ P1).
    + rewrite Edet Rabs_pos_eq; last exact: Rlt_le. rewrite P2.
      rewrite -sumR_coords. congr sumR. congr List.map. symmetry. apply: coords_of.
      apply: (proj1 Aa). exact: coords_length.
Qed.
End Affine.

Lemma flow_rev d : flow d (@List.rev R) (fun _ => 0).
Proof.
  split; [split|].
  - move=> x <-. exact: List.rev_length.
  - move=> y <-. exists (List.rev y). rewrite List.rev_length List.rev_involutive. split => //.
    move=> x' _ <-. by rewrite List.rev_involutive.
  - move=> x. exists (perm_mx (perm (@rev_ord_inj d))). split; [|split].
    + move=> c v Hc Hv i.
      have -> : mulv (perm_mx (perm (@rev_ord_inj d))) v i = v (rev_ord i).
      { rewrite /mulv (bigD1 (rev_ord i)) //= big1.
        - by rewrite !mxE permE eqxx GRing.mul1r GRing.addr0.
        - move=> j Hj. by rewrite !mxE permE eq_sym (negbTE Hj) GRing.mul0r. }
      apply: is_derive_ext (Hv (rev_ord i)) => t. rewrite /as_map List.rev_nth coords_length; last exact/ltP.
      have -> : (d - S i)%coq_nat = nat_of_ord (rev_ord i) by rewrite /= minusE.
      by rewrite coords_nth.
    + rewrite det_perm. case: odd_perm; rewrite /= ?GRing.expr1 ?GRing.expr0; [rewrite R_oppE|]; rewrite R_oneE; lra.
    + rewrite det_perm. case: odd_perm; rewrite /= ?GRing.expr1 ?GRing.expr0 ?R_oppE R_oneE ?Rabs_Ropp Rabs_R1; by rewrite ln_1.
Qed.

(** ** Building blocks of the updates *)
Lemma autoregressive_map d f (g : R -> R) : autoregressive d f -> autoregressive d (fun z => List.map g (f z)).
Proof.
  move=> [L A]. split; first by move=> z H; rewrite List.map_length; exact: L.
  move=> z z' j Hz Hz' Hj B.
  rewrite (List.nth_indep _ 0 (g 0)); last by rewrite List.map_length L.
  rewrite [RHS](List.nth_indep _ 0 (g 0)); last by rewrite List.map_length L.
  by rewrite !List.map_nth (A z z').
Qed.
Lemma smooth_map d f (g g' : R -> R) : (forall z, length z = d -> length (f z) = d) -> smooth d f ->
  (forall u, is_derive g u (g' u)) -> smooth d (fun z => List.map g (f z)).
Proof.
  move=> L S D x. have [J HJ] := S x. exists (\matrix_(i, j) (g' (as_map d f x i) * J i j))%R.
  move=> c v Hc Hv i.
  have -> : mulv (\matrix_(i, j) (g' (as_map d f x i) * J i j))%R v i = mulv J v i * g' (as_map d f x i).
  { rewrite /mulv -R_mulE GRing.mulr_suml. apply: eq_bigr => j _. rewrite mxE !R_mulE. ring. }
  apply: (is_derive_ext (fun t => g (as_map d f (c t) i))).
  { move=> t. rewrite /as_map. rewrite [RHS](List.nth_indep _ 0 (g 0)); last by rewrite List.map_length L ?coords_length //; exact/ltP.
    by rewrite List.map_nth. }
  apply: (is_derive_comp g (fun t => as_map d f (c t) i)); last exact: HJ.
  rewrite Hc. exact: D.
Qed.

Definition mul_lists (d : nat) (x y : list R) : list R :=
  List.map (fun k => List.nth k x 0 * List.nth k y 0) (List.seq 0 d).
Lemma nth_seq d (f : nat -> R) k : (k < d)%coq_nat -> List.nth k (List.map f (List.seq 0 d)) 0 = f k.
Proof.
  move=> H. rewrite (List.nth_indep _ 0 (f 0%N)); last by rewrite List.map_length List.seq_length.
  by rewrite List.map_nth List.seq_nth.
Qed.
Lemma mul_nth d x y k : (k < d)%coq_nat -> List.nth k (mul_lists d x y) 0 = List.nth k x 0 * List.nth k y 0.
Proof. exact: (nth_seq d (fun k => List.nth k x 0 * List.nth k y 0)). Qed.
Lemma autoregressive_mul d f g : autoregressive d f -> autoregressive d g ->
  autoregressive d (fun z => mul_lists d (f z) (g z)).
Proof.
  move=> [_ A] [_ B]. split; first by move=> z _; rewrite /mul_lists List.map_length List.seq_length.
  move=> z z' j Hz Hz' Hj P. by rewrite !mul_nth // (A z z') // (B z z').
Qed.
Lemma smooth_mul d f g : smooth d f -> smooth d g -> smooth d (fun z => mul_lists d (f z) (g z)).
Proof.
  move=> Sf Sg x. have [J HJ] := Sf x. have [K HK] := Sg x.
  exists (\matrix_(i, j) (as_map d g x i * J i j + as_map d f x i * K i j))%R.
  move=> c v Hc Hv i.
  have -> : mulv (\matrix_(i, j) (as_map d g x i * J i j + as_map d f x i * K i j))%R v i
          = mulv J v i * as_map d g x i + as_map d f x i * mulv K v i.
  { rewrite /mulv -!R_mulE GRing.mulr_suml GRing.mulr_sumr -R_addE -big_split /=.
    apply: eq_bigr => j _. rewrite mxE !(R_addE, R_mulE). ring. }
  apply: (is_derive_ext (fun t => as_map d f (c t) i * as_map d g (c t) i)).
  { move=> t. rewrite /as_map mul_nth //. exact/ltP. }
  have M := is_derive_mult (fun t => as_map d f (c t) i) (fun t => as_map d g (c t) i) R0 _ _ (HJ c v Hc Hv i) (HK c v Hc Hv i) Rmult_comm.
  rewrite /= Hc in M. exact: M.
Qed.

(** ** linear_ar *)
Lemma seq_coords d (f : nat -> R) : List.map f (List.seq 0 d) = coords (fun i : 'I_d => f i).
Proof.
  apply: (List.nth_ext _ _ 0 0); first by rewrite coords_length List.map_length List.seq_length.
  rewrite List.map_length List.seq_length => k Hk. have Hk' : (k < d)%N by apply/ltP.
  rewrite nth_seq //. exact: (esym (coords_nth d (fun i => f i) (Ordinal Hk'))).
Qed.
Lemma sumR_seq d (f : nat -> R) : sumR (List.map f (List.seq 0 d)) = (\sum_(i < d) f i)%R.
Proof. rewrite seq_coords -(sumR_coords d (fun x => x)). by rewrite List.map_id. Qed.
Lemma masked_autoregressive d w : autoregressive d (fun z => matmul_row d z (fun i j => mask i j * w i j)).
Proof.
  split; first by move=> z _; rewrite /matmul_row List.map_length List.seq_length.
  move=> z z' j Hz Hz' Hj P. rewrite /matmul_row !nth_seq // !sumR_seq. apply: eq_bigr => i _.
  rewrite /mask. case: (Nat.ltb_spec i j) => H; first by rewrite P.
  by rewrite !Rmult_0_l !Rmult_0_r.
Qed.
Lemma matmul_smooth d w : smooth d (fun z => matmul_row d z w).
Proof.
  move=> x. exists (\matrix_(j, i) w (nat_of_ord i) (nat_of_ord j))%R => c v Hc Hv j.
  apply: (is_derive_ext (fun t => (\sum_(i < d) c t i * w i j)%R)).
  { move=> t. rewrite /as_map /matmul_row nth_seq; last exact/ltP.
    rewrite sumR_seq. apply: eq_bigr => i _. by rewrite coords_nth. }
  rewrite /mulv. have -> : (\sum_j0 (\matrix_(j1, i) w (nat_of_ord i) (nat_of_ord j1)) j j0 * v j0 = \sum_i v i * w (nat_of_ord i) (nat_of_ord j))%R.
  { apply: eq_bigr => i _. by rewrite mxE GRing.mulrC. }
  apply: derive_bigsum => i. rewrite R_mulE Rmult_comm.
  apply: (is_derive_ext (fun t => w i j * c t i)); first by move=> t; exact: Rmult_comm.
  apply: is_derive_scal. exact: Hv.
Qed.
