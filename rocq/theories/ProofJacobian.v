(** Calculus of Jacobians: chain rule, shears, determinants. *)
From Coq Require Import Reals Lra FunctionalExtensionality.
From Coquelicot Require Import Coquelicot.
From mathcomp Require Import all_ssreflect all_algebra.
From Verif Require Import ProofRing SpecJacobian.
Local Open Scope R_scope.

Lemma mulv_mul m n k (A : 'M[R]_(m, n)) (B : 'M[R]_(n, k)) v : mulv (mulmx A B) v = mulv A (mulv B v).
Proof.
  apply: functional_extensionality => i. rewrite /mulv.
  under eq_bigr => j _ do rewrite mxE GRing.mulr_suml.
  rewrite exchange_big /=. apply: eq_bigr => j _. rewrite GRing.mulr_sumr.
  apply: eq_bigr => l _. by rewrite GRing.mulrA.
Qed.
Lemma mulv1 n (v : 'I_n -> R) : mulv (scalar_mx R1 : 'M[R]_n) v = v.
Proof.
  apply: functional_extensionality => i. rewrite /mulv (bigD1 i) //= big1.
  - rewrite mxE eqxx GRing.mulr1n R_addE R_zeroE R_mulE. ring.
  - move=> j Hj. rewrite mxE eq_sym (negbTE Hj) GRing.mulr0n R_mulE R_zeroE. ring.
Qed.

Lemma jac_comp {m n k} (F : ('I_n -> R) -> 'I_m -> R) (G : ('I_m -> R) -> 'I_k -> R) x J K :
  has_jacobian F x J -> has_jacobian G (F x) K -> has_jacobian (fun x => G (F x)) x (mulmx K J).
Proof.
  move=> HF HG c v Hc Hv. rewrite mulv_mul. apply: (HG (fun t => F (c t))).
  - by rewrite Hc.
  - exact: HF.
Qed.
Lemma jac_id n x : has_jacobian (fun y : 'I_n -> R => y) x (scalar_mx R1).
Proof. move=> c v Hc Hv. by rewrite mulv1. Qed.
Lemma jac_ext {m n} (F G : ('I_n -> R) -> 'I_m -> R) x J : (forall y, F y = G y) -> has_jacobian F x J -> has_jacobian G x J.
Proof. move=> E. by have -> : F = G by apply: functional_extensionality. Qed.

Lemma pair_up_l {d e} (a : 'I_d -> R) (b : 'I_e -> R) k : pair_up a b (lshift e k) = a k.
Proof. by rewrite /pair_up (unsplitK (inl k)). Qed.
Lemma pair_up_r {d e} (a : 'I_d -> R) (b : 'I_e -> R) k : pair_up a b (rshift d k) = b k.
Proof. by rewrite /pair_up (unsplitK (inr k)). Qed.
Lemma first_pair {d e} (a : 'I_d -> R) (b : 'I_e -> R) : first_half (pair_up a b) = a.
Proof. apply: functional_extensionality => k. exact: pair_up_l. Qed.
Lemma second_pair {d e} (a : 'I_d -> R) (b : 'I_e -> R) : second_half (pair_up a b) = b.
Proof. apply: functional_extensionality => k. exact: pair_up_r. Qed.
Lemma pair_halves {d e} (x : 'I_(d + e) -> R) : pair_up (first_half x) (second_half x) = x.
Proof. apply: functional_extensionality => k. rewrite /pair_up /first_half /second_half. by case: split_ordP => j ->. Qed.

Lemma mulv_block {d e} (A : 'M[R]_d) (B : 'M[R]_(d, e)) (C : 'M[R]_(e, d)) (D : 'M[R]_e) v :
  mulv (block_mx A B C D) v =
  pair_up (fun i => mulv A (first_half v) i + mulv B (second_half v) i)
          (fun i => mulv C (first_half v) i + mulv D (second_half v) i).
Proof.
  apply: functional_extensionality => i. rewrite /mulv big_split_ord /=.
  case: (split_ordP i) => k ->.
  - rewrite pair_up_l. congr (_ + _); apply: eq_bigr => j _; by rewrite ?block_mxEul ?block_mxEur.
  - rewrite pair_up_r. congr (_ + _); apply: eq_bigr => j _; by rewrite ?block_mxEdl ?block_mxEdr.
Qed.
Lemma mulv0 m n (v : 'I_n -> R) : mulv (GRing.zero (matrix_zmodType R_zmodType m n)) v = (fun _ => 0).
Proof.
  apply: functional_extensionality => i. rewrite /mulv big1 // => j _. rewrite mxE R_mulE R_zeroE. exact: Rmult_0_l.
Qed.

Lemma velocity_half1 {d e} (c : R -> 'I_(d + e) -> R) v : velocity_at_0 c v ->
  velocity_at_0 (fun t => first_half (c t)) (first_half v).
Proof. move=> H k. exact: H. Qed.
Lemma velocity_half2 {d e} (c : R -> 'I_(d + e) -> R) v : velocity_at_0 c v ->
  velocity_at_0 (fun t => second_half (c t)) (second_half v).
Proof. move=> H k. exact: H. Qed.
Lemma velocity_pair {d e} (a : R -> 'I_d -> R) (b : R -> 'I_e -> R) va vb :
  velocity_at_0 a va -> velocity_at_0 b vb -> velocity_at_0 (fun t => pair_up (a t) (b t)) (pair_up va vb).
Proof.
  move=> Ha Hb i. case: (split_ordP i) => k ->.
  - rewrite pair_up_l. apply: is_derive_ext (Ha k) => t. by rewrite pair_up_l.
  - rewrite pair_up_r. apply: is_derive_ext (Hb k) => t. by rewrite pair_up_r.
Qed.

(** Adding to the second half a function of the first half. *)
Lemma jac_shear2 {d e} (f : ('I_d -> R) -> 'I_e -> R) x H : has_jacobian f (first_half x) H ->
  has_jacobian (fun y => pair_up (first_half y) (fun i => second_half y i + f (first_half y) i)) x
               (block_mx (scalar_mx R1) (GRing.zero _) H (scalar_mx R1)).
Proof.
  move=> Hf c v Hc Hv. rewrite mulv_block !mulv1 mulv0.
  apply: velocity_pair.
  - move=> k. have -> : first_half v k + 0 = first_half v k by ring. exact: velocity_half1.
  - move=> k. rewrite Rplus_comm.
    apply: (is_derive_plus (K := R_AbsRing) (V := R_NormedModule)).
    + exact: (velocity_half2 _ _ Hv).
    + apply: (Hf (fun t => first_half (c t)) (first_half v)); [by rewrite Hc|exact: velocity_half1].
Qed.
Lemma jac_shear1 {d e} (f : ('I_e -> R) -> 'I_d -> R) x H : has_jacobian f (second_half x) H ->
  has_jacobian (fun y => pair_up (fun i => first_half y i + f (second_half y) i) (second_half y)) x
               (block_mx (scalar_mx R1) H (GRing.zero _) (scalar_mx R1)).
Proof.
  move=> Hf c v Hc Hv. rewrite mulv_block !mulv1 mulv0.
  apply: velocity_pair.
  - move=> k.
    apply: (is_derive_plus (K := R_AbsRing) (V := R_NormedModule)).
    + exact: (velocity_half1 _ _ Hv).
    + apply: (Hf (fun t => second_half (c t)) (second_half v)); [by rewrite Hc|exact: velocity_half2].
  - move=> k. have -> : 0 + second_half v k = second_half v k by ring. exact: velocity_half2.
Qed.
Lemma jac_scale {m n} (F : ('I_n -> R) -> 'I_m -> R) x J (a : 'I_m -> R) : has_jacobian F x J ->
  has_jacobian (fun y i => a i * F y i) x (\matrix_(i, j) (a i * J i j)).
Proof.
  move=> HF c v Hc Hv i.
  have -> : mulv (\matrix_(i, j) (a i * J i j)) v i = a i * mulv J v i.
  { rewrite /mulv -R_mulE GRing.mulr_sumr. apply: eq_bigr => j _. by rewrite mxE -R_mulE GRing.mulrA. }
  apply: is_derive_scal. exact: HF.
Qed.
Lemma det_shear2 {d e} (H : 'M[R]_(e, d)) :
  determinant (block_mx (scalar_mx R1) (GRing.zero _) H (scalar_mx R1) : 'M[R]_(d + e)) = R1.
Proof. rewrite det_lblock !det_scalar !GRing.expr1n. by rewrite -R_oneE GRing.mulr1. Qed.
Lemma det_shear1 {d e} (H : 'M[R]_(d, e)) :
  determinant (block_mx (scalar_mx R1) H (GRing.zero _) (scalar_mx R1) : 'M[R]_(d + e)) = R1.
Proof. rewrite det_ublock !det_scalar !GRing.expr1n. by rewrite -R_oneE GRing.mulr1. Qed.
