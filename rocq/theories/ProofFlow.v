(** Lemmas on normalizing flows. *)
From Coq Require Import Reals Lra List Lia FunctionalExtensionality.
From Coquelicot Require Import Coquelicot.
From Verif Require Import ModelShape ModelTensor ModelDist ModelFlow.
Import ListNotations.
Local Open Scope R_scope.

(** ** tanh *)
Lemma cosh_pos x : 0 < cosh x.
Proof. unfold cosh. pose proof (exp_pos x). pose proof (exp_pos (- x)). lra. Qed.
Lemma derive_tanh x : is_derive tanh x (1 - tanh x * tanh x).
Proof.
  unfold tanh, sinh, cosh. pose proof (exp_pos x). pose proof (exp_pos (- x)).
  auto_derive; [lra|]. field. lra.
Qed.
Lemma tanh_sq x : 0 < 1 - tanh x * tanh x <= 1.
Proof.
  split; [|pose proof (Rle_0_sqr (tanh x)); unfold Rsqr in *; lra].
  unfold tanh, sinh, cosh. pose proof (exp_pos x). pose proof (exp_pos (- x)).
  replace (1 - _) with (4 * (exp x * exp (- x)) / ((exp x + exp (- x)) * (exp x + exp (- x)))) by (field; lra).
  apply Rdiv_lt_0_compat; [|apply Rmult_lt_0_compat; lra].
  apply Rmult_lt_0_compat; [lra|]. now apply Rmult_lt_0_compat.
Qed.
Lemma tanh_bound x : -1 < tanh x < 1.
Proof. pose proof (tanh_sq x). split; nra. Qed.

(** The scalar map s + c tanh (s + b), c > -1, is a bijection. *)
Section Scalar.
Variables b c : R.
Hypothesis Hc : -1 < c.
Let g s := s + c * tanh (s + b).
Lemma g_derive s : is_derive g s (1 + c * (1 - tanh (s + b) * tanh (s + b))).
Proof.
  unfold g. apply (is_derive_plus (K := R_AbsRing) (V := R_NormedModule)); [auto_derive; [easy|ring]|].
  apply is_derive_scal.
  replace (1 - tanh (s + b) * tanh (s + b)) with (1 * (1 - tanh (s + b) * tanh (s + b))) by ring.
  apply (is_derive_comp tanh (fun s => s + b)); [apply derive_tanh|]. auto_derive; [easy|ring].
Qed.
Lemma g_slope s : 0 < 1 + c * (1 - tanh (s + b) * tanh (s + b)).
Proof. pose proof (tanh_sq (s + b)). nra. Qed.
Lemma g_incr x y : x < y -> g x < g y.
Proof.
  intros L. destruct (MVT_gen g x y (fun s => 1 + c * (1 - tanh (s + b) * tanh (s + b)))) as [z [_ E]].
  - intros z _. apply g_derive.
  - intros z _. apply continuity_pt_filterlim. apply (ex_derive_continuous g). eexists. apply g_derive.
  - pose proof (g_slope z). assert (0 < g y - g x); [|lra]. rewrite E. apply Rmult_lt_0_compat; lra.
Qed.
Lemma g_inj x y : g x = g y -> x = y.
Proof.
  intros E. destruct (Rtotal_order x y) as [L | [L | L]]; [|easy|]; apply g_incr in L; lra.
Qed.
Lemma g_surj y : exists x, g x = y.
Proof.
  assert (B : forall s, Rabs (c * tanh (s + b)) <= Rabs c).
  { intros s. rewrite Rabs_mult. pose proof (Rabs_pos c). pose proof (tanh_bound (s + b)).
    assert (Rabs (tanh (s + b)) <= 1) by (apply Rabs_le; lra). nra. }
  assert (L : g (y - Rabs c) <= y).
  { unfold g. pose proof (B (y - Rabs c)). pose proof (Rle_abs (c * tanh (y - Rabs c + b))). lra. }
  assert (U : y <= g (y + Rabs c)).
  { unfold g. pose proof (B (y + Rabs c)). pose proof (Rle_abs (- (c * tanh (y + Rabs c + b)))).
    rewrite Rabs_Ropp in *. lra. }
  destruct (IVT_gen g (y - Rabs c) (y + Rabs c) y) as [x [_ E]].
  - intros s. apply continuity_pt_filterlim. apply (ex_derive_continuous g). eexists. apply g_derive.
  - split.
    + eapply Rle_trans; [apply Rmin_l|exact L].
    + eapply Rle_trans; [exact U|apply Rmax_r].
  - now exists x.
Qed.
End Scalar.

(** ** Dot products of lists *)
Lemma dot_cons a x b y : dot (a :: x) (b :: y) = a * b + dot x y.
Proof. reflexivity. Qed.
Lemma dot_comm x : forall y, dot x y = dot y x.
Proof.
  induction x as [|a x IH]; intros [|b y]; try reflexivity. rewrite !dot_cons, IH. ring.
Qed.
Lemma dot_axpy k z : forall u w, length z = length w -> length u = length w ->
  dot (map (fun zu => fst zu + k * snd zu) (combine z u)) w = dot z w + k * dot u w.
Proof.
  induction z as [|a z IH]; intros [|b u] [|c w] H1 H2; cbn in H1, H2; try lia.
  - unfold dot. cbn. ring.
  - cbn [combine map fst snd]. rewrite !dot_cons, IH by lia. ring.
Qed.
Lemma dot_scaled k z : forall w, length z = length w ->
  dot (map (fun uw => fst uw + snd uw / k) (combine z w)) w = dot z w + dot w w / k.
Proof.
  induction z as [|a z IH]; intros [|b w] H; cbn in H; try lia.
  - unfold dot. cbn. unfold Rdiv. ring.
  - cbn [combine map fst snd]. rewrite !dot_cons, IH by lia. unfold Rdiv. ring.
Qed.
Lemma dot_pos w : 0 <= dot w w.
Proof. induction w as [|a w IH]; [unfold dot; cbn; lra|]. rewrite dot_cons. nra. Qed.

(** ** The planar constraint *)
Lemma planar_u_length p : length (p_aux_u p) = length (p_w p) -> length (planar_u p) = length (p_w p).
Proof. intros H. unfold planar_u. rewrite map_length, combine_length. lia. Qed.
Lemma planar_scalar p : length (p_aux_u p) = length (p_w p) -> dot (p_w p) (p_w p) <> 0 ->
  dot (planar_u p) (p_w p) = ln (1 + exp (dot (p_w p) (p_aux_u p))) - 1.
Proof.
  intros L N. unfold planar_u. set (dp := dot (p_w p) (p_aux_u p)).
  set (k := ln (exp dp + 1) - 1 - dp).
  assert (X : forall a w ww, length a = length w ->
    dot (map (fun uw => fst uw + snd uw / ww * k) (combine a w)) w = dot a w + k * (dot w w / ww)).
  { induction a as [|a l IH]; intros [|b w] ww H; cbn in H; try lia.
    - unfold dot, Rdiv. cbn. ring.
    - cbn [combine map fst snd]. rewrite !dot_cons, IH by lia. unfold Rdiv. ring. }
  rewrite X by easy. rewrite (dot_comm (p_aux_u p)). fold dp. unfold k. rewrite (Rplus_comm (exp dp)). field. exact N.
Qed.
Lemma planar_scalar_gt p : length (p_aux_u p) = length (p_w p) -> dot (p_w p) (p_w p) <> 0 ->
  -1 < dot (planar_u p) (p_w p).
Proof.
  intros L N. rewrite planar_scalar by easy. pose proof (exp_pos (dot (p_w p) (p_aux_u p))).
  assert (0 < ln (1 + exp (dot (p_w p) (p_aux_u p)))); [|lra]. rewrite <- ln_1. apply ln_increasing; lra.
Qed.

(** The row map and log-determinant of one planar layer. *)
Definition planar_map (p : planar_params) (z : list R) : list R :=
  map (fun zu => fst zu + tanh (dot z (p_w p) + p_b p) * snd zu) (combine z (planar_u p)).
Definition planar_det (p : planar_params) (z : list R) : R :=
  dot (planar_u p) (p_w p) * (1 - tanh (dot z (p_w p) + p_b p) * tanh (dot z (p_w p) + p_b p)) + 1.
Lemma planar_layer_eq p z l : length (p_aux_u p) = length (p_w p) -> dot (p_w p) (p_w p) <> 0 ->
  planar_layer p (z, l) = Some (planar_map p z, l - ln (planar_det p z)).
Proof.
  intros L N. unfold planar_layer, planar_map, planar_det. cbn [fst snd].
  pose proof (planar_scalar_gt p L N). destruct (Rlt_dec _ _); [lra|reflexivity].
Qed.
Lemma planar_det_pos p z : length (p_aux_u p) = length (p_w p) -> dot (p_w p) (p_w p) <> 0 ->
  0 < planar_det p z.
Proof.
  intros L N. unfold planar_det. pose proof (planar_scalar_gt p L N).
  pose proof (tanh_sq (dot z (p_w p) + p_b p)). nra.
Qed.

Lemma axpy_inj k u : forall x y, length x = length u -> length y = length u ->
  map (fun zu => fst zu + k * snd zu) (combine x u) = map (fun zu => fst zu + k * snd zu) (combine y u) -> x = y.
Proof.
  induction u as [|b u IH]; intros [|a x] [|c y] H1 H2 E; cbn in H1, H2; try lia; [easy|].
  cbn in E. injection E as E1 E2. f_equal; [lra|]. apply IH; lia || easy.
Qed.
Lemma axpy_cancel k u : forall y, length y = length u ->
  map (fun zu => fst zu + k * snd zu)
      (combine (map (fun zu => fst zu + - k * snd zu) (combine y u)) u) = y.
Proof.
  induction u as [|b u IH]; intros [|a y] H; cbn in H; try lia; [easy|].
  cbn. f_equal; [ring|]. apply IH. lia.
Qed.
Lemma axpy_length k (x u : list R) : length x = length u ->
  length (map (fun zu => fst zu + k * snd zu) (combine x u)) = length u.
Proof. intros H. rewrite map_length, combine_length. lia. Qed.

Lemma planar_inj p x y : length (p_aux_u p) = length (p_w p) -> dot (p_w p) (p_w p) <> 0 ->
  length x = length (p_w p) -> length y = length (p_w p) -> planar_map p x = planar_map p y -> x = y.
Proof.
  intros L N Lx Ly E. pose proof (planar_u_length p L) as Lu.
  assert (D : dot x (p_w p) = dot y (p_w p)).
  { apply (g_inj (p_b p) (dot (planar_u p) (p_w p)) (planar_scalar_gt p L N)).
    apply (f_equal (fun l => dot l (p_w p))) in E. unfold planar_map in E.
    rewrite !dot_axpy in E by congruence. lra. }
  unfold planar_map in E. rewrite D in E. eapply axpy_inj; [| |exact E]; congruence.
Qed.
Lemma planar_surj p y : length (p_aux_u p) = length (p_w p) -> dot (p_w p) (p_w p) <> 0 ->
  length y = length (p_w p) -> exists x, length x = length (p_w p) /\ planar_map p x = y.
Proof.
  intros L N Ly. pose proof (planar_u_length p L) as Lu.
  destruct (g_surj (p_b p) (dot (planar_u p) (p_w p)) (dot y (p_w p))) as [s E].
  set (k := tanh (s + p_b p)) in *.
  exists (map (fun zu => fst zu + - k * snd zu) (combine y (planar_u p))).
  split; [rewrite axpy_length; congruence|]. unfold planar_map.
  rewrite dot_axpy by congruence. replace (dot y (p_w p) + - k * dot (planar_u p) (p_w p)) with s by (rewrite <- E; ring).
  apply axpy_cancel. congruence.
Qed.
