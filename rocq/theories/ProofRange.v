(** Integrals over intervals and over the simplex as integrals over all values. *)
From Coq Require Import List Reals Lra Lia Permutation FunctionalExtensionality.
From Coquelicot Require Import Coquelicot.
From Verif Require Import SpecVolume SpecRange ProofVolume ProofChange ProofBimove ProofPart ProofPhase ProofRatio.
Import ListNotations.
Local Open Scope R_scope.

Lemma prodf_nonneg {A} (l : list A) f : (forall a, In a l -> 0 <= f a) -> 0 <= prodf l f.
Proof. unfold prodf. induction l as [|a l IH]; intros H; cbn [map fold_right]; [lra|]. apply Rmult_le_pos; [apply H; now left|apply IH; intros b Hb; apply H; now right]. Qed.

Section Box.
Context {J : Type} (dec : forall i j : J, {i = j} + {i <> j}).
Notation upd := (upd dec).
Notation box := (box_integral dec).
Notation cont := (@cont J).
Lemma box_cube B L F x : box (- B) B L F x = cube_integral dec B L F x.
Proof. revert x. induction L as [|i L IH]; intros x; cbn [box_integral cube_integral]; [reflexivity|]. apply RInt_ext. intros t _. apply IH. Qed.
Lemma cont_RInt_ab F i a b : a <= b -> cont F -> cont (fun x => RInt (fun t => F (upd x i t)) a b).
Proof.
  intros Hb C x e E. set (e' := e / (b - a + 1)). assert (E' : 0 < e') by (apply Rdiv_lt_0_compat; lra).
  destruct (line_uniform dec F x i a b e' Hb C E') as (d & D & H). exists d. split; [exact D|]. intros y N.
  change (Rabs (minus (RInt (fun t => F (upd y i t)) a b) (RInt (fun t => F (upd x i t)) a b)) < e).
  rewrite <- (RInt_minus (V := R_CompleteNormedModule)) by (apply line_int, C).
  apply Rle_lt_trans with ((b - a) * e').
  - apply (abs_RInt_le_const (fun t => minus (F (upd y i t)) (F (upd x i t)))); [lra| |].
    + apply (ex_RInt_minus (fun t => F (upd y i t)) (fun t => F (upd x i t))); apply line_int, C.
    + intros t T. left. apply (H t y T N).
  - unfold e'. apply (Rmult_lt_reg_r (b - a + 1)); [lra|]. unfold Rdiv. rewrite !Rmult_assoc, Rinv_l by lra. nra.
Qed.
Lemma box_cont a b L F : a <= b -> cont F -> cont (box a b L F).
Proof. intros Hb C. induction L as [|i L IH]; [exact C|]. cbn [box_integral]. now apply (cont_RInt_ab (box a b L F)). Qed.
Lemma box_line_int a b L F x i u v : a <= b -> cont F -> ex_RInt (fun t => box a b L F (upd x i t)) u v.
Proof. intros Hb C. apply line_int. now apply box_cont. Qed.
Lemma box_pos a b L F : a <= b -> cont F -> (forall y, 0 <= F y) -> forall x, 0 <= box a b L F x.
Proof.
  intros Hb CF H. induction L as [|i L IH]; intros x; cbn [box_integral]; [apply H|].
  apply RInt_ge_0; [lra|now apply box_line_int|]. intros t _. apply IH.
Qed.
Lemma box_scal a b L F c : a <= b -> cont F -> forall x, box a b L (fun y => c * F y) x = c * box a b L F x.
Proof.
  intros Hb CF. induction L as [|i L IH]; intros x; [reflexivity|]. cbn [box_integral].
  rewrite (RInt_ext _ (fun t => scal c (box a b L F (upd x i t)))); [|intros t _; apply IH].
  apply (RInt_scal (V := R_CompleteNormedModule)); now apply box_line_int.
Qed.
Lemma box_ext a b L F G : forall x, (forall y, (forall j, ~ In j L -> y j = x j) -> F y = G y) -> box a b L F x = box a b L G x.
Proof.
  induction L as [|i L IH]; intros x H; cbn [box_integral]; [now apply H|].
  apply RInt_ext. intros t T. apply IH. intros y Y. apply H. intros j Hj.
  rewrite Y by (intros Q; apply Hj; now right). apply upd_other. intros ->. apply Hj. now left.
Qed.
Lemma box_indep a b L F : (forall i, In i L) -> forall x y, box a b L F x = box a b L F y.
Proof.
  intros All x y.
  assert (G : forall l x y, (forall i, ~ In i l -> x i = y i) -> box a b l F x = box a b l F y).
  { clear. induction l as [|i l IH]; intros x y H; cbn [box_integral]; [f_equal; extensionality j; apply H; intros []|].
    apply RInt_ext. intros t _. apply IH. intros j Hj. unfold SpecVolume.upd. destruct (dec i j) as [E|N]; [reflexivity|]. apply H. intros [Q|Q]; auto. }
  apply G. intros i Hi. destruct Hi. apply All.
Qed.
Lemma box_grow a b a' b' L F : a <= b -> a' <= a -> b <= b' -> cont F -> (forall y, 0 <= F y) -> forall x, box a b L F x <= box a' b' L F x.
Proof.
  intros Hb Le Le' CF H. induction L as [|i L IH]; intros x; cbn [box_integral]; [apply Rle_refl|].
  assert (I' : forall u v, ex_RInt (fun t => box a' b' L F (upd x i t)) u v) by (intros; apply box_line_int; [lra|exact CF]).
  apply Rle_trans with (RInt (fun t => box a' b' L F (upd x i t)) a b).
  - apply RInt_le; [lra|now apply box_line_int|apply I'|]. intros t _. apply IH.
  - assert (P : forall u v, u <= v -> 0 <= RInt (fun t => box a' b' L F (upd x i t)) u v).
    { intros u v Luv. apply RInt_ge_0; [exact Luv|apply I'|]. intros t _. apply box_pos; auto; lra. }
    rewrite <- (RInt_Chasles (fun t => box a' b' L F (upd x i t)) a' a b') by apply I'.
    rewrite <- (RInt_Chasles (fun t => box a' b' L F (upd x i t)) a b b') by apply I'.
    pose proof (P a' a ltac:(lra)). pose proof (P b b' ltac:(lra)). match goal with |- _ <= plus ?u (plus ?v ?w) => change (v <= u + (v + w)) end. lra.
Qed.

(** Substitution in every coordinate. *)
Variables (sg G w : R -> R) (range : R -> Prop).
Hypothesis sg_range : forall t, range (sg t).
Hypothesis sg_G : forall u, range u -> sg (G u) = u.
Hypothesis G_cont : forall u, range u -> continuous G u.
Hypothesis range_open : forall u, range u -> locally u range.
Hypothesis sg_derive : forall t, is_derive sg t (w t).
Hypothesis w_cont : forall t, continuous w t.
Hypothesis w_pos : forall t, 0 < w t.
Hypothesis sg_le : forall s t, s <= t -> sg s <= sg t.
Lemma box_subst A B L F : A <= B -> NoDup L -> cont (fun y => F (fun j => sg (y j))) -> forall x,
  box (sg A) (sg B) L F (fun j => sg (x j)) = box A B L (fun y => prodf L (fun j => w (y j)) * F (fun j => sg (y j))) x.
Proof.
  intros Le Nd CF. set (H := fun y : J -> R => F (fun j => sg (y j))) in *.
  induction L as [|i L IH]; intros x; cbn [box_integral].
  - unfold prodf. cbn. unfold H. ring.
  - inversion Nd as [|? ? N1 N2]; subst. specialize (IH N2).
    assert (CP : cont (fun y => prodf L (fun j => w (y j)) * H y)).
    { apply cont_mult; [|exact CF]. apply (cont_prod L (fun j y => w (y j))). intros j _. apply (cont_fun w); [exact w_cont|apply cont_coord]. }
    set (K := fun t => box A B L (fun y => prodf L (fun j => w (y j)) * H y) (upd x i t)).
    set (h := fun u => box (sg A) (sg B) L F (upd (fun j => sg (x j)) i u)).
    assert (Eu : forall t, upd (fun j => sg (x j)) i (sg t) = (fun j => sg (upd x i t j))).
    { intros t. extensionality j. unfold SpecVolume.upd. now destruct (dec i j). }
    assert (Eh : forall t, h (sg t) = K t) by (intros t; unfold h; rewrite Eu; apply IH).
    assert (CK : forall t, continuous K t) by (intros t; unfold K; apply cont_line, box_cont; assumption).
    assert (Ch : forall u, range u -> continuous h u).
    { intros u Hu. apply (continuous_ext_loc (T := R_UniformSpace) (U := R_UniformSpace) h (fun u => K (G u)) u).
      - apply (filter_imp range); [|now apply range_open]. intros y Hy. rewrite <- Eh. now rewrite sg_G.
      - apply (continuous_comp G K u); [now apply G_cont|apply CK]. }
    transitivity (RInt (fun t => scal (w t) (h (sg t))) A B).
    + symmetry. apply (RInt_comp (V := R_CompleteNormedModule) h sg w).
      * intros t _. apply Ch, sg_range.
      * intros t _. split; [apply sg_derive|apply w_cont].
    + apply RInt_ext. intros t _. rewrite Eh. unfold K. change (w t * box A B L (fun y => prodf L (fun j => w (y j)) * H y) (upd x i t) = box A B L (fun y => prodf (i :: L) (fun j => w (y j)) * H y) (upd x i t)).
      rewrite <- box_scal by assumption. apply box_ext. intros y Y. rewrite <- Rmult_assoc. f_equal.
      unfold prodf. cbn [map fold_right]. f_equal. rewrite Y by exact N1. now rewrite upd_same.
Qed.
Theorem integral_subst L F v : NoDup L -> (forall i, In i L) -> cont (fun y => F (fun j => sg (y j))) -> (forall y, 0 <= F (fun j => sg (y j))) ->
  integral_over dec range L F v <-> total dec L (fun y => prodf L (fun j => w (y j)) * F (fun j => sg (y j))) v.
Proof.
  intros Once All CF PF. set (H := fun y => prodf L (fun j => w (y j)) * F (fun j => sg (y j))).
  assert (CH : cont H).
  { apply cont_mult; [|exact CF]. apply (cont_prod L (fun j y => w (y j))). intros j _. apply (cont_fun w); [exact w_cont|apply cont_coord]. }
  assert (PH : forall y, 0 <= H y).
  { intros y. apply Rmult_le_pos; [|apply PF]. apply prodf_nonneg. intros j _. left. apply w_pos. }
  assert (E : forall A B, A <= B -> forall x, box (sg A) (sg B) L F x = box A B L H (fun _ => 0)).
  { intros A B Le x. unfold H. rewrite <- (box_subst A B L F Le Once CF (fun _ => 0)). now apply box_indep. }
  assert (G_le : forall a b, range a -> range b -> a <= b -> G a <= G b).
  { intros a b Ra Rb Le. destruct (Rle_dec (G a) (G b)) as [?|N]; [assumption|]. assert (Q : G b <= G a) by lra. apply sg_le in Q. rewrite !sg_G in Q by assumption.
    replace b with a by lra. lra. }
  assert (Up : forall m, (exists a b, a <= b /\ range a /\ range b /\ m = box a b L F (fun _ => a)) ->
     exists m', m <= m' /\ exists B, 0 <= B /\ m' = cube_integral dec B L H (fun _ => 0)).
  { intros m (a & b & Le & Ra & Rb & ->). set (B := Rmax (Rabs (G a)) (Rabs (G b))). assert (Hb : 0 <= B) by (apply Rle_trans with (Rabs (G a)); [apply Rabs_pos|apply Rmax_l]).
    exists (cube_integral dec B L H (fun _ => 0)). split; [|exists B; auto]. rewrite <- box_cube.
    rewrite <- (sg_G a), <- (sg_G b) by assumption. rewrite E by now apply G_le.
    apply box_grow; auto.
    - pose proof (Rmax_l (Rabs (G a)) (Rabs (G b))). fold B in H0. pose proof (Rle_abs (- G a)). rewrite Rabs_Ropp in H1. lra.
    - pose proof (Rmax_r (Rabs (G a)) (Rabs (G b))). fold B in H0. pose proof (Rle_abs (G b)). lra. }
  assert (Down : forall m, (exists B, 0 <= B /\ m = cube_integral dec B L H (fun _ => 0)) ->
     exists a b, a <= b /\ range a /\ range b /\ m = box a b L F (fun _ => a)).
  { intros m (B & Hb & ->). exists (sg (- B)), (sg B). split; [apply sg_le; lra|]. split; [apply sg_range|]. split; [apply sg_range|].
    rewrite E by lra. symmetry. apply box_cube. }
  split; intros (U & M); split.
  - intros m Hm. apply U, Down, Hm.
  - intros c Hc. apply M. intros m Hm. destruct (Up m Hm) as (m' & Le & Q). apply Rle_trans with m'; [exact Le|now apply Hc].
  - intros m Hm. destruct (Up m Hm) as (m' & Le & Q). apply Rle_trans with m'; [exact Le|now apply U].
  - intros c Hc. apply M. intros m Hm. apply Hc, Down, Hm.
Qed.
End Box.

(** ** The simplex *)
Definition logis (z : R) : R := / (1 + exp (- z)).
Lemma logis_range z : 0 < logis z < 1.
Proof.
  unfold logis. pose proof (exp_pos (- z)). split; [apply Rinv_0_lt_compat; lra|]. apply Rlt_le_trans with (/ 1); [|rewrite Rinv_1; lra]. apply Rinv_lt_contravar; lra.
Qed.
Definition dlogis (z : R) : R := logis z * (1 - logis z).
Lemma logis_derive z : is_derive logis z (dlogis z).
Proof.
  unfold logis, dlogis, logis. pose proof (exp_pos (- z)). auto_derive; [lra|]. field. lra.
Qed.
Lemma logis_cont z : continuous logis z.
Proof. apply (ex_derive_continuous (V := R_NormedModule)). exists (dlogis z). apply logis_derive. Qed.
Lemma dlogis_cont z : continuous dlogis z.
Proof.
  unfold dlogis. apply (continuous_mult (K := R_AbsRing) logis (fun z => 1 - logis z)); [apply logis_cont|].
  apply (continuous_minus (V := R_NormedModule) (fun _ => 1) logis); [apply continuous_const|apply logis_cont].
Qed.
Lemma dlogis_pos z : 0 < dlogis z.
Proof. unfold dlogis. pose proof (logis_range z). apply Rmult_lt_0_compat; lra. Qed.
Definition logit (s t : R) : R := ln t - ln (s - t).
Lemma logis_logit s t : 0 < t < s -> s * logis (logit s t) = t.
Proof.
  intros H. unfold logis, logit. replace (- (ln t - ln (s - t))) with (ln (s - t) + - ln t) by ring.
  rewrite exp_plus, exp_Ropp, !exp_ln by lra. field. split; lra.
Qed.
Lemma logit_cont s t : 0 < t < s -> continuous (logit s) t.
Proof. intros H. apply (ex_derive_continuous (V := R_NormedModule)). unfold logit. auto_derive. lra. Qed.
Lemma logis_opp z : logis (- z) = 1 - logis z.
Proof. unfold logis. rewrite Ropp_involutive, exp_Ropp. pose proof (exp_pos z). field. split; lra. Qed.

Section Simplex.
Context {I : Type} (dec : forall i j : I, {i = j} + {i <> j}).
Notation upd := (upd dec).
Notation cont := (@cont I).
(** Breaking the stick: each coordinate takes a fraction of what is left. *)
Fixpoint stick (s : R) (L : list I) (z : I -> R) : list R :=
  match L with
  | [] => [s]
  | i :: L' => s * logis (z i) :: stick (s - s * logis (z i)) L' z
  end.
Fixpoint stick_weight (s : R) (L : list I) (z : I -> R) : R :=
  match L with
  | [] => 1
  | i :: L' => s * dlogis (z i) * stick_weight (s - s * logis (z i)) L' z
  end.
Lemma left_pos s z : 0 < s -> 0 < s - s * logis z.
Proof. intros H. pose proof (logis_range z). nra. Qed.
Lemma stick_ext L : forall s z z', (forall i, In i L -> z i = z' i) -> stick s L z = stick s L z' /\ stick_weight s L z = stick_weight s L z'.
Proof.
  induction L as [|i L IH]; intros s z z' H; [split; reflexivity|]. cbn [stick stick_weight]. rewrite (H i) by now left.
  destruct (IH (s - s * logis (z' i)) z z') as (E1 & E2); [intros j Hj; apply H; now right|]. now rewrite E1, E2.
Qed.
Lemma simplex_cube B L : 0 <= B -> NoDup L -> forall s h, 0 < s -> cont (fun z => stick_weight s L z * h (stick s L z)) -> forall x,
  simplex_part (logis B) (length L) s h = cube_integral dec B L (fun z => stick_weight s L z * h (stick s L z)) x.
Proof.
  intros Hb. induction L as [|i L IH]; intros Nd s h Hs CF x; cbn [simplex_part length cube_integral]; [cbn [stick_weight stick]; ring|].
  inversion Nd as [|? ? N1 N2]; subst. specialize (IH N2).
  set (F := fun z => stick_weight s (i :: L) z * h (stick s (i :: L) z)) in *.
  set (g := fun t => simplex_part (logis B) (length L) (s - t) (fun v => h (t :: v))).
  set (C := fun z => cube_integral dec B L F (upd x i z)).
  assert (CC : forall z, continuous C z) by (intros z; unfold C; apply cont_line, cube_cont; assumption).
  assert (Ws : forall z, 0 < s * dlogis z) by (intros z; pose proof (dlogis_pos z); nra).
  assert (Eg : forall z, s * dlogis z * g (s * logis z) = C z).
  { intros z. set (t := s * logis z).
    assert (EF : forall y, y i = z -> s * dlogis z * (stick_weight (s - t) L y * h (t :: stick (s - t) L y)) = F y).
    { intros y Y. unfold F. cbn [stick_weight stick]. rewrite Y. fold t. ring. }
    assert (Cz : cont (fun y => stick_weight (s - t) L y * h (t :: stick (s - t) L y))).
    { apply (cont_ext (fun y => / (s * dlogis z) * F (upd y i z))).
      - intros y. rewrite <- (EF (upd y i z)) by apply upd_same. destruct (stick_ext L (s - t) (upd y i z) y) as (E1 & E2).
        + intros j Hj. apply upd_other. intros ->. contradiction.
        + rewrite E1, E2, <- Rmult_assoc, Rinv_l by (pose proof (Ws z); lra). apply Rmult_1_l.
      - apply cont_mult; [apply cont_const|]. intros y e He. destruct (CF (upd y i z) e He) as (d & Hd & K). exists d. split; [exact Hd|].
        intros y' Hy'. apply K. apply upd_near; [exact Hy'|]. unfold Rminus. rewrite Rplus_opp_r, Rabs_R0. exact Hd. }
    unfold g. rewrite (IH (s - t) (fun v => h (t :: v)) (left_pos s z Hs) Cz (upd x i z)).
    unfold C. rewrite <- cube_scal by assumption. apply cube_ext; [exact Hb|]. intros y _ Y. apply EF. rewrite Y by exact N1. apply upd_same. }
  assert (Cg : forall t, 0 < t < s -> continuous g t).
  { intros t Ht. apply (continuous_ext_loc (T := R_UniformSpace) (U := R_UniformSpace) g (fun t => / (s * dlogis (logit s t)) * C (logit s t)) t).
    - apply (filter_imp (fun u => 0 < u < s)).
      + intros u Hu. rewrite <- Eg, logis_logit, <- Rmult_assoc, Rinv_l by (assumption || (pose proof (Ws (logit s u)); lra)). apply Rmult_1_l.
      + apply (open_and (fun u => 0 < u) (fun u => u < s)); [apply open_gt|apply open_lt|exact Ht].
    - pose proof (logit_cont s t Ht) as Cl. apply (continuous_mult (K := R_AbsRing) (fun t => / (s * dlogis (logit s t))) (fun t => C (logit s t))).
      + apply (continuous_comp (logit s) (fun z => / (s * dlogis z)) t Cl). apply (continuous_comp (fun z => s * dlogis z) Rinv).
        * apply (continuous_mult (K := R_AbsRing) (fun _ => s) dlogis); [apply continuous_const|apply dlogis_cont].
        * apply (ex_derive_continuous (V := R_NormedModule)). auto_derive. pose proof (Ws (logit s t)). lra.
      + apply (continuous_comp (logit s) C t Cl). apply CC. }
  change (RInt g ((1 - logis B) * s) (logis B * s) = RInt C (- B) B).
  rewrite <- logis_opp, (Rmult_comm (logis (- B))), (Rmult_comm (logis B)).
  rewrite <- (RInt_comp (V := R_CompleteNormedModule) g (fun z => s * logis z) (fun z => s * dlogis z)).
  - apply RInt_ext. intros z _. apply Eg.
  - intros z _. apply Cg. pose proof (logis_range z). split; nra.
  - intros z _. split.
    + apply (is_derive_scal logis z s (dlogis z)), logis_derive.
    + apply (continuous_mult (K := R_AbsRing) (fun _ => s) dlogis); [apply continuous_const|apply dlogis_cont].
Qed.
Theorem simplex_stick L h v : NoDup L -> cont (fun z => stick_weight 1 L z * h (stick 1 L z)) ->
  simplex_integral (length L) h v <-> total dec L (fun z => stick_weight 1 L z * h (stick 1 L z)) v.
Proof.
  intros Nd CF. assert (E : forall m, (exists q, / 2 <= q < 1 /\ m = simplex_part q (length L) 1 h) <->
    (exists B, 0 <= B /\ m = cube_integral dec B L (fun z => stick_weight 1 L z * h (stick 1 L z)) (fun _ => 0))).
  { intros m. split.
    - intros (q & Hq & ->). exists (logit 1 q). assert (Q : logis (logit 1 q) = q) by (rewrite <- (logis_logit 1 q) at 2 by lra; ring).
      assert (Hb : 0 <= logit 1 q).
      { unfold logit. assert (ln (1 - q) <= ln q); [|lra]. destruct (Req_dec q (/ 2)) as [->|]; [right; f_equal; lra|]. left. apply ln_increasing; lra. }
      split; [exact Hb|]. rewrite <- Q at 1. apply simplex_cube; auto; lra.
    - intros (B & Hb & ->). exists (logis B). split.
      + split; [|apply logis_range]. unfold logis. apply Rinv_le_contravar; [pose proof (exp_pos (- B)); lra|].
        assert (exp (- B) <= exp 0) by (destruct (Req_dec B 0) as [->|]; [right; f_equal; lra|left; apply exp_increasing; lra]). rewrite exp_0 in H. lra.
      + symmetry. apply simplex_cube; auto; lra. }
  unfold simplex_integral, total. split; intros (U & M); split; try (intros m Hm; apply U, E, Hm); intros c Hc; apply M; intros m Hm; apply Hc, E, Hm.
Qed.
End Simplex.
