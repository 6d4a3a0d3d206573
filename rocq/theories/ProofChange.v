(** Changes of variables that respect an order of the coordinates, and integrals of
    functions without compact support. *)
From Coq Require Import List Reals Lra Lia Permutation FunctionalExtensionality.
From Coquelicot Require Import Coquelicot.
From Verif Require Import SpecVolume ProofVolume.
Import ListNotations.
Local Open Scope R_scope.

Definition prodf {A} (l : list A) (f : A -> R) : R := fold_right Rmult 1 (map f l).

Section Change.
Context {J : Type} (dec : forall i j : J, {i = j} + {i <> j}).
Notation upd := (upd dec).
Notation cube := (cube_integral dec).
Notation cont := (@cont J).
Implicit Types (x y : J -> R) (F G : (J -> R) -> R) (l : list J).

Lemma cont_prod {A} (l : list A) (f : A -> (J -> R) -> R) : (forall a, In a l -> cont (f a)) -> cont (fun x => prodf l (fun a => f a x)).
Proof.
  induction l as [|a l IH]; intros H; [exact (cont_const 1)|]. apply (cont_mult (f a)); [apply H; now left|apply IH; intros b Hb; apply H; now right].
Qed.

Context (L : list J) (L_once : NoDup L) (L_all : forall j, In j L).
Notation changes := (changes dec L).
Notation cc := (cc L).
Notation total := (total dec L).

Definition moves (T : (J -> R) -> J -> R) (w : (J -> R) -> R) : Prop :=
  (forall j, cont (fun x => T x j)) /\ cont w /\ (forall x, 0 < w x) /\ changes T w.
Lemma moves_id : moves (fun x => x) (fun _ => 1).
Proof. split; [intros j; apply cont_coord|]. split; [apply cont_const|]. split; [intros; lra|apply changes_id]. Qed.
Lemma moves_ext T w T' w' : (forall x, T x = T' x) -> (forall x, w x = w' x) -> moves T w -> moves T' w'.
Proof.
  intros E E'. replace T' with T by (extensionality x; apply E). replace w' with w by (extensionality x; apply E'). auto.
Qed.
Lemma moves_comp T1 w1 T2 w2 : moves T1 w1 -> moves T2 w2 -> moves (fun x => T2 (T1 x)) (fun x => w1 x * w2 (T1 x)).
Proof.
  intros (C1 & W1 & P1 & H1) (C2 & W2 & P2 & H2). split; [|split; [|split]].
  - intros j. apply (cont_comp L L_all (fun x => T2 x j) T1); auto.
  - apply cont_mult; [exact W1|]. now apply (cont_comp L L_all w2 T1).
  - intros x. now apply Rmult_lt_0_compat.
  - now apply changes_comp.
Qed.
Lemma moves_affine i a c : cont a -> cont c -> (forall x, a x <> 0) ->
  (forall x t, a (upd x i t) = a x) -> (forall x t, c (upd x i t) = c x) -> moves (affine dec i a c) (fun x => Rabs (a x)).
Proof.
  intros Ca Cc N Ia Ic. split; [|split; [now apply cont_abs|split; [intros x; now apply Rabs_pos_lt|now apply affine_changes]]].
  intros j. unfold affine. destruct (dec i j) as [<-|Ne].
  - apply (cont_ext (fun x => a x * x i + c x)); [intros x; now rewrite upd_same|]. apply cont_plus; [apply cont_mult; [exact Ca|apply cont_coord]|exact Cc].
  - apply (cont_ext (fun x => x j)); [intros x; now rewrite upd_other|]. apply cont_coord.
Qed.

(** Coefficients of a coordinate that do not depend on it nor on the later ones. *)
Fixpoint earlier_only (a : J -> (J -> R) -> R) (l : list J) : Prop :=
  match l with
  | [] => True
  | i :: l' => (forall x y, (forall j, ~ In j (i :: l') -> x j = y j) -> a i x = a i y) /\ earlier_only a l'
  end.
Definition triangular (a c : J -> (J -> R) -> R) (l : list J) x : J -> R :=
  fun j => if in_dec dec j l then a j x * x j + c j x else x j.
Lemma moves_triangular a c l : NoDup l -> (forall j, In j l -> cont (a j)) -> (forall j, In j l -> cont (c j)) ->
  (forall j x, In j l -> a j x <> 0) -> earlier_only a l -> earlier_only c l ->
  moves (triangular a c l) (fun x => prodf l (fun j => Rabs (a j x))).
Proof.
  induction l as [|i l IH]; intros Nd Ca Cc Na Ea Ec.
  - apply (moves_ext (fun x => x) (fun _ => 1)); [intros x; extensionality j; reflexivity|reflexivity|apply moves_id].
  - inversion Nd; subst. destruct Ea as (Ea & Ea'). destruct Ec as (Ec & Ec').
    assert (M : moves (triangular a c l) (fun x => prodf l (fun j => Rabs (a j x)))) by (apply IH; auto; intros; try (apply Ca; now right); try (apply Cc; now right); apply Na; now right).
    assert (Ai : moves (affine dec i (a i) (c i)) (fun x => Rabs (a i x))).
    { apply moves_affine; [apply Ca; now left|apply Cc; now left|intros x; apply Na; now left|..]; intros x t; [apply Ea|apply Ec]; intros j Hj;
      apply upd_other; intros <-; apply Hj; now left. }
    assert (Kept : forall x j, ~ In j (i :: l) -> triangular a c l x j = x j).
    { intros x j Hj. unfold triangular. destruct (in_dec dec j l) as [Q|Q]; [|reflexivity]. destruct Hj. now right. }
    eapply moves_ext; [| |apply (moves_comp _ _ _ _ M Ai)].
    + intros x. extensionality j. unfold affine. rewrite (Ea _ x), (Ec _ x) by (intros k Hk; now apply Kept).
      unfold triangular at 2. destruct (dec i j) as [<-|Ne].
      * rewrite upd_same. unfold triangular. destruct (in_dec dec i l); [contradiction|]. destruct (in_dec dec i (i :: l)) as [|Q]; [reflexivity|]. destruct Q. now left.
      * rewrite upd_other by exact Ne. unfold triangular.
        destruct (in_dec dec j l) as [Q|Q], (in_dec dec j (i :: l)) as [Q'|Q']; try reflexivity.
        -- destruct Q'. now right.
        -- destruct Q' as [Q'|Q']; contradiction.
    + intros x. cbv beta. rewrite (Ea _ x) by (intros k Hk; now apply Kept). unfold prodf. cbn [map fold_right]. ring.
Qed.

(** Cutting a function off outside a cube. *)
Definition ramp (B t : R) : R := (Rabs (B + 1 - Rabs t) - Rabs (B - Rabs t) + 1) / 2.
Lemma ramp_range B t : 0 <= ramp B t <= 1.
Proof. unfold ramp. generalize (Rabs t). intros u. unfold Rabs. destruct (Rcase_abs _), (Rcase_abs _); lra. Qed.
Lemma ramp_one B t : Rabs t <= B -> ramp B t = 1.
Proof. intros H. unfold ramp. rewrite (Rabs_pos_eq (B + 1 - Rabs t)), (Rabs_pos_eq (B - Rabs t)); lra. Qed.
Lemma ramp_zero B t : B + 1 <= Rabs t -> ramp B t = 0.
Proof. intros H. unfold ramp. rewrite (Rabs_left1 (B + 1 - Rabs t)), (Rabs_left1 (B - Rabs t)); lra. Qed.
Lemma prodf_range {A} (l : list A) f : (forall a, In a l -> 0 <= f a <= 1) -> 0 <= prodf l f <= 1.
Proof.
  unfold prodf. induction l as [|a l IH]; intros H; cbn [map fold_right]; [lra|].
  assert (0 <= f a <= 1) by (apply H; now left). assert (0 <= fold_right Rmult 1 (map f l) <= 1) by (apply IH; intros b Hb; apply H; now right). nra.
Qed.
Lemma prodf_one {A} (l : list A) f : (forall a, In a l -> f a = 1) -> prodf l f = 1.
Proof.
  unfold prodf. induction l as [|a l IH]; intros H; cbn [map fold_right]; [lra|]. rewrite H by (now left). rewrite IH; [ring|]. intros b Hb. apply H. now right.
Qed.
Lemma prodf_zero {A} (l : list A) f a : In a l -> f a = 0 -> prodf l f = 0.
Proof.
  unfold prodf. induction l as [|b l IH]; [intros []|]. intros [<-|H] Z; cbn [map fold_right]; [rewrite Z; ring|rewrite IH by assumption; ring].
Qed.
Lemma cutoff B : 0 <= B -> exists chi, cc chi /\ (forall x, 0 <= chi x <= 1) /\ (forall x, (forall j, Rabs (x j) <= B) -> chi x = 1).
Proof.
  intros Hb. exists (fun x => prodf L (fun j => ramp B (x j))). split; [split|split].
  - apply (cont_prod L (fun j x => ramp B (x j))). intros j _. unfold ramp, Rdiv. apply cont_mult; [|apply cont_const].
    apply cont_plus; [apply cont_minus; apply cont_abs, cont_minus; try apply cont_const; apply cont_abs, cont_coord|apply cont_const].
  - exists (B + 1). split; [lra|]. intros x (j & Hj & Hx). apply (prodf_zero L _ j Hj). now apply ramp_zero.
  - intros x. apply prodf_range. intros; apply ramp_range.
  - intros x Hx. apply prodf_one. intros j _. apply ramp_one, Hx.
Qed.

Lemma cc_mult F G : cc F -> cont G -> cc (fun x => F x * G x).
Proof.
  intros (C & B & Hb & S) D. split; [now apply cont_mult|]. exists B. split; [exact Hb|]. intros x Hx. rewrite S by exact Hx. ring.
Qed.
Lemma cont_moved T w F : moves T w -> cont F -> cont (fun x => w x * F (T x)).
Proof. intros (C & W & _) D. apply cont_mult; [exact W|]. now apply (cont_comp L L_all F T). Qed.
Lemma moves_below T w F B : moves T w -> cont F -> (forall x, 0 <= F x) -> 0 <= B ->
  exists B', 0 <= B' /\ cube B L F (fun _ => 0) <= cube B' L (fun x => w x * F (T x)) (fun _ => 0).
Proof.
  intros M C P Hb. pose proof M as (CT & W & Wp & H). destruct (cutoff B Hb) as (chi & Cc & R & One).
  pose proof (cc_mult chi F Cc C) as Cf. destruct (vol_ex dec L _ Cf) as (v & V).
  destruct (H _ Cf) as ((_ & _) & Hv). specialize (Hv v V).
  pose proof Cf as (CF & B1 & Hb1 & S1). set (B0 := Rmax B B1).
  assert (E0 : v = cube B0 L (fun x => chi x * F x) (fun _ => 0)).
  { apply (vol_at dec L L_once _ v B0 CF V); [apply Rle_trans with B; [exact Hb|apply Rmax_l]|]. apply (supported_grow B1); [apply Rmax_r|exact S1]. }
  destruct Hv as (B' & Hb' & S' & E'). exists B'. split; [exact Hb'|].
  apply Rle_trans with v.
  - rewrite E0. apply Rle_trans with (cube B L (fun x => chi x * F x) (fun _ => 0)).
    + right. apply cube_ext; [exact Hb|]. intros y Y _. rewrite One; [ring|]. intros j. apply Y, L_all.
    + apply cube_grow; [exact Hb|apply Rmax_l|exact CF|]. intros y. destruct (R y). specialize (P y). nra.
  - rewrite E'. apply cube_le; [exact Hb'|..].
    + apply (cont_moved T w (fun x => chi x * F x) M CF).
    + now apply cont_moved.
    + intros y. destruct (R (T y)). specialize (P (T y)). specialize (Wp y).
      apply Rmult_le_compat_l; [lra|]. nra.
Qed.

(** The change of variables formula. *)
Theorem total_moves T w T' w' F v : moves T w -> moves T' w' -> (forall x, T (T' x) = x) -> (forall x, w' x * w (T' x) = 1) ->
  cont F -> (forall x, 0 <= F x) -> total F v -> total (fun x => w x * F (T x)) v.
Proof.
  intros M M' E E' C P (U & Least). split.
  - intros m (B & Hb & ->).
    destruct (moves_below T' w' (fun x => w x * F (T x)) B M') as (B' & Hb' & Le); [now apply cont_moved| |exact Hb|].
    + intros x. destruct M as (_ & _ & Wp & _). specialize (Wp x). specialize (P (T x)). nra.
    + eapply Rle_trans; [exact Le|]. apply U. exists B'. split; [exact Hb'|]. f_equal. extensionality x. rewrite E, <- Rmult_assoc, E'. ring.
  - intros b Ub. apply Least. intros m (B & Hb & ->). destruct (moves_below T w F B M C P Hb) as (B' & Hb' & Le).
    eapply Rle_trans; [exact Le|]. apply Ub. eauto.
Qed.

Lemma total_unique F v w : total F v -> total F w -> v = w.
Proof. apply is_lub_u. Qed.
Lemma total_ext F G v : (forall x, F x = G x) -> total F v -> total G v.
Proof. intros E. now replace G with F by (extensionality x; apply E). Qed.
Lemma total_dominated F G v : cont F -> cont G -> (forall x, 0 <= G x <= F x) -> total F v -> exists w, total G w.
Proof.
  intros CF CG H (U & _). destruct (completeness (fun m => exists B, 0 <= B /\ m = cube B L G (fun _ => 0))) as (w & W).
  - exists v. intros m (B & Hb & ->). apply Rle_trans with (cube B L F (fun _ => 0)).
    + apply cube_le; auto. intros y. apply H.
    + apply U. eauto.
  - exists (cube 0 L G (fun _ => 0)), 0. split; [lra|reflexivity].
  - exists w. exact W.
Qed.
Lemma total_plus F G v w : cont F -> cont G -> (forall x, 0 <= F x) -> (forall x, 0 <= G x) -> total F v -> total G w -> total (fun x => F x + G x) (v + w).
Proof.
  intros CF CG PF PG (UF & LF) (UG & LG). split.
  - intros m (B & Hb & ->). rewrite cube_plus by assumption. apply Rplus_le_compat; [apply UF|apply UG]; eauto.
  - intros b Ub.
    assert (Q : forall B B', 0 <= B -> 0 <= B' -> cube B L F (fun _ => 0) + cube B' L G (fun _ => 0) <= b).
    { intros B B' Hb Hb'. apply Rle_trans with (cube (Rmax B B') L (fun x => F x + G x) (fun _ => 0)).
      - rewrite cube_plus; [|apply Rle_trans with B; [exact Hb|apply Rmax_l]|assumption..].
        apply Rplus_le_compat; apply cube_grow; auto; [apply Rmax_l|apply Rmax_r].
      - apply Ub. exists (Rmax B B'). split; [apply Rle_trans with B; [exact Hb|apply Rmax_l]|reflexivity]. }
    assert (v <= b - w).
    { apply LF. intros m (B & Hb & ->). assert (w <= b - cube B L F (fun _ => 0)); [|lra]. apply LG. intros m' (B' & Hb' & ->). specialize (Q B B' Hb Hb'). lra. }
    lra.
Qed.
Lemma total_minus F G v w : cont F -> cont G -> (forall x, 0 <= G x <= F x) -> total F v -> total G w -> total (fun x => F x - G x) (v - w).
Proof.
  intros CF CG H V W. destruct (total_dominated F (fun x => F x - G x) v CF) as (u & U); auto.
  - now apply cont_minus.
  - intros x. specialize (H x). lra.
  - replace (v - w) with u; [exact U|].
    assert (v = u + w); [|lra]. apply (total_unique F); [exact V|]. apply (total_ext (fun x => F x - G x + G x)); [intros x; ring|].
    apply total_plus; auto; [now apply cont_minus|intros x; specialize (H x); lra|intros x; apply H].
Qed.
Lemma total_scal F c v : 0 < c -> cont F -> total F v -> total (fun x => c * F x) (c * v).
Proof.
  intros Hc C (U & Least). split.
  - intros m (B & Hb & ->). rewrite cube_scal by assumption. apply Rmult_le_compat_l; [lra|]. apply U. eauto.
  - intros b Ub. assert (v <= b / c).
    { apply Least. intros m (B & Hb & ->). apply Rmult_le_reg_l with c; [exact Hc|]. replace (c * (b / c)) with b by (field; lra).
      apply Ub. exists B. split; [exact Hb|]. now rewrite cube_scal. }
    apply Rmult_le_reg_r with (/ c); [now apply Rinv_0_lt_compat|]. replace (c * v * / c) with v by (field; lra). exact H.
Qed.
End Change.
