(** Change of variables for integrals over finitely many coordinates. *)
From Coq Require Import List Reals Lra Lia Permutation FunctionalExtensionality.
From Coquelicot Require Import Coquelicot.
From Verif Require Import SpecVolume ProofTonelli.
Import ListNotations.
Local Open Scope R_scope.

Section Volume.
Context {J : Type} (dec : forall i j : J, {i = j} + {i <> j}).
Notation upd := (upd dec).
Notation cube := (cube_integral dec).
Notation cont := (@cont J).
Implicit Types (x y : J -> R) (F G : (J -> R) -> R) (L l : list J).

Lemma upd_same x i t : upd x i t i = t.
Proof. unfold SpecVolume.upd. destruct (dec i i); congruence. Qed.
Lemma upd_other x i j t : i <> j -> upd x i t j = x j.
Proof. unfold SpecVolume.upd. destruct (dec i j); congruence. Qed.
Lemma upd_twice x i s t : upd (upd x i s) i t = upd x i t.
Proof. extensionality j. unfold SpecVolume.upd. destruct (dec i j); reflexivity. Qed.
Lemma upd_comm x i j s t : i <> j -> upd (upd x i s) j t = upd (upd x j t) i s.
Proof. intros N. extensionality k. unfold SpecVolume.upd. destruct (dec i k), (dec j k); congruence. Qed.
Lemma upd_id x i : upd x i (x i) = x.
Proof. extensionality j. unfold SpecVolume.upd. destruct (dec i j); congruence. Qed.
Lemma upd_near x y i s t d : (forall j, Rabs (y j - x j) < d) -> Rabs (t - s) < d -> forall j, Rabs (upd y i t j - upd x i s j) < d.
Proof. intros N T j. unfold SpecVolume.upd. destruct (dec i j); auto. Qed.

Lemma cont_ext F G : (forall x, F x = G x) -> cont F -> cont G.
Proof. intros E. replace G with F; [auto|]. extensionality x. apply E. Qed.
Lemma cont_line F x i : cont F -> forall t, continuous (fun t => F (upd x i t)) t.
Proof.
  intros C t. apply continuity_pt_filterlim. intros e He. destruct (C (upd x i t) e He) as (d & D & H).
  exists d. split; [exact D|]. intros u (_ & U). apply H. apply upd_near; [intros j; unfold Rminus; rewrite Rplus_opp_r, Rabs_R0; exact D|exact U].
Qed.
Lemma line_int F x i a b : cont F -> ex_RInt (fun t => F (upd x i t)) a b.
Proof. intros C. apply (ex_RInt_continuous (fun t => F (upd x i t))). intros t _. now apply cont_line. Qed.

(** The change along one coordinate is uniform on a bounded interval. *)
Lemma line_uniform F x i a b e : a <= b -> cont F -> 0 < e ->
  exists d, 0 < d /\ forall t y, a <= t <= b -> (forall j, Rabs (y j - x j) < d) -> Rabs (F (upd y i t) - F (upd x i t)) < e.
Proof.
  intros L C E. set (P := fun u v => exists d, 0 < d /\ forall t y, u <= t <= v -> (forall j, Rabs (y j - x j) < d) -> Rabs (F (upd y i t) - F (upd x i t)) < e).
  apply (creep P a b L).
  - intros t T. destruct (C (upd x i t) (e / 2) ltac:(lra)) as (d & D & H). exists d. split; [exact D|]. intros u v _ _ _ Lo Hi.
    exists d. split; [exact D|]. intros s y S N.
    assert (A1 : Rabs (F (upd y i s) - F (upd x i t)) < e / 2) by (apply H; apply upd_near; [exact N|apply Rabs_def1; lra]).
    assert (A2 : Rabs (F (upd x i s) - F (upd x i t)) < e / 2).
    { apply H. apply upd_near; [intros j; unfold Rminus; rewrite Rplus_opp_r, Rabs_R0; exact D|apply Rabs_def1; lra]. }
    apply Rabs_def2 in A1, A2. apply Rabs_def1; lra.
  - intros u v w _ _ Uv Vw (d1 & D1 & H1) (d2 & D2 & H2). exists (Rmin d1 d2). split; [now apply Rmin_pos|].
    intros t y T N. assert (N1 : forall j, Rabs (y j - x j) < d1) by (intros j; eapply Rlt_le_trans; [apply N|apply Rmin_l]).
    assert (N2 : forall j, Rabs (y j - x j) < d2) by (intros j; eapply Rlt_le_trans; [apply N|apply Rmin_r]).
    destruct (Rle_dec t v); [apply H1|apply H2]; auto; lra.
Qed.

Lemma cont_RInt F i B : 0 <= B -> cont F -> cont (fun x => RInt (fun t => F (upd x i t)) (- B) B).
Proof.
  intros Hb C x e E. set (e' := e / (2 * B + 1)). assert (E' : 0 < e') by (apply Rdiv_lt_0_compat; lra).
  destruct (line_uniform F x i (- B) B e' ltac:(lra) C E') as (d & D & H). exists d. split; [exact D|]. intros y N.
  change (Rabs (minus (RInt (fun t => F (upd y i t)) (- B) B) (RInt (fun t => F (upd x i t)) (- B) B)) < e).
  rewrite <- (RInt_minus (V := R_CompleteNormedModule)) by (apply line_int, C).
  apply Rle_lt_trans with ((B - - B) * e').
  - apply (abs_RInt_le_const (fun t => minus (F (upd y i t)) (F (upd x i t)))); [lra| |].
    + apply (ex_RInt_minus (fun t => F (upd y i t)) (fun t => F (upd x i t))); apply line_int, C.
    + intros t T. left. apply (H t y T N).
  - replace (B - - B) with (2 * B) by ring. unfold e'. apply (Rmult_lt_reg_r (2 * B + 1)); [lra|].
    unfold Rdiv. rewrite !Rmult_assoc, Rinv_l by lra. nra.
Qed.
Lemma cube_cont B L F : 0 <= B -> cont F -> cont (cube B L F).
Proof.
  intros Hb C. induction L as [|i L IH]; [exact C|]. cbn [cube_integral]. now apply (cont_RInt (cube B L F)).
Qed.
Lemma cube_line_int B L F x i a b : 0 <= B -> cont F -> ex_RInt (fun t => cube B L F (upd x i t)) a b.
Proof. intros Hb C. apply line_int. now apply cube_cont. Qed.

(** Equality inside the cube is enough. *)
Lemma cube_ext B L F G : 0 <= B -> forall x, (forall y, (forall j, In j L -> Rabs (y j) <= B) -> (forall j, ~ In j L -> y j = x j) -> F y = G y) ->
  cube B L F x = cube B L G x.
Proof.
  intros Hb. induction L as [|i L IH]; intros x H; cbn [cube_integral].
  - apply H; [intros j []|auto].
  - apply RInt_ext. rewrite Rmin_left, Rmax_right by lra. intros t T. apply IH. intros y Y1 Y2.
    destruct (in_dec dec i L) as [I|I].
    + apply H.
      * intros j [<-|Hj]; auto.
      * intros j Hj. rewrite Y2 by (intros Q; apply Hj; now right). apply upd_other. intros ->. apply Hj. now left.
    + apply H.
      * intros j [<-|Hj]; [|auto]. rewrite (Y2 _ I), upd_same. apply Rabs_le. lra.
      * intros j Hj. rewrite Y2 by (intros Q; apply Hj; now right). apply upd_other. intros ->. apply Hj. now left.
Qed.
Lemma cube_app B l L F : forall x, cube B (l ++ L) F x = cube B l (cube B L F) x.
Proof. induction l as [|i l IH]; intros x; cbn [cube_integral]; [reflexivity|]. apply RInt_ext. intros t _. apply IH. Qed.
(** The coordinates integrated over do not matter. *)
Lemma cube_indep B L F : forall x i t, In i L -> cube B L F (upd x i t) = cube B L F x.
Proof.
  induction L as [|k L IH]; intros x i t; [intros []|]. intros [<-|H]; cbn [cube_integral]; apply RInt_ext; intros s _.
  - now rewrite upd_twice.
  - destruct (dec i k) as [->|N]; [now rewrite upd_twice|]. rewrite upd_comm by exact N. now apply IH.
Qed.

Lemma cont_2d F x i j s t : i <> j -> cont F -> continuity_2d_pt (fun u v => F (upd (upd x i u) j v)) s t.
Proof.
  intros N C e. destruct (C (upd (upd x i s) j t) e (cond_pos e)) as (d & D & H). exists (mkposreal d D).
  intros u v U V. apply H. apply upd_near; [|exact V]. apply upd_near; [|exact U].
  intros k. unfold Rminus. rewrite Rplus_opp_r, Rabs_R0. exact D.
Qed.
Lemma cube_swap B i j L F x : 0 <= B -> cont F -> cube B (i :: j :: L) F x = cube B (j :: i :: L) F x.
Proof.
  intros Hb C. cbn [cube_integral]. destruct (dec i j) as [->|N]; [reflexivity|].
  rewrite (fubini_box (fun _ => True) (fun _ => True)) with (f := fun u v => cube B L F (upd (upd x i u) j v)); auto; try lra.
  - apply RInt_ext. intros t _. apply RInt_ext. intros s _. now rewrite upd_comm.
  - intros u _. now apply filter_forall.
  - intros u _. now apply filter_forall.
  - intros u v _ _. apply cont_2d; [exact N|]. now apply cube_cont.
Qed.
Lemma cube_perm B L L' F : Permutation L L' -> 0 <= B -> cont F -> forall x, cube B L F x = cube B L' F x.
Proof.
  intros P Hb C. induction P as [|i L L' P IH|i j L|L L' L'' P IH P' IH']; intros x; cbn [cube_integral].
  - reflexivity.
  - apply RInt_ext. intros t _. apply IH.
  - apply (cube_swap B j i L F x Hb C).
  - now rewrite IH.
Qed.

Lemma cube_plus B L F G : 0 <= B -> cont F -> cont G -> forall x, cube B L (fun y => F y + G y) x = cube B L F x + cube B L G x.
Proof.
  intros Hb CF CG. induction L as [|i L IH]; intros x; [reflexivity|]. cbn [cube_integral].
  rewrite (RInt_ext _ (fun t => plus (cube B L F (upd x i t)) (cube B L G (upd x i t)))); [|intros t _; apply IH].
  apply (RInt_plus (V := R_CompleteNormedModule)); now apply cube_line_int.
Qed.
Lemma cube_scal B L F c : 0 <= B -> cont F -> forall x, cube B L (fun y => c * F y) x = c * cube B L F x.
Proof.
  intros Hb CF. induction L as [|i L IH]; intros x; [reflexivity|]. cbn [cube_integral].
  rewrite (RInt_ext _ (fun t => scal c (cube B L F (upd x i t)))); [|intros t _; apply IH].
  apply (RInt_scal (V := R_CompleteNormedModule)); now apply cube_line_int.
Qed.
Lemma cube_le B L F G : 0 <= B -> cont F -> cont G -> (forall y, F y <= G y) -> forall x, cube B L F x <= cube B L G x.
Proof.
  intros Hb CF CG H. induction L as [|i L IH]; intros x; cbn [cube_integral]; [apply H|].
  apply RInt_le; [lra|now apply cube_line_int|now apply cube_line_int|]. intros t _. apply IH.
Qed.
Lemma cube_pos B L F : 0 <= B -> cont F -> (forall y, 0 <= F y) -> forall x, 0 <= cube B L F x.
Proof.
  intros Hb CF H. induction L as [|i L IH]; intros x; cbn [cube_integral]; [apply H|].
  apply RInt_ge_0; [lra|now apply cube_line_int|]. intros t _. apply IH.
Qed.
Lemma cube_grow B B' L F : 0 <= B -> B <= B' -> cont F -> (forall y, 0 <= F y) -> forall x, cube B L F x <= cube B' L F x.
Proof.
  intros Hb Le CF H. induction L as [|i L IH]; intros x; cbn [cube_integral]; [apply Rle_refl|].
  assert (I : forall B a b, 0 <= B -> ex_RInt (fun t => cube B L F (upd x i t)) a b) by (intros; now apply cube_line_int).
  apply Rle_trans with (RInt (fun t => cube B' L F (upd x i t)) (- B) B).
  - apply RInt_le; [lra|apply I; lra|apply I; lra|]. intros t _. apply IH.
  - assert (P : forall a b, a <= b -> 0 <= RInt (fun t => cube B' L F (upd x i t)) a b).
    { intros a b Lab. apply RInt_ge_0; [exact Lab|apply I; lra|]. intros t _. apply cube_pos; auto; lra. }
    rewrite <- (RInt_Chasles (fun t => cube B' L F (upd x i t)) (- B') (- B) B') by (apply I; lra).
    rewrite <- (RInt_Chasles (fun t => cube B' L F (upd x i t)) (- B) B B') by (apply I; lra).
    pose proof (P (- B') (- B) ltac:(lra)). pose proof (P B B' ltac:(lra)). match goal with |- _ <= plus ?a (plus ?b ?c) => change (b <= a + (b + c)) end. lra.
Qed.

(** Functions that vanish outside the cube. *)
Definition supported (B : R) L F : Prop := forall x, (exists j, In j L /\ B <= Rabs (x j)) -> F x = 0.
Lemma supported_grow B B' L F : B <= B' -> supported B L F -> supported B' L F.
Proof. intros Le S x (j & Hj & Hx). apply S. exists j. split; [exact Hj|lra]. Qed.
Lemma RInt_zero_out g a b : (forall t, Rmin a b < t < Rmax a b -> g t = 0) -> RInt g a b = 0.
Proof.
  intros H. rewrite (RInt_ext g (fun _ => 0) a b H). rewrite (RInt_const (V := R_CompleteNormedModule)). apply Rmult_0_r.
Qed.
Lemma cube_zero B L F : 0 <= B -> forall x, (forall y, (forall j, ~ In j L -> y j = x j) -> F y = 0) -> cube B L F x = 0.
Proof.
  intros Hb x H. transitivity (cube B L (fun _ => 0) x); [apply cube_ext; auto|].
  clear H. revert x. induction L as [|i L IH]; intros x; cbn [cube_integral]; [reflexivity|]. apply RInt_zero_out. intros t _. apply IH.
Qed.
(** Along a coordinate not integrated over, the cube integral vanishes outside. *)
Lemma cube_outside B C L i F x : 0 <= C -> supported B (i :: L) F -> ~ In i L -> B <= Rabs (x i) -> cube C L F x = 0.
Proof.
  intros Hc S N H. apply cube_zero; [exact Hc|]. intros y Y. apply S. exists i. split; [now left|]. now rewrite Y.
Qed.
Lemma RInt_support g B B' : (forall a b, ex_RInt g a b) -> (forall t, B <= Rabs t -> g t = 0) -> 0 <= B -> B <= B' ->
  RInt g (- B') B' = RInt g (- B) B.
Proof.
  intros I Z Hb Le. rewrite <- (RInt_Chasles g (- B') (- B) B'), <- (RInt_Chasles g (- B) B B') by apply I.
  rewrite (RInt_zero_out g (- B') (- B)), (RInt_zero_out g B B'); [change (0 + (RInt g (- B) B + 0) = RInt g (- B) B); lra|..].
  - rewrite Rmin_left, Rmax_right by lra. intros t T. apply Z. rewrite Rabs_pos_eq; lra.
  - rewrite Rmin_left, Rmax_right by lra. intros t T. apply Z. rewrite Rabs_left1; lra.
Qed.
Lemma cube_support B B' L F : NoDup L -> 0 <= B -> B <= B' -> cont F -> supported B L F -> forall x, cube B' L F x = cube B L F x.
Proof.
  intros Nd Hb Le CF. revert Nd. induction L as [|i L IH]; intros Nd S x; cbn [cube_integral]; [reflexivity|].
  inversion Nd as [|? ? N1 N2]; subst.
  rewrite (RInt_support (fun t => cube B' L F (upd x i t)) B B'); auto.
  - apply RInt_ext. intros t _. apply IH; [exact N2|]. intros y (j & Hj & Hy). apply S. exists j. split; [now right|exact Hy].
  - intros a b. apply cube_line_int; auto; lra.
  - intros t T. apply (cube_outside B B' L i); auto; [lra|]. now rewrite upd_same.
Qed.

(** A continuous function is bounded on a cube. *)
Lemma cube_bounded B L F : 0 <= B -> cont F -> forall x, exists M d, 0 < d /\ forall y, (forall j, In j L -> Rabs (y j) <= B) ->
  (forall j, ~ In j L -> Rabs (y j - x j) < d) -> Rabs (F y) <= M.
Proof.
  intros Hb C. induction L as [|i L IH]; intros x.
  - destruct (C x 1 ltac:(lra)) as (d & D & H). exists (Rabs (F x) + 1), d. split; [exact D|]. intros y _ N.
    assert (Rabs (F y - F x) < 1) by (apply H; intros j; apply N; intros []).
    pose proof (Rabs_triang (F y - F x) (F x)). replace (F y - F x + F x) with (F y) in H1 by ring. lra.
  - set (P := fun u v => exists M d, 0 < d /\ forall y, u <= y i <= v -> (forall j, In j L -> Rabs (y j) <= B) ->
      (forall j, ~ In j (i :: L) -> Rabs (y j - x j) < d) -> Rabs (F y) <= M).
    assert (Q : P (- B) B).
    { apply (creep P (- B) B); [lra|..].
      - intros t T. destruct (IH (upd x i t)) as (M & d & D & H). exists d. split; [exact D|]. intros u v _ _ _ Lo Hi.
        exists M, d. split; [exact D|]. intros y Yi Yj Yo. apply H; [exact Yj|]. intros j Hj.
        destruct (dec i j) as [<-|N]; [rewrite upd_same; apply Rabs_def1; lra|]. rewrite upd_other by exact N. apply Yo. intros [E|E]; auto.
      - intros u v w _ _ Uv Vw (M1 & d1 & D1 & H1) (M2 & d2 & D2 & H2). exists (Rmax M1 M2), (Rmin d1 d2). split; [now apply Rmin_pos|].
        intros y Yi Yj Yo. destruct (Rle_dec (y i) v).
        + apply Rle_trans with M1; [|apply Rmax_l]. apply H1; [lra|exact Yj|]. intros j Hj. eapply Rlt_le_trans; [now apply Yo|apply Rmin_l].
        + apply Rle_trans with M2; [|apply Rmax_r]. apply H2; [lra|exact Yj|]. intros j Hj. eapply Rlt_le_trans; [now apply Yo|apply Rmin_r]. }
    destruct Q as (M & d & D & H). exists M, d. split; [exact D|]. intros y Yj Yo. apply H; [|intros j Hj; apply Yj; now right|exact Yo].
    assert (A : Rabs (y i) <= B) by (apply Yj; now left). apply Rabs_le_between. exact A.
Qed.

(** Continuity as in Coquelicot. *)
Lemma cont_iff F : cont F <-> forall x, continuous (T := fct_UniformSpace J R_UniformSpace) (U := R_UniformSpace) F x.
Proof.
  split.
  - intros C x P (e & He). destruct (C x e (cond_pos e)) as (d & D & H). exists (mkposreal d D). intros y Y. apply He. apply H. exact Y.
  - intros C x e E. destruct (C x _ (locally_ball (F x) (mkposreal e E))) as (d & H). exists d. split; [apply cond_pos|]. intros y Y. apply (H y Y).
Qed.
Lemma cont_const c : cont (fun _ => c).
Proof. apply cont_iff. intros x. apply continuous_const. Qed.
Lemma cont_coord j : cont (fun x => x j).
Proof. intros x e E. exists e. split; [exact E|]. intros y Y. apply Y. Qed.
Lemma cont_plus F G : cont F -> cont G -> cont (fun x => F x + G x).
Proof. rewrite !cont_iff. intros C D x. apply (continuous_plus F G x); auto. Qed.
Lemma cont_opp F : cont F -> cont (fun x => - F x).
Proof. rewrite !cont_iff. intros C x. apply (continuous_opp F x); auto. Qed.
Lemma cont_minus F G : cont F -> cont G -> cont (fun x => F x - G x).
Proof. intros C D. apply cont_plus; [exact C|now apply cont_opp]. Qed.
Lemma cont_mult F G : cont F -> cont G -> cont (fun x => F x * G x).
Proof. rewrite !cont_iff. intros C D x. apply (continuous_mult (K := R_AbsRing) F G x); auto. Qed.
Lemma cont_fun (g : R -> R) F : (forall t, continuous g t) -> cont F -> cont (fun x => g (F x)).
Proof. rewrite !cont_iff. intros C D x. apply (continuous_comp F g x); auto. Qed.
Lemma cont_abs F : cont F -> cont (fun x => Rabs (F x)).
Proof. apply (cont_fun Rabs). intros t. apply continuous_Rabs. Qed.
Lemma cont_inv F : cont F -> (forall x, F x <> 0) -> cont (fun x => / F x).
Proof.
  rewrite !cont_iff. intros C N x. apply (continuous_comp F Rinv x); [apply C|]. apply continuity_pt_filterlim, continuity_pt_inv; [|apply N].
  apply derivable_continuous_pt, derivable_pt_id.
Qed.

Section All.
Context (L : list J) (L_once : NoDup L) (L_all : forall j, In j L).

Lemma cont_comp F (T : (J -> R) -> J -> R) : cont F -> (forall j, cont (fun x => T x j)) -> cont (fun x => F (T x)).
Proof.
  intros C D x e E. destruct (C (T x) e E) as (d & Dp & H).
  assert (Q : exists d', 0 < d' /\ forall y, (forall j, Rabs (y j - x j) < d') -> forall j, In j L -> Rabs (T y j - T x j) < d).
  { clear L_once L_all. induction L as [|i l IH]; [exists 1; split; [lra|intros y _ j []]|].
    destruct IH as (d1 & D1 & H1). destruct (D i x d Dp) as (d2 & D2 & H2). exists (Rmin d1 d2). split; [now apply Rmin_pos|].
    intros y Y j [<-|Hj]; [apply H2; intros k; eapply Rlt_le_trans; [apply Y|apply Rmin_r]|].
    apply H1; auto. intros k. eapply Rlt_le_trans; [apply Y|apply Rmin_l]. }
  destruct Q as (d' & D' & Q). exists d'. split; [exact D'|]. intros y Y. apply H. intros j. now apply Q.
Qed.

(** Continuous functions that vanish outside some cube, and their integral. *)
Definition cc F : Prop := cont F /\ exists B, 0 <= B /\ supported B L F.
Definition vol F (v : R) : Prop := exists B, 0 <= B /\ supported B L F /\ v = cube B L F (fun _ => 0).
Lemma vol_ex F : cc F -> exists v, vol F v.
Proof. intros (C & B & Hb & S). eexists. exists B. split; [exact Hb|]. split; [exact S|reflexivity]. Qed.
Lemma vol_at F v B : cont F -> vol F v -> 0 <= B -> supported B L F -> v = cube B L F (fun _ => 0).
Proof.
  intros C (B' & Hb' & S' & ->) Hb S. destruct (Rle_dec B B') as [Le|Le]; [|symmetry]; apply cube_support; auto; lra.
Qed.
Lemma vol_unique F v w : cont F -> vol F v -> vol F w -> v = w.
Proof. intros C V (B & Hb & S & ->). now apply (vol_at F v B). Qed.
Lemma bounded B F : 0 <= B -> cont F -> exists M, 0 <= M /\ forall y, (forall j, Rabs (y j) <= B) -> Rabs (F y) <= M.
Proof.
  intros Hb C. destruct (cube_bounded B L F Hb C (fun _ => 0)) as (M & d & D & H).
  exists (Rmax 0 M). split; [apply Rmax_l|]. intros y Y. eapply Rle_trans; [|apply Rmax_r]. apply H; [auto|]. intros j Hj. now destruct (Hj (L_all j)).
Qed.

(** [T] stretches volumes by [w]. *)
Definition changes (T : (J -> R) -> J -> R) (w : (J -> R) -> R) : Prop := forall F, cc F ->
  cc (fun x => w x * F (T x)) /\ forall v, vol F v -> vol (fun x => w x * F (T x)) v.

Lemma changes_id : changes (fun x => x) (fun _ => 1).
Proof.
  intros F C. replace (fun x => 1 * F x) with F by (extensionality x; ring). auto.
Qed.
Lemma changes_comp T1 w1 T2 w2 : changes T1 w1 -> changes T2 w2 -> changes (fun x => T2 (T1 x)) (fun x => w1 x * w2 (T1 x)).
Proof.
  intros H1 H2 F C. destruct (H2 F C) as (C2 & V2). destruct (H1 _ C2) as (C1 & V1).
  replace (fun x => w1 x * w2 (T1 x) * F (T2 (T1 x))) with (fun x => w1 x * (w2 (T1 x) * F (T2 (T1 x)))) by (extensionality x; ring).
  split; [exact C1|]. intros v V. apply V1, V2, V.
Qed.

Lemma RInt_within g B p q : (forall a b, ex_RInt g a b) -> (forall t, B <= Rabs t -> g t = 0) -> 0 <= B -> p <= - B -> B <= q ->
  RInt g p q = RInt g (- B) B.
Proof.
  intros I Z Hb Hp Hq. rewrite <- (RInt_Chasles g p (- B) q), <- (RInt_Chasles g (- B) B q) by apply I.
  rewrite (RInt_zero_out g p (- B)), (RInt_zero_out g B q); [change (0 + (RInt g (- B) B + 0) = RInt g (- B) B); lra|..].
  - rewrite Rmin_left, Rmax_right by lra. intros t T. apply Z. rewrite Rabs_pos_eq; lra.
  - rewrite Rmin_left, Rmax_right by lra. intros t T. apply Z. rewrite Rabs_left1; lra.
Qed.
Lemma affine_line g a c B B' : (forall a b, ex_RInt g a b) -> (forall t, B <= Rabs t -> g t = 0) -> 0 <= B -> B <= B' -> a <> 0 ->
  B + Rabs c <= Rabs a * B' -> RInt (fun t => Rabs a * g (a * t + c)) (- B') B' = RInt g (- B') B'.
Proof.
  intros I Z Hb Le Na Hc. rewrite (RInt_within g B (- B') B') by (auto; lra).
  pose proof (Rle_abs c) as C1. pose proof (Rle_abs (- c)) as C2. rewrite Rabs_Ropp in C2.
  pose proof (RInt_comp_lin g a c (- B') B' (I _ _)) as K.
  destruct (Rle_dec 0 a) as [P|P].
  - rewrite (Rabs_pos_eq a P) in *. transitivity (RInt g (a * - B' + c) (a * B' + c)); [exact K|]. apply (RInt_within g B); auto; lra.
  - rewrite (Rabs_left a) in * by lra.
    transitivity (opp (RInt (fun t => scal a (g (a * t + c))) (- B') B')).
    + rewrite <- (RInt_opp (V := R_CompleteNormedModule)).
      * apply RInt_ext. intros t _. unfold opp, scal; simpl; unfold mult; simpl. ring.
      * apply (ex_RInt_comp_lin g a c). apply I.
    + transitivity (opp (RInt g (a * - B' + c) (a * B' + c))); [f_equal; exact K|].
      rewrite opp_RInt_swap by apply I. apply (RInt_within g B); auto; lra.
Qed.

(** An affine change of one coordinate, with coefficients that depend on the others. *)
Definition affine (i : J) (a c : (J -> R) -> R) (x : J -> R) : J -> R := upd x i (a x * x i + c x).
Lemma affine_changes i a c : cont a -> cont c -> (forall x, a x <> 0) ->
  (forall x t, a (upd x i t) = a x) -> (forall x t, c (upd x i t) = c x) -> changes (affine i a c) (fun x => Rabs (a x)).
Proof.
  intros Ca Cc Na Ia Ic F (CF & B & Hb & S).
  destruct (bounded B _ Hb Cc) as (M & M0 & HM). destruct (bounded B _ Hb (cont_inv a Ca Na)) as (K & K0 & HK).
  set (B' := Rmax B ((B + M) * K + 1)).
  assert (B1 : B <= B') by apply Rmax_l. assert (B2 : (B + M) * K + 1 <= B') by apply Rmax_r.
  assert (Reach : forall y, (forall j, j <> i -> Rabs (y j) <= B) -> B + Rabs (c y) <= Rabs (a y) * B').
  { intros y Y. assert (Y' : forall j, Rabs (upd y i 0 j) <= B).
    { intros j. destruct (dec i j) as [<-|N]; [rewrite upd_same, Rabs_R0; exact Hb|]. rewrite upd_other by exact N. auto. }
    specialize (HM _ Y'). specialize (HK _ Y'). rewrite Ic in HM. rewrite Ia in HK.
    assert (Pa : 0 < Rabs (a y)) by (apply Rabs_pos_lt, Na). rewrite Rabs_inv in HK.
    assert (1 <= Rabs (a y) * K).
    { apply Rmult_le_reg_l with (/ Rabs (a y)); [now apply Rinv_0_lt_compat|]. rewrite <- Rmult_assoc, Rinv_l by lra. lra. }
    apply Rle_trans with (B + M); [lra|]. nra. }
  assert (Cw : cont (fun x => Rabs (a x) * F (affine i a c x))).
  { apply cont_mult; [now apply cont_abs|]. apply cont_comp; [exact CF|]. intros j. unfold affine.
    destruct (dec i j) as [<-|N].
    - apply (cont_ext (fun x => a x * x i + c x)); [intros x; now rewrite upd_same|]. apply cont_plus; [apply cont_mult; [exact Ca|apply cont_coord]|exact Cc].
    - apply (cont_ext (fun x => x j)); [intros x; now rewrite upd_other|]. apply cont_coord. }
  assert (Far : forall y j, j <> i -> B <= Rabs (y j) -> F (affine i a c y) = 0).
  { intros y j N H. apply S. exists j. split; [apply L_all|]. unfold affine. now rewrite upd_other by auto. }
  assert (Sw : supported B' L (fun x => Rabs (a x) * F (affine i a c x))).
  { intros y (j & _ & Hy). destruct (dec j i) as [->|N]; [|rewrite (Far y j N) by lra; ring].
    destruct (Classical_Prop.classic (exists k, k <> i /\ B <= Rabs (y k))) as [(k & Nk & Hk)|H]; [rewrite (Far y k Nk Hk); ring|].
    rewrite S; [ring|]. exists i. split; [apply L_all|]. unfold affine. rewrite upd_same.
    assert (Y : forall k, k <> i -> Rabs (y k) <= B).
    { intros k Nk. destruct (Rle_dec (Rabs (y k)) B); [assumption|]. exfalso. apply H. exists k. split; [exact Nk|lra]. }
    specialize (Reach y Y). pose proof (Rabs_triang_inv (a y * y i) (- c y)) as T. rewrite Rabs_Ropp, Rabs_mult in T.
    replace (a y * y i - - c y) with (a y * y i + c y) in T by ring. pose proof (Rabs_pos (a y)). nra. }
  assert (Hb' : 0 <= B') by lra.
  split; [split; [exact Cw|exists B'; auto]|]. intros v V. exists B'. split; [exact Hb'|]. split; [exact Sw|].
  rewrite (vol_at F v B' CF V Hb' (supported_grow B B' L F B1 S)).
  destruct (in_split i L (L_all i)) as (l1 & l2 & El).
  assert (P : Permutation L ((l1 ++ l2) ++ [i])).
  { rewrite El. eapply perm_trans; [symmetry; apply Permutation_middle|]. apply Permutation_cons_append. }
  remember (l1 ++ l2) as l eqn:El'. clear El El' l1 l2.
  rewrite (cube_perm B' L _ F P Hb' CF), (cube_perm B' L _ _ P Hb' Cw), !cube_app.
  apply cube_ext; [exact Hb'|]. intros y _ _. cbn [cube_integral].
  transitivity (RInt (fun t => Rabs (a y) * F (upd y i (a y * t + c y))) (- B') B').
  2: { apply RInt_ext. intros t _. unfold affine. now rewrite Ia, Ic, upd_same, upd_twice. }
  symmetry. destruct (Classical_Prop.classic (exists k, k <> i /\ B <= Rabs (y k))) as [(k & Nk & Hk)|H].
  - assert (Z : forall t, F (upd y i t) = 0).
    { intros t. apply S. exists k. split; [apply L_all|]. now rewrite upd_other by auto. }
    rewrite !RInt_zero_out; [reflexivity|intros t _; apply Z|intros t _; rewrite Z; ring].
  - assert (Y : forall k, k <> i -> Rabs (y k) <= B).
    { intros k Nk. destruct (Rle_dec (Rabs (y k)) B); [assumption|]. exfalso. apply H. exists k. split; [exact Nk|lra]. }
    apply (affine_line (fun t => F (upd y i t)) (a y) (c y) B B'); auto.
    + intros p q. apply line_int, CF.
    + intros t T. apply S. exists i. split; [apply L_all|]. now rewrite upd_same.
Qed.
End All.
End Volume.
