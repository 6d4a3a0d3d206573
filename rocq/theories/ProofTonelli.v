(** Exchange of two improper integrals of a non-negative continuous integrand. *)
From Coq Require Import List Reals Lra Lia.
From Coquelicot Require Import Coquelicot.
From Verif Require Import ProofIntegral.
Local Open Scope R_scope.

Lemma continuous_x (f : R -> R -> R) x y : continuity_2d_pt f x y -> continuous (fun u => f u y) x.
Proof.
  intros H. apply continuity_pt_filterlim. intros e He. destruct (H (mkposreal e He)) as (d & Hd). simpl in Hd.
  exists d. split; [apply cond_pos|]. intros u (_ & U). simpl in *. unfold R_dist in *. apply Hd; [exact U|].
  rewrite Rminus_eq_0, Rabs_R0. apply cond_pos.
Qed.
Lemma continuous_y (f : R -> R -> R) x y : continuity_2d_pt f x y -> continuous (fun v => f x v) y.
Proof.
  intros H. apply continuity_pt_filterlim. intros e He. destruct (H (mkposreal e He)) as (d & Hd). simpl in Hd.
  exists d. split; [apply cond_pos|]. intros u (_ & U). simpl in *. unfold R_dist in *. apply Hd; [|exact U].
  rewrite Rminus_eq_0, Rabs_R0. apply cond_pos.
Qed.
Lemma continuity_2d_swap (f : R -> R -> R) x y : continuity_2d_pt f x y -> continuity_2d_pt (fun u v => f v u) y x.
Proof. intros H e. destruct (H e) as (d & Hd). exists d. intros u v U V. now apply Hd. Qed.

(** An integral over a fixed interval is continuous in the parameter. *)
Lemma param_continuous (f : R -> R -> R) x c d : c <= d ->
  locally x (fun u => forall y, c <= y <= d -> continuity_2d_pt f u y) ->
  continuous (fun u => RInt (f u) c d) x.
Proof.
  intros L H. apply continuity_pt_filterlim. intros e He.
  assert (E : 0 < e / (d - c + 1)) by (apply Rdiv_lt_0_compat; lra).
  destruct (uniform_continuity_2d_1d' f c d x (fun y Y => locally_singleton _ _ H y Y) (mkposreal _ E)) as (r & Hr).
  destruct H as (r' & Hr'). set (r0 := Rmin r r').
  assert (R0 : 0 < r0) by (unfold r0; apply Rmin_glb_lt; apply cond_pos).
  exists r0. split; [exact R0|]. intros u (_ & U). simpl in *. unfold R_dist in *.
  assert (Cu : forall y, c <= y <= d -> continuity_2d_pt f u y).
  { apply Hr'. unfold ball; simpl. unfold AbsRing_ball, abs, minus, plus, opp; simpl.
    apply (Rlt_le_trans _ _ _ U), Rmin_r. }
  assert (Cx : forall y, c <= y <= d -> continuity_2d_pt f x y) by (apply Hr', ball_center).
  assert (Iu : ex_RInt (f u) c d).
  { apply (ex_RInt_continuous (f u)). rewrite Rmin_left, Rmax_right by lra. intros. now apply continuous_y, Cu. }
  assert (Ix : ex_RInt (f x) c d).
  { apply (ex_RInt_continuous (f x)). rewrite Rmin_left, Rmax_right by lra. intros. now apply continuous_y, Cx. }
  change (Rabs (minus (RInt (f u) c d) (RInt (f x) c d)) < e).
  rewrite <- (RInt_minus (V := R_CompleteNormedModule) (f u) (f x) c d Iu Ix).
  apply Rle_lt_trans with ((d - c) * (e / (d - c + 1))).
  - apply (abs_RInt_le_const (fun y => minus (f u y) (f x y))); [assumption|now apply (ex_RInt_minus (f u) (f x))|].
    intros y Y. left. apply (Hr y x y u); try lra.
    + pose proof (cond_pos r). lra.
    + assert (Rabs (u - x) < r) as W by (apply (Rlt_le_trans _ _ _ U), Rmin_l). apply Rabs_def2 in W. lra.
    + rewrite Rminus_eq_0, Rabs_R0. apply cond_pos.
  - apply (Rmult_lt_reg_r (d - c + 1)); [lra|]. unfold Rdiv. rewrite !Rmult_assoc, Rinv_l by lra. nra.
Qed.

(** A closed interval that is locally good is good. *)
Lemma creep (P : R -> R -> Prop) c d : c <= d ->
  (forall t, c <= t <= d -> exists r, 0 < r /\ forall u v, c <= u -> v <= d -> u <= v -> t - r < u -> v < t + r -> P u v) ->
  (forall u v w, c <= u -> w <= d -> u <= v -> v <= w -> P u v -> P v w -> P u w) -> P c d.
Proof.
  intros L Loc Join.
  destruct (completeness (fun t => c <= t <= d /\ P c t)) as (s & Ub & Lub).
  - exists d. intros t (T & _). lra.
  - exists c. split; [lra|]. destruct (Loc c ltac:(lra)) as (r & R0 & Hr). apply Hr; lra.
  - assert (Sc : c <= s).
    { apply Ub. split; [lra|]. destruct (Loc c ltac:(lra)) as (r & R0 & Hr). apply Hr; lra. }
    assert (Sd : s <= d) by (apply Lub; intros t (T & _); lra).
    destruct (Loc s ltac:(lra)) as (r & R0 & Hr).
    assert (Near : exists t, (c <= t <= d /\ P c t) /\ s - r < t).
    { destruct (Classical_Prop.classic (exists t, (c <= t <= d /\ P c t) /\ s - r < t)) as [H|H]; [exact H|].
      exfalso. assert (s <= s - r); [|lra]. apply Lub. intros t T. destruct (Rle_dec t (s - r)); [assumption|].
      exfalso. apply H. exists t. split; [exact T|lra]. }
    destruct Near as (t & (T & Pt) & Ht). assert (Ts : t <= s) by (now apply Ub).
    set (e := Rmin d (s + r / 2)).
    assert (E : s <= e /\ e <= d /\ e < s + r /\ (e = d \/ s < e)).
    { unfold e, Rmin. destruct (Rle_dec d (s + r / 2)); repeat split; try lra. }
    destruct E as (E1 & E2 & E3 & E4).
    assert (Pe : P c e) by (apply (Join c t e); try lra; [exact Pt|apply Hr; lra]).
    destruct E4 as [E4|E4]; [now rewrite <- E4|].
    assert (e <= s); [|lra]. apply Ub. split; [lra|exact Pe].
Qed.

(** Exchange on a rectangle. *)
Section Box.
Variables X Y : R -> Prop.
Hypothesis X_convex : forall a b x, X a -> X b -> a <= x <= b -> X x.
Hypothesis Y_convex : forall a b x, Y a -> Y b -> a <= x <= b -> Y x.
Hypothesis X_open : forall x, X x -> locally x X.
Hypothesis Y_open : forall y, Y y -> locally y Y.
Variable f : R -> R -> R.
Hypothesis f_cont : forall x y, X x -> Y y -> continuity_2d_pt f x y.

Lemma row_int x c d : X x -> Y c -> Y d -> c <= d -> ex_RInt (f x) c d.
Proof.
  intros Hx C D L. apply (ex_RInt_continuous (f x)). rewrite Rmin_left, Rmax_right by lra.
  intros y Hy. apply continuous_y, f_cont; [assumption|now apply (Y_convex c d)].
Qed.
Lemma col_int y a b : Y y -> X a -> X b -> a <= b -> ex_RInt (fun x => f x y) a b.
Proof.
  intros Hy A B L. apply (ex_RInt_continuous (fun x => f x y)). rewrite Rmin_left, Rmax_right by lra.
  intros x Hx. apply (continuous_x f), f_cont; [now apply (X_convex a b)|assumption].
Qed.
Lemma row_continuous x c d : X x -> Y c -> Y d -> c <= d -> continuous (fun u => RInt (f u) c d) x.
Proof.
  intros Hx C D L. apply param_continuous; [assumption|]. apply (filter_imp X); [|now apply X_open].
  intros u U y Hy. apply f_cont; [assumption|now apply (Y_convex c d)].
Qed.
Lemma col_continuous y a b : Y y -> X a -> X b -> a <= b -> continuous (fun v => RInt (fun x => f x v) a b) y.
Proof.
  intros Hy A B L. apply (param_continuous (fun v u => f u v)); [assumption|]. apply (filter_imp Y); [|now apply Y_open].
  intros v V x Hx. apply (continuity_2d_swap f), f_cont; [now apply (X_convex a b)|assumption].
Qed.
Lemma ends_swap a u x : X a -> X u -> Rmin a u <= x <= Rmax a u -> X x.
Proof.
  intros A U. unfold Rmin, Rmax. destruct (Rle_dec a u); intros Hx; [now apply (X_convex a u)|apply (X_convex u a); auto; lra].
Qed.
Lemma col_int' y a b : Y y -> X a -> X b -> ex_RInt (fun x => f x y) a b.
Proof.
  intros Hy A B. apply (ex_RInt_continuous (fun x => f x y)).
  intros x Hx. apply (continuous_x f), f_cont; [now apply (ends_swap a b)|assumption].
Qed.
Lemma col_derive a u y : X a -> X u -> Y y -> is_derive (fun u => RInt (fun x => f x y) a u) u (f u y).
Proof.
  intros A U Hy. apply (is_derive_RInt (fun x => f x y) (fun u => RInt (fun x => f x y) a u) a u).
  - apply (filter_imp X); [|now apply X_open]. intros v V. apply (RInt_correct (fun x => f x y)). now apply col_int'.
  - now apply (continuous_x f), f_cont.
Qed.
Theorem fubini_box a b c d : X a -> X b -> a <= b -> Y c -> Y d -> c <= d ->
  RInt (fun x => RInt (f x) c d) a b = RInt (fun y => RInt (fun x => f x y) a b) c d.
Proof.
  intros A B L C D M.
  assert (I : is_RInt (fun x => RInt (f x) c d) a b
    (minus (RInt (fun y => RInt (fun x => f x y) a b) c d) (RInt (fun y => RInt (fun x => f x y) a a) c d))).
  { apply (is_RInt_derive (fun u => RInt (fun y => RInt (fun x => f x y) a u) c d) (fun x => RInt (f x) c d));
      rewrite Rmin_left, Rmax_right by lra; intros u U; assert (Xu : X u) by (now apply (X_convex a b)).
    - replace (RInt (f u) c d) with (RInt (fun y => Derive (fun u => RInt (fun x => f x y) a u) u) c d).
      + apply (is_derive_RInt_param (fun u y => RInt (fun x => f x y) a u) c d u); rewrite ?Rmin_left, ?Rmax_right by lra.
        * apply (filter_imp X); [|now apply X_open]. intros v V y Hy. eexists. apply col_derive; auto. now apply (Y_convex c d).
        * intros y Hy. assert (Yy : Y y) by (now apply (Y_convex c d)).
          apply (continuity_2d_pt_ext_loc f); [|now apply f_cont].
          destruct (X_open u Xu) as (r1 & H1). destruct (Y_open y Yy) as (r2 & H2).
          assert (R0 : 0 < Rmin r1 r2) by (apply Rmin_glb_lt; apply cond_pos).
          exists (mkposreal _ R0). simpl. intros p q Hp Hq. symmetry. apply is_derive_unique, col_derive; auto.
          -- apply H1. unfold ball; simpl. unfold AbsRing_ball, abs, minus, plus, opp; simpl. apply (Rlt_le_trans _ _ _ Hp), Rmin_l.
          -- apply H2. unfold ball; simpl. unfold AbsRing_ball, abs, minus, plus, opp; simpl. apply (Rlt_le_trans _ _ _ Hq), Rmin_r.
        * apply (filter_imp X); [|now apply X_open]. intros v V.
          apply (ex_RInt_continuous (fun y => RInt (fun x => f x y) a v)). rewrite Rmin_left, Rmax_right by lra. intros y Hy.
          assert (Yy : Y y) by (now apply (Y_convex c d)).
          destruct (Rle_dec a v) as [Av|Av]; [now apply col_continuous|].
          apply (continuous_ext_loc _ (fun y => opp (RInt (fun x => f x y) v a))).
          -- apply (filter_imp Y); [|now apply Y_open]. intros q Q. apply (opp_RInt_swap (V := R_CompleteNormedModule)).
             now apply col_int'.
          -- apply (continuous_opp (fun y => RInt (fun x => f x y) v a)). apply col_continuous; auto; lra.
      + apply RInt_ext. rewrite Rmin_left, Rmax_right by lra. intros y Hy. apply is_derive_unique, col_derive; auto.
        apply (Y_convex c d); auto; lra.
    - now apply row_continuous. }
  apply is_RInt_unique in I. rewrite I.
  rewrite (RInt_ext (fun y => RInt (fun x => f x y) a a) (fun _ => 0)).
  - rewrite RInt_const. unfold minus, plus, opp, scal; simpl. unfold mult; simpl. ring.
  - intros y _. apply (RInt_point (V := R_CompleteNormedModule)).
Qed.
End Box.

(** The two ends of an open interval [X], as filters. *)
Definition spans (X : R -> Prop) (lo hi : (R -> Prop) -> Prop) : Prop :=
  (exists x, X x) /\ forall x, X x -> lo (fun a => X a /\ a < x) /\ hi (fun b => X b /\ x < b).

Section Sup.
Variable X : R -> Prop.
Variables lo hi : (R -> Prop) -> Prop.
Context {F1 : ProperFilter lo} {F2 : ProperFilter hi}.
Hypothesis X_convex : forall a b x, X a -> X b -> a <= x <= b -> X x.
Hypothesis X_span : spans X lo hi.
Variable g : R -> R.
Hypothesis g_cont : forall x, X x -> continuous g x.
Hypothesis g_pos : forall x, X x -> 0 <= g x.

Lemma part_int a b : X a -> X b -> a <= b -> ex_RInt g a b.
Proof.
  intros A B L. apply (ex_RInt_continuous g). rewrite Rmin_left, Rmax_right by lra.
  intros x Hx. apply g_cont. now apply (X_convex a b).
Qed.
Lemma part_mono x x' y y' : X x' -> X y' -> x' <= x -> x <= y -> y <= y' -> RInt g x y <= RInt g x' y'.
Proof.
  intros P Q L1 L2 L3.
  assert (Xx : X x) by (apply (X_convex x' y'); auto; lra). assert (Xy : X y) by (apply (X_convex x' y'); auto; lra).
  rewrite <- (RInt_Chasles g x' x y'), <- (RInt_Chasles g x y y') by (apply part_int; auto; lra).
  assert (0 <= RInt g x' x) by (apply RInt_ge_0; [lra|apply part_int; auto; lra|intros; apply g_pos; apply (X_convex x' x); auto; lra]).
  assert (0 <= RInt g y y') by (apply RInt_ge_0; [lra|apply part_int; auto; lra|intros; apply g_pos; apply (X_convex y y'); auto; lra]).
  unfold plus; simpl. lra.
Qed.
(** The improper integral is the least upper bound of the proper ones. *)
Lemma mass_bound m a b : is_RInt_gen g lo hi m -> X a -> X b -> a <= b -> RInt g a b <= m.
Proof.
  intros M A B L. destruct (Rle_dec (RInt g a b) m) as [|N]; [assumption|exfalso].
  assert (E : 0 < RInt g a b - m) by lra.
  specialize (M (ball m (mkposreal _ E)) (locally_ball m (mkposreal _ E))). unfold filtermapi in M.
  assert (W : filter_prod lo hi (fun ab => (X (fst ab) /\ fst ab < a) /\ (X (snd ab) /\ b < snd ab))).
  { apply (Filter_prod _ _ _ _ _ (proj1 (proj2 X_span a A)) (proj2 (proj2 X_span b B))). intros; now split. }
  destruct (filter_ex _ (filter_and _ _ W M)) as ((a' & b') & ((Xa & La) & (Xb & Lb)) & y & I & Hy). simpl in *.
  unfold ball in Hy; simpl in Hy. unfold AbsRing_ball, abs, minus, plus, opp in Hy; simpl in Hy. apply Rabs_def2 in Hy.
  apply (is_RInt_unique g a' b' y) in I. pose proof (part_mono a a' b b' Xa Xb ltac:(lra) L ltac:(lra)). lra.
Qed.
Lemma mass_near m e : is_RInt_gen g lo hi m -> 0 < e -> exists a b, X a /\ X b /\ a <= b /\ m - e < RInt g a b.
Proof.
  intros M E. specialize (M (ball m (mkposreal _ E)) (locally_ball m (mkposreal _ E))). unfold filtermapi in M.
  destruct X_span as ((x & Hx) & Sp).
  assert (W : filter_prod lo hi (fun ab => (X (fst ab) /\ fst ab < x) /\ (X (snd ab) /\ x < snd ab))).
  { apply (Filter_prod _ _ _ _ _ (proj1 (Sp x Hx)) (proj2 (Sp x Hx))). intros; now split. }
  destruct (filter_ex _ (filter_and _ _ W M)) as ((a' & b') & ((Xa & La) & (Xb & Lb)) & y & I & Hy). simpl in *.
  unfold ball in Hy; simpl in Hy. unfold AbsRing_ball, abs, minus, plus, opp in Hy; simpl in Hy. apply Rabs_def2 in Hy.
  apply (is_RInt_unique g a' b' y) in I. exists a', b'. repeat split; auto; lra.
Qed.
Lemma mass_is_sup m : (forall a b, X a -> X b -> a <= b -> RInt g a b <= m) ->
  (forall e, 0 < e -> exists a b, X a /\ X b /\ a <= b /\ m - e < RInt g a b) -> is_RInt_gen g lo hi m.
Proof.
  intros Ub Near P (e & He). unfold filtermapi. destruct (Near e (cond_pos e)) as (a & b & A & B & L & N).
  apply (Filter_prod _ _ _ _ _ (proj1 (proj2 X_span a A)) (proj2 (proj2 X_span b B))).
  intros a' b' (Xa & La) (Xb & Lb). simpl. exists (RInt g a' b').
  split; [apply (RInt_correct g), part_int; auto; lra|]. apply He.
  pose proof (Ub a' b' Xa Xb ltac:(lra)). pose proof (part_mono a a' b b' Xa Xb ltac:(lra) L ltac:(lra)).
  unfold ball; simpl. unfold AbsRing_ball, abs, minus, plus, opp; simpl. apply Rabs_def1; pose proof (cond_pos e); lra.
Qed.
End Sup.

Section Half.
Variables X Y : R -> Prop.
Variables xlo xhi ylo yhi : (R -> Prop) -> Prop.
Context {F1 : ProperFilter xlo} {F2 : ProperFilter xhi} {F3 : ProperFilter ylo} {F4 : ProperFilter yhi}.
Hypothesis X_convex : forall a b x, X a -> X b -> a <= x <= b -> X x.
Hypothesis Y_convex : forall a b x, Y a -> Y b -> a <= x <= b -> Y x.
Hypothesis X_open : forall x, X x -> locally x X.
Hypothesis Y_open : forall y, Y y -> locally y Y.
Hypothesis X_span : spans X xlo xhi.
Hypothesis Y_span : spans Y ylo yhi.
Variable f : R -> R -> R.
Hypothesis f_cont : forall x y, X x -> Y y -> continuity_2d_pt f x y.
Hypothesis f_pos : forall x y, X x -> Y y -> 0 <= f x y.
Variables g k : R -> R.
Hypothesis g_cont : forall x, X x -> continuous g x.
Hypothesis k_cont : forall y, Y y -> continuous k y.
Hypothesis g_row : forall x, X x -> is_RInt_gen (f x) ylo yhi (g x).
Hypothesis k_col : forall y, Y y -> is_RInt_gen (fun x => f x y) xlo xhi (k y).

(** Dini: the partial integrals over the columns approach [k] uniformly on a compact. *)
Lemma dini c d e : Y c -> Y d -> c <= d -> 0 < e ->
  exists a b, X a /\ X b /\ a <= b /\ forall y, c <= y <= d -> k y - e <= RInt (fun x => f x y) a b.
Proof.
  intros C D L E.
  apply (creep (fun u v => exists a b, X a /\ X b /\ a <= b /\ forall y, u <= y <= v -> k y - e <= RInt (fun x => f x y) a b) c d L).
  - intros t T. assert (Yt : Y t) by (now apply (Y_convex c d)).
    assert (H : exists a b, X a /\ X b /\ a <= b /\ k t - e / 2 < RInt (fun x => f x t) a b).
    { apply (mass_near X xlo xhi) with (m := k t); auto; lra. }
    destruct H as (a & b & A & B & Lab & N).
    assert (Cq : continuous (fun y => minus (k y) (RInt (fun x => f x y) a b)) t).
    { apply (continuous_minus k (fun y => RInt (fun x => f x y) a b)); [now apply k_cont|].
      now apply (col_continuous X Y). }
    assert (E2 : 0 < e / 2) by lra.
    destruct (Cq _ (locally_ball _ (mkposreal _ E2))) as (r & Hr).
    exists r. split; [apply cond_pos|]. intros u v U V Luv Hu Hv. exists a, b. repeat split; auto. intros y Hy.
    assert (W : ball (minus (k t) (RInt (fun x => f x t) a b)) (e / 2) (minus (k y) (RInt (fun x => f x y) a b))).
    { apply (Hr y). unfold ball; simpl. unfold AbsRing_ball, abs, minus, plus, opp; simpl. apply Rabs_def1; lra. }
    unfold ball in W; simpl in W. unfold AbsRing_ball, abs, minus, plus, opp in W; simpl in W. apply Rabs_def2 in W. lra.
  - intros u v w U W L1 L2 (a & b & A & B & Lab & H) (a' & b' & A' & B' & Lab' & H').
    exists (Rmin a a'), (Rmax b b').
    assert (Xm : X (Rmin a a')) by (unfold Rmin; destruct (Rle_dec a a'); assumption).
    assert (XM : X (Rmax b b')) by (unfold Rmax; destruct (Rle_dec b b'); assumption).
    pose proof (Rmin_l a a'). pose proof (Rmin_r a a'). pose proof (Rmax_l b b'). pose proof (Rmax_r b b').
    repeat split; auto; [lra|]. intros y Hy. assert (Yy : Y y) by (apply (Y_convex c d); auto; lra).
    destruct (Rle_dec y v).
    + apply Rle_trans with (RInt (fun x => f x y) a b); [apply H; lra|].
      apply (part_mono X); auto. intros x Hx. now apply (continuous_x f), f_cont.
    + apply Rle_trans with (RInt (fun x => f x y) a' b'); [apply H'; lra|].
      apply (part_mono X); auto. intros x Hx. now apply (continuous_x f), f_cont.
Qed.
Lemma tonelli_half M : (forall a b, X a -> X b -> a <= b -> RInt g a b <= M) ->
  forall c d, Y c -> Y d -> c <= d -> RInt k c d <= M.
Proof.
  intros Ub c d C D L. destruct (Rle_dec (RInt k c d) M) as [|N]; [assumption|exfalso].
  set (e := (RInt k c d - M) / (d - c + 1)). assert (E : 0 < e) by (apply Rdiv_lt_0_compat; lra).
  destruct (dini c d e C D L E) as (a & b & A & B & Lab & H).
  assert (Ik : ex_RInt k c d) by (now apply (part_int Y)).
  assert (Ic : ex_RInt (fun y => RInt (fun x => f x y) a b) c d).
  { apply (part_int Y); auto. intros y Hy. now apply (col_continuous X Y). }
  assert (Im : is_RInt (fun y => k y - e) c d (RInt k c d - (d - c) * e)).
  { apply (is_RInt_minus (V := R_NormedModule) k (fun _ => e)); [apply (RInt_correct k), Ik|apply (is_RInt_const (V := R_NormedModule))]. }
  assert (S1 : RInt (fun y => k y - e) c d <= RInt (fun y => RInt (fun x => f x y) a b) c d).
  { apply RInt_le; auto.
    - eexists; exact Im.
    - intros y Hy. apply H. lra. }
  rewrite (is_RInt_unique _ _ _ _ Im) in S1.
  rewrite <- (fubini_box X Y X_convex Y_convex X_open Y_open f f_cont a b c d A B Lab C D L) in S1.
  assert (S2 : RInt (fun x => RInt (f x) c d) a b <= RInt g a b).
  { apply RInt_le; auto.
    - apply (part_int X); auto. intros x Hx. now apply (row_continuous X Y).
    - now apply (part_int X).
    - intros x Hx. assert (Xx : X x) by (apply (X_convex a b); auto; lra).
      apply (mass_bound Y ylo yhi Y_convex Y_span (f x)); auto. intros y Hy. now apply continuous_y, f_cont. }
  specialize (Ub a b A B Lab).
  assert (Q : (d - c) * e < RInt k c d - M).
  { unfold e. apply (Rmult_lt_reg_r (d - c + 1)); [lra|]. unfold Rdiv. rewrite !Rmult_assoc, Rinv_l by lra. nra. }
  lra.
Qed.
End Half.

Section Tonelli.
Variables X Y : R -> Prop.
Variables xlo xhi ylo yhi : (R -> Prop) -> Prop.
Context {F1 : ProperFilter xlo} {F2 : ProperFilter xhi} {F3 : ProperFilter ylo} {F4 : ProperFilter yhi}.
Hypothesis X_convex : forall a b x, X a -> X b -> a <= x <= b -> X x.
Hypothesis Y_convex : forall a b x, Y a -> Y b -> a <= x <= b -> Y x.
Hypothesis X_open : forall x, X x -> locally x X.
Hypothesis Y_open : forall y, Y y -> locally y Y.
Hypothesis X_span : spans X xlo xhi.
Hypothesis Y_span : spans Y ylo yhi.
Variable f : R -> R -> R.
Hypothesis f_cont : forall x y, X x -> Y y -> continuity_2d_pt f x y.
Hypothesis f_pos : forall x y, X x -> Y y -> 0 <= f x y.
Variables g k : R -> R.
Hypothesis g_cont : forall x, X x -> continuous g x.
Hypothesis k_cont : forall y, Y y -> continuous k y.
Hypothesis g_row : forall x, X x -> is_RInt_gen (f x) ylo yhi (g x).
Hypothesis k_col : forall y, Y y -> is_RInt_gen (fun x => f x y) xlo xhi (k y).

Lemma row_pos x : X x -> 0 <= g x.
Proof.
  intros Hx. destruct Y_span as ((y & Hy) & _).
  apply Rle_trans with (RInt (f x) y y); [rewrite RInt_point; apply Rle_refl|].
  apply (mass_bound Y ylo yhi Y_convex Y_span (f x)); auto; [intros; now apply continuous_y, f_cont|lra].
Qed.
Lemma col_pos y : Y y -> 0 <= k y.
Proof.
  intros Hy. destruct X_span as ((x & Hx) & _).
  apply Rle_trans with (RInt (fun x => f x y) x x); [rewrite RInt_point; apply Rle_refl|].
  apply (mass_bound X xlo xhi X_convex X_span (fun x => f x y)); auto; [intros; now apply (continuous_x f), f_cont|lra].
Qed.
Theorem tonelli m : is_RInt_gen g xlo xhi m -> is_RInt_gen k ylo yhi m.
Proof.
  intros M. apply (mass_is_sup Y ylo yhi Y_convex Y_span k k_cont col_pos).
  - apply (tonelli_half X Y xlo xhi ylo yhi X_convex Y_convex X_open Y_open X_span Y_span f f_cont f_pos g k); auto.
    intros a b A B L. apply (mass_bound X xlo xhi X_convex X_span g g_cont row_pos m a b M A B L).
  - intros e E.
    destruct (Classical_Prop.classic (exists a b, Y a /\ Y b /\ a <= b /\ m - e < RInt k a b)) as [H|H]; [exact H|exfalso].
    assert (Ub : forall c d, Y c -> Y d -> c <= d -> RInt k c d <= m - e).
    { intros c d C D L. destruct (Rle_dec (RInt k c d) (m - e)); [assumption|]. exfalso. apply H. exists c, d. repeat split; auto; lra. }
    pose proof (tonelli_half Y X ylo yhi xlo xhi Y_convex X_convex Y_open X_open Y_span X_span (fun y x => f x y)
      (fun y x Hy Hx => continuity_2d_swap f x y (f_cont x y Hx Hy)) (fun y x Hy Hx => f_pos x y Hx Hy) k g k_cont g_cont k_col g_row (m - e) Ub) as W.
    destruct (mass_near X xlo xhi X_span g m e M E) as (a & b & A & B & L & N).
    specialize (W a b A B L). lra.
Qed.
End Tonelli.
