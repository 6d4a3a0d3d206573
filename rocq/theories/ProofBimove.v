(** Invertible changes of variables: one coordinate at a time, in order, by a monotone
    function, or by renaming the coordinates. *)
From Coq Require Import List Reals Lra Lia Permutation FunctionalExtensionality.
From Coquelicot Require Import Coquelicot.
From Verif Require Import SpecVolume ProofVolume ProofChange.
Import ListNotations.
Local Open Scope R_scope.

Section Bimove.
Context {J : Type} (dec : forall i j : J, {i = j} + {i <> j}).
Notation upd := (upd dec).
Notation cube := (cube_integral dec).
Notation cont := (@cont J).
Implicit Types (x y : J -> R) (F G : (J -> R) -> R) (l : list J).
Context (L : list J) (L_once : NoDup L) (L_all : forall j, In j L).
Notation changes := (changes dec L).
Notation moves := (moves dec L).
Notation cc := (cc L).
Notation total := (total dec L).

Definition continuous_map (T : (J -> R) -> J -> R) : Prop := forall j, cont (fun x => T x j).
Definition bimoves (T : (J -> R) -> J -> R) (w : (J -> R) -> R) (S : (J -> R) -> J -> R) : Prop :=
  moves T w /\ continuous_map S /\ (forall x, T (S x) = x) /\ (forall x, S (T x) = x).

Lemma map_cont_comp T T' : continuous_map T -> continuous_map T' -> continuous_map (fun x => T' (T x)).
Proof. intros C C' j. apply (cont_comp L L_all (fun x => T' x j) T); auto. Qed.
Lemma bimoves_id : bimoves (fun x => x) (fun _ => 1) (fun x => x).
Proof. split; [apply moves_id|]. split; [intros j; apply cont_coord|]. split; reflexivity. Qed.
Lemma bimoves_ext T w S T' w' S' : (forall x, T x = T' x) -> (forall x, w x = w' x) -> (forall x, S x = S' x) -> bimoves T w S -> bimoves T' w' S'.
Proof.
  intros E E' E''. replace T' with T by (extensionality x; apply E). replace w' with w by (extensionality x; apply E').
  replace S' with S by (extensionality x; apply E''). auto.
Qed.
Lemma bimoves_comp T1 w1 S1 T2 w2 S2 : bimoves T1 w1 S1 -> bimoves T2 w2 S2 ->
  bimoves (fun x => T2 (T1 x)) (fun x => w1 x * w2 (T1 x)) (fun x => S1 (S2 x)).
Proof.
  intros (M1 & C1 & E1 & E1') (M2 & C2 & E2 & E2'). split; [now apply moves_comp|]. split; [now apply map_cont_comp|].
  split; intros x; [now rewrite E1|now rewrite E2'].
Qed.

(** The change of variables formula, in both directions. *)
Theorem total_bimoves T w S F v : bimoves T w S -> cont F -> (forall x, 0 <= F x) ->
  total F v <-> total (fun x => w x * F (T x)) v.
Proof.
  intros (M & CS & E & E') C P. pose proof M as (CT & W & Wp & H).
  set (G := fun x => w x * F (T x)). assert (CG : cont G) by now apply (cont_moved dec L L_all).
  assert (PG : forall x, 0 <= G x) by (intros x; apply Rmult_le_pos; [left; apply Wp|apply P]).
  assert (Below : forall B, 0 <= B -> exists B', 0 <= B' /\ cube B L F (fun _ => 0) <= cube B' L G (fun _ => 0)).
  { intros B Hb. now apply (moves_below dec L L_once L_all T w F B M). }
  assert (Above : forall B, 0 <= B -> exists B', 0 <= B' /\ cube B L G (fun _ => 0) <= cube B' L F (fun _ => 0)).
  { intros B Hb. destruct (cutoff L B Hb) as (chi & (Cchi & B1 & Hb1 & S1) & Rg & One).
    assert (Bd : exists M, 0 <= M /\ forall y j, (forall k, Rabs (y k) <= B1) -> Rabs (T y j) <= M).
    { assert (Q : forall l, exists M, 0 <= M /\ forall y j, In j l -> (forall k, Rabs (y k) <= B1) -> Rabs (T y j) <= M).
      { induction l as [|i l (M1 & P1 & H1)]; [exists 0; split; [lra|intros y j []]|].
        destruct (bounded dec L L_all B1 _ Hb1 (CT i)) as (M2 & P2 & H2). exists (Rmax M1 M2). split; [eapply Rle_trans; [exact P1|apply Rmax_l]|].
        intros y j [<-|Hj] Y; [eapply Rle_trans; [now apply H2|apply Rmax_r]|eapply Rle_trans; [now apply H1|apply Rmax_l]]. }
      destruct (Q L) as (M0 & P0 & H0). exists M0. split; [exact P0|]. intros y j. apply H0, L_all. }
    destruct Bd as (M0 & P0 & Bd).
    set (K := fun y => chi (S y) * F y).
    assert (CK : cont K) by (apply cont_mult; [apply (cont_comp L L_all chi S); assumption|exact C]).
    assert (Kc : cc K).
    { split; [exact CK|]. exists (M0 + 1). split; [lra|]. intros y (j & Hj & Hy). unfold K.
      destruct (Classical_Prop.classic (exists k, B1 <= Rabs (S y k))) as [(k & Hk)|N]; [rewrite (S1 (S y)); [ring|exists k; split; [apply L_all|exact Hk]]|].
      exfalso. assert (Q : Rabs (T (S y) j) <= M0).
      { apply Bd. intros k. destruct (Rle_dec (Rabs (S y k)) B1); [assumption|]. exfalso. apply N. exists k. lra. }
      rewrite E in Q. lra. }
    destruct (vol_ex dec L K Kc) as (u & U). destruct (H K Kc) as ((CwK & Bw & Hbw & Sw) & V). specialize (V u U).
    assert (EG : (fun x => w x * K (T x)) = (fun x => chi x * G x)) by (extensionality x; unfold K, G; rewrite E'; ring).
    rewrite EG in *. clear EG.
    set (B2 := Rmax B Bw). assert (Hb2 : 0 <= B2) by (eapply Rle_trans; [exact Hb|apply Rmax_l]).
    assert (E2 : u = cube B2 L (fun x => chi x * G x) (fun _ => 0)).
    { apply (vol_at dec L L_once _ u B2 CwK V Hb2). apply (supported_grow Bw); [apply Rmax_r|exact Sw]. }
    destruct U as (B3 & Hb3 & _ & E3). exists B3. split; [exact Hb3|].
    apply Rle_trans with u.
    - rewrite E2. apply Rle_trans with (cube B L (fun x => chi x * G x) (fun _ => 0)).
      + right. apply cube_ext; [exact Hb|]. intros y Y _. rewrite One; [ring|]. intros j. apply Y, L_all.
      + apply cube_grow; [exact Hb|apply Rmax_l|exact CwK|]. intros y. destruct (Rg y). specialize (PG y). nra.
    - rewrite E3. apply cube_le; [exact Hb3|exact CK|exact C|]. intros y. unfold K. destruct (Rg (S y)). specialize (P y). nra. }
  split; intros (U & Least); split.
  - intros m (B & Hb & ->). destruct (Above B Hb) as (B' & Hb' & Le). eapply Rle_trans; [exact Le|]. apply U. eauto.
  - intros b Ub. apply Least. intros m (B & Hb & ->). destruct (Below B Hb) as (B' & Hb' & Le). eapply Rle_trans; [exact Le|]. apply Ub. eauto.
  - intros m (B & Hb & ->). destruct (Below B Hb) as (B' & Hb' & Le). eapply Rle_trans; [exact Le|]. apply U. eauto.
  - intros b Ub. apply Least. intros m (B & Hb & ->). destruct (Above B Hb) as (B' & Hb' & Le). eapply Rle_trans; [exact Le|]. apply Ub. eauto.
Qed.

(** ** The elementary changes *)
Lemma cont_upd i (f : (J -> R) -> R) : cont f -> continuous_map (fun x => upd x i (f x)).
Proof.
  intros C j. destruct (dec i j) as [<-|N].
  - apply (cont_ext f); [intros x; now rewrite upd_same|exact C].
  - apply (cont_ext (fun x => x j)); [intros x; now rewrite upd_other|]. apply cont_coord.
Qed.
Definition unaffine (i : J) (a c : (J -> R) -> R) x := upd x i ((x i - c x) / a x).
Lemma bimoves_affine i a c : cont a -> cont c -> (forall x, a x <> 0) ->
  (forall x t, a (upd x i t) = a x) -> (forall x t, c (upd x i t) = c x) ->
  bimoves (affine dec i a c) (fun x => Rabs (a x)) (unaffine i a c).
Proof.
  intros Ca Cc N Ia Ic. split; [now apply moves_affine|]. split; [|split].
  - apply cont_upd. unfold Rdiv. apply cont_mult; [apply cont_minus; [apply cont_coord|exact Cc]|now apply cont_inv].
  - intros x. unfold affine, unaffine. rewrite Ia, Ic, upd_same, upd_twice. transitivity (upd x i (x i)); [|apply upd_id]. f_equal. field. apply N.
  - intros x. unfold affine, unaffine. rewrite Ia, Ic, upd_same, upd_twice. transitivity (upd x i (x i)); [|apply upd_id]. f_equal. field. apply N.
Qed.

(** Coefficients of a coordinate that depend on the earlier coordinates only. *)
Lemma bimoves_triangular a c l : NoDup l -> (forall j, In j l -> cont (a j)) -> (forall j, In j l -> cont (c j)) ->
  (forall j x, In j l -> a j x <> 0) -> earlier_only a l -> earlier_only c l ->
  exists S, bimoves (triangular dec a c l) (fun x => prodf l (fun j => Rabs (a j x))) S.
Proof.
  induction l as [|i l IH]; intros Nd Ca Cc Na Ea Ec.
  - exists (fun x => x). apply (bimoves_ext (fun x => x) (fun _ => 1) (fun x => x)); [intros x; extensionality j; reflexivity|reflexivity|reflexivity|apply bimoves_id].
  - inversion Nd; subst. destruct Ea as (Ea & Ea'). destruct Ec as (Ec & Ec').
    destruct IH as (S & M); auto; try (intros; try (apply Ca; now right); try (apply Cc; now right); apply Na; now right).
    assert (Ai : bimoves (affine dec i (a i) (c i)) (fun x => Rabs (a i x)) (unaffine i (a i) (c i))).
    { apply bimoves_affine; [apply Ca; now left|apply Cc; now left|intros x; apply Na; now left|..]; intros x t; [apply Ea|apply Ec]; intros j Hj;
      apply upd_other; intros <-; apply Hj; now left. }
    assert (Kept : forall x j, ~ In j (i :: l) -> triangular dec a c l x j = x j).
    { intros x j Hj. unfold triangular. destruct (in_dec dec j l) as [Q|Q]; [|reflexivity]. destruct Hj. now right. }
    eexists. eapply bimoves_ext; [| | |apply (bimoves_comp _ _ _ _ _ _ M Ai)]; [| |reflexivity].
    + intros x. extensionality j. unfold affine. rewrite (Ea _ x), (Ec _ x) by (intros k Hk; now apply Kept).
      unfold triangular at 2. destruct (dec i j) as [<-|Ne].
      * rewrite upd_same. unfold triangular. destruct (in_dec dec i l); [contradiction|]. destruct (in_dec dec i (i :: l)) as [|Q]; [reflexivity|]. destruct Q. now left.
      * rewrite upd_other by exact Ne. unfold triangular.
        destruct (in_dec dec j l) as [Q|Q], (in_dec dec j (i :: l)) as [Q'|Q']; try reflexivity.
        -- destruct Q'. now right.
        -- destruct Q' as [Q'|Q']; contradiction.
    + intros x. cbv beta. rewrite (Ea _ x) by (intros k Hk; now apply Kept). unfold prodf. cbn [map fold_right]. ring.
Qed.

(** A monotone function of one coordinate. *)
Section Monotone.
Variables (i : J) (g dg h : R -> R).
Hypothesis g_derive : forall t, is_derive g t (dg t).
Hypothesis dg_cont : forall t, continuous dg t.
Hypothesis dg_pos : forall t, 0 < dg t.
Hypothesis g_h : forall t, g (h t) = t.
Lemma g_cont t : continuous g t.
Proof. apply (ex_derive_continuous (V := R_NormedModule)). eexists. apply g_derive. Qed.
Lemma g_increasing s t : s < t -> g s < g t.
Proof. intros Hs. apply (incr_function g m_infty p_infty dg); try exact Logic.I; auto. intros; apply dg_pos. Qed.
Lemma g_injective s t : g s = g t -> s = t.
Proof. intros E. destruct (Rtotal_order s t) as [Q|[Q|Q]]; [|exact Q|]; apply g_increasing in Q; lra. Qed.
Lemma h_g t : h (g t) = t.
Proof. apply g_injective, g_h. Qed.
Lemma h_cont t : continuous h t.
Proof.
  intros P (e & He). set (s := h t). assert (Ep := cond_pos e).
  assert (U : g s < g (s + e)) by (apply g_increasing; lra). assert (D : g (s - e) < g s) by (apply g_increasing; lra).
  assert (Es : g s = t) by apply g_h.
  assert (Dp : 0 < Rmin (g (s + e) - t) (t - g (s - e))) by (apply Rmin_pos; lra).
  exists (mkposreal _ Dp). intros u Hu. apply He. unfold ball in *. cbn in *. unfold AbsRing_ball, abs, minus, plus, opp in *. cbn in *.
  pose proof (Rmin_l (g (s + e) - t) (t - g (s - e))). pose proof (Rmin_r (g (s + e) - t) (t - g (s - e))).
  apply Rabs_def2 in Hu. fold s. apply Rabs_def1.
  - destruct (Rlt_dec (h u) (s + e)) as [|N]; [lra|]. exfalso. assert (g (s + e) <= g (h u)); [|rewrite g_h in *; lra].
    destruct (Rle_lt_or_eq_dec (s + e) (h u)) as [Q|Q]; [lra|left; now apply g_increasing|right; now rewrite Q].
  - destruct (Rlt_dec (s - e) (h u)) as [|N]; [lra|]. exfalso. assert (g (h u) <= g (s - e)); [|rewrite g_h in *; lra].
    destruct (Rle_lt_or_eq_dec (h u) (s - e)) as [Q|Q]; [lra|left; now apply g_increasing|right; now rewrite Q].
Qed.
Definition stretch x := upd x i (g (x i)).
Definition unstretch x := upd x i (h (x i)).
Lemma bimoves_stretch : bimoves stretch (fun x => dg (x i)) unstretch.
Proof.
  assert (Cg : cont (fun x => g (x i))) by (apply (cont_fun g); [apply g_cont|apply cont_coord]).
  assert (Cw : cont (fun x => dg (x i))) by (apply (cont_fun dg); [apply dg_cont|apply cont_coord]).
  assert (CT : continuous_map stretch) by now apply cont_upd.
  split; [split; [exact CT|split; [exact Cw|split; [intros x; apply dg_pos|]]]|split; [|split]].
  - intros F (CF & B & Hb & S).
    set (B' := Rmax B (Rmax (Rabs (h B)) (Rabs (h (- B))))).
    assert (B1 : B <= B') by apply Rmax_l.
    assert (B2 : Rabs (h B) <= B') by (eapply Rle_trans; [|apply Rmax_r]; apply Rmax_l).
    assert (B3 : Rabs (h (- B)) <= B') by (eapply Rle_trans; [|apply Rmax_r]; apply Rmax_r).
    assert (Hb' : 0 <= B') by lra.
    assert (Up : B <= g B'). { rewrite <- (g_h B) at 1. pose proof (Rle_abs (h B)). destruct (Rle_lt_or_eq_dec (h B) B') as [Q|Q]; [lra|left; now apply g_increasing|right; now rewrite Q]. }
    assert (Down : g (- B') <= - B). { rewrite <- (g_h (- B)) at 1. pose proof (Rle_abs (- h (- B))). rewrite Rabs_Ropp in *. destruct (Rle_lt_or_eq_dec (- B') (h (- B))) as [Q|Q]; [lra|left; now apply g_increasing|right; now rewrite Q]. }
    assert (Far : forall t, B' <= Rabs t -> B <= Rabs (g t)).
    { intros t Ht. destruct (Rle_dec 0 t) as [P|P].
      - rewrite Rabs_pos_eq in Ht by exact P. eapply Rle_trans; [|apply Rle_abs]. eapply Rle_trans; [exact Up|].
        destruct (Rle_lt_or_eq_dec B' t) as [Q|Q]; [lra|left; now apply g_increasing|right; now rewrite Q].
      - rewrite Rabs_left in Ht by lra. rewrite <- Rabs_Ropp. eapply Rle_trans; [|apply Rle_abs].
        assert (g t <= g (- B')); [|lra]. destruct (Rle_lt_or_eq_dec t (- B')) as [Q|Q]; [lra|left; now apply g_increasing|right; now rewrite Q]. }
    assert (Cw' : cont (fun x => dg (x i) * F (stretch x))) by (apply cont_mult; [exact Cw|now apply (cont_comp L L_all F stretch)]).
    assert (Sw : supported B' L (fun x => dg (x i) * F (stretch x))).
    { intros y (j & _ & Hy). rewrite S; [ring|]. exists j. split; [apply L_all|]. unfold stretch.
      destruct (dec i j) as [<-|N]; [rewrite upd_same; now apply Far|]. rewrite upd_other by exact N. lra. }
    split; [split; [exact Cw'|exists B'; auto]|]. intros v V. exists B'. split; [exact Hb'|]. split; [exact Sw|].
    rewrite (vol_at dec L L_once F v B' CF V Hb' (supported_grow B B' L F B1 S)).
    destruct (in_split i L (L_all i)) as (l1 & l2 & El).
    assert (P : Permutation L ((l1 ++ l2) ++ [i])).
    { rewrite El. eapply perm_trans; [symmetry; apply Permutation_middle|]. apply Permutation_cons_append. }
    remember (l1 ++ l2) as l eqn:El'. clear El El' l1 l2.
    rewrite (cube_perm dec B' L _ F P Hb' CF), (cube_perm dec B' L _ _ P Hb' Cw'), !cube_app.
    apply cube_ext; [exact Hb'|]. intros y _ _. cbn [cube_integral]. symmetry.
    transitivity (RInt (fun t => scal (dg t) ((fun u => F (upd y i u)) (g t))) (- B') B').
    { apply RInt_ext. intros t _. unfold stretch. now rewrite upd_same, upd_twice. }
    transitivity (RInt (fun u => F (upd y i u)) (g (- B')) (g B')).
    { apply (RInt_comp (fun u => F (upd y i u)) g dg).
      - intros t _. now apply cont_line.
      - intros t _. split; [apply g_derive|apply dg_cont]. }
    assert (I : forall a b, ex_RInt (fun u => F (upd y i u)) a b) by (intros; now apply line_int).
    assert (Z : forall t, B <= Rabs t -> F (upd y i t) = 0) by (intros t Ht; apply S; exists i; split; [apply L_all|now rewrite upd_same]).
    rewrite (RInt_within (fun u => F (upd y i u)) B (g (- B')) (g B') I Z Hb Down Up).
    rewrite (RInt_within (fun u => F (upd y i u)) B (- B') B' I Z Hb); [reflexivity|lra|exact B1].
  - apply cont_upd. apply (cont_fun h); [apply h_cont|apply cont_coord].
  - intros x. unfold stretch, unstretch. rewrite upd_same, g_h, upd_twice. apply upd_id.
  - intros x. unfold stretch, unstretch. rewrite upd_same, h_g, upd_twice. apply upd_id.
Qed.
End Monotone.

(** Renaming the coordinates. *)
Section Rename.
Variables (s t : J -> J).
Hypothesis st : forall j, s (t j) = j.
Hypothesis ts : forall j, t (s j) = j.
Lemma upd_rename x i u : (fun j => upd x i u (s j)) = upd (fun j => x (s j)) (t i) u.
Proof.
  extensionality j. unfold SpecVolume.upd. destruct (dec i (s j)) as [E|E], (dec (t i) j) as [E'|E']; try reflexivity.
  - subst i. rewrite ts in E'. contradiction.
  - subst j. rewrite st in E. contradiction.
Qed.
Lemma cube_rename B l F : forall x, cube B l (fun x => F (fun j => x (s j))) x = cube B (map t l) F (fun j => x (s j)).
Proof.
  induction l as [|i l IH]; intros x; [reflexivity|]. cbn [map cube_integral]. apply RInt_ext. intros u _. rewrite IH. now rewrite upd_rename.
Qed.
Lemma bimoves_rename : bimoves (fun x j => x (s j)) (fun _ => 1) (fun x j => x (t j)).
Proof.
  split; [split; [|split; [|split]]|split; [|split]].
  - intros j. apply cont_coord.
  - apply cont_const.
  - intros; lra.
  - intros F (CF & B & Hb & S).
    assert (C' : cont (fun x => 1 * F (fun j => x (s j)))).
    { apply cont_mult; [apply cont_const|]. apply (cont_comp L L_all F (fun x j => x (s j)) CF). intros j. apply cont_coord. }
    assert (S' : supported B L (fun x => 1 * F (fun j => x (s j)))).
    { intros y (j & _ & Hy). rewrite S; [ring|]. exists (t j). split; [apply L_all|]. now rewrite st. }
    split; [split; [exact C'|exists B; auto]|]. intros v V. exists B. split; [exact Hb|]. split; [exact S'|].
    rewrite (vol_at dec L L_once F v B CF V Hb S).
    assert (P : Permutation (map t L) L).
    { apply NoDup_Permutation; [|exact L_once|].
      - apply FinFun.Injective_map_NoDup; [|exact L_once]. intros a b E. rewrite <- (st a), E. apply st.
      - intros j. split; intros _; [apply L_all|]. rewrite <- (ts j). apply in_map, L_all. }
    replace (fun x => 1 * F (fun j => x (s j))) with (fun x => F (fun j => x (s j))) by (extensionality x; ring).
    rewrite cube_rename. symmetry. now apply cube_perm.
  - intros j. apply cont_coord.
  - intros x. extensionality j. now rewrite ts.
  - intros x. extensionality j. now rewrite st.
Qed.
End Rename.
End Bimove.

Lemma inverse_function (g : R -> R) : (forall s t, s < t -> g s < g t) -> (forall y, exists x, g x = y) -> exists h, forall y, g (h y) = y.
Proof.
  intros Inc Sur.
  assert (Bd : forall y, bound (fun t => g t <= y)).
  { intros y. destruct (Sur y) as (x & E). exists x. intros t Ht. destruct (Rle_dec t x) as [|N]; [assumption|]. assert (g x < g t) by (apply Inc; lra). lra. }
  assert (Ne : forall y, exists t, g t <= y) by (intros y; destruct (Sur y) as (x & E); exists x; lra).
  exists (fun y => proj1_sig (completeness _ (Bd y) (Ne y))). intros y. destruct (completeness _ (Bd y) (Ne y)) as (m & U & Lst). cbn [proj1_sig].
  destruct (Sur y) as (x & E). replace m with x; [exact E|]. apply Rle_antisym; [apply U; lra|].
  apply Lst. intros t Ht. destruct (Rle_dec t x) as [|N]; [assumption|]. assert (g x < g t) by (apply Inc; lra). lra.
Qed.
