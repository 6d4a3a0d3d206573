(** Differentiation under the integral sign. *)
From Coq Require Import List Reals Lra Lia FunctionalExtensionality.
From Coquelicot Require Import Coquelicot.
From Verif Require Import SpecVolume SpecExpect ProofVolume ProofChange ProofExpect.
Import ListNotations.
Local Open Scope R_scope.

Section Cube.
Context {J : Type} (dec : forall i j : J, {i = j} + {i <> j}).
Notation upd := (upd dec).
Notation cube := (cube_integral dec).
Lemma cube_derive B (l : list J) (F F' : (J -> R) -> R) i : 0 <= B -> ~ In i l -> cont F -> cont F' ->
  (forall y s, is_derive (fun t => F (upd y i t)) s (F' (upd y i s))) ->
  forall y s, is_derive (fun t => cube B l F (upd y i t)) s (cube B l F' (upd y i s)).
Proof.
  intros HB Hi CF CF' D. induction l as [|j l IH]; intros y s; [apply D|].
  assert (Nij : i <> j) by (intros ->; apply Hi; now left). specialize (IH (fun H => Hi (or_intror H))).
  cbn [cube_integral].
  assert (CG : cont (cube B l F)) by now apply cube_cont. assert (CG' : cont (cube B l F')) by now apply cube_cont.
  assert (DD : forall u t, is_derive (fun z => cube B l F (upd (upd y i z) j t)) u (cube B l F' (upd (upd y i u) j t))).
  { intros u t. rewrite upd_comm by exact Nij. eapply is_derive_ext; [|apply IH]. intros z. cbv beta. f_equal. apply upd_comm. congruence. }
  rewrite (RInt_ext _ (fun t => Derive (fun u => cube B l F (upd (upd y i u) j t)) s)).
  2:{ intros t _. symmetry. now apply is_derive_unique. }
  apply (is_derive_RInt_param (fun u t => cube B l F (upd (upd y i u) j t))).
  - apply filter_forall. intros u t _. eexists. apply DD.
  - intros t _. apply (continuity_2d_pt_ext (fun u v => cube B l F' (upd (upd y i u) j v))).
    + intros u v. symmetry. now apply is_derive_unique.
    + apply cont_2d; [exact Nij|exact CG'].
  - apply filter_forall. intros u. now apply cube_line_int.
Qed.
Lemma cube_tail B0 B (l : list J) (F G : (J -> R) -> R) x : 0 <= B0 <= B -> cont F -> cont G -> (forall y, Rabs (F y) <= G y) ->
  Rabs (cube B l F x - cube B0 l F x) <= cube B l G x - cube B0 l G x.
Proof.
  intros HB CF CG H.
  assert (C2 : cont (fun y => (-1) * F y)) by (apply cont_mult; [apply cont_const|exact CF]).
  assert (A1 : cube B0 l (fun y => G y + F y) x <= cube B l (fun y => G y + F y) x).
  { apply cube_grow; [lra|lra|now apply cont_plus|]. intros y. specialize (H y). apply Rabs_le_between in H. lra. }
  assert (A2 : cube B0 l (fun y => G y + (-1) * F y) x <= cube B l (fun y => G y + (-1) * F y) x).
  { apply cube_grow; [lra|lra|now apply cont_plus|]. intros y. specialize (H y). apply Rabs_le_between in H. lra. }
  rewrite !cube_plus in A1, A2 by (auto; lra). rewrite !cube_scal in A2 by (auto; lra).
  apply Rabs_le. lra.
Qed.
End Cube.

Section Param.
Context {J : Type} (dec : forall i j : J, {i = j} + {i <> j}) (L : list J).
Definition option_dec (a b : option J) : {a = b} + {a <> b}.
Proof. decide equality. Defined.
Definition with_param (t : R) (x : J -> R) (o : option J) : R := match o with None => t | Some j => x j end.

Lemma cube_joined B (f : R -> (J -> R) -> R) (l : list J) : forall y, cube_integral option_dec B (map Some l) (joined f) y = cube_integral dec B l (f (y None)) (fun j => y (Some j)).
Proof.
  induction l as [|i l IH]; intros y; [reflexivity|]. cbn [map cube_integral]. apply RInt_ext. intros t _. rewrite IH.
  f_equal.
  extensionality j. unfold upd. destruct (dec i j) as [->|N]; [now destruct (option_dec (Some j) (Some j))|].
  destruct (option_dec (Some i) (Some j)); [congruence|reflexivity].
Qed.
Lemma joined_at (f : R -> (J -> R) -> R) t : cont (joined f) -> cont (f t).
Proof.
  intros C. apply (cont_ext (fun x => joined f (with_param t x))); [reflexivity|].
  intros x e He. destruct (C (with_param t x) e He) as (d & D & H). exists d. split; [exact D|]. intros y N. apply H.
  intros [j|]; cbn; [apply N|]. unfold Rminus. now rewrite Rplus_opp_r, Rabs_R0.
Qed.
Lemma upd_none t x s : upd option_dec (with_param t x) None s = with_param s x.
Proof. extensionality o. now destruct o. Qed.
Lemma cube_param_derive B (f f' : R -> (J -> R) -> R) : 0 <= B -> cont (joined f) -> cont (joined f') -> (forall t x, is_derive (fun s => f s x) t (f' t x)) ->
  forall t x, is_derive (fun s => cube_integral dec B L (f s) x) t (cube_integral dec B L (f' t) x).
Proof.
  intros HB C C' D t x.
  pose proof (cube_derive option_dec B (map Some L) (joined f) (joined f') None HB
    ltac:(intros H; apply in_map_iff in H as (j & E & _); discriminate) C C'
    ltac:(intros y s; exact (D s (fun j => y (Some j)))) (with_param 0 x) t) as H.
  rewrite upd_none, cube_joined in H. eapply is_derive_ext; [|exact H].
  intros s. cbv beta. now rewrite upd_none, cube_joined.
Qed.

Lemma integral_derive (f f' : R -> (J -> R) -> R) (G : (J -> R) -> R) (v : R -> R) w theta r :
  0 < r -> cont (joined f) -> cont (joined f') -> (forall t x, is_derive (fun s => f s x) t (f' t x)) ->
  (forall t x, Rabs (t - theta) < r -> Rabs (f' t x) <= G x) -> integral dec L G w ->
  (forall t, Rabs (t - theta) < r -> integral dec L (f t) (v t)) ->
  exists d, integral dec L (f' theta) d /\ is_derive v theta d.
Proof.
  intros Hr C C' D Dom IG V. pose proof (integral_cont dec L _ _ IG) as CG.
  assert (R0 : Rabs (theta - theta) < r) by (unfold Rminus; now rewrite Rplus_opp_r, Rabs_R0).
  destruct (integral_dominated dec L (f' theta) G w (joined_at f' theta C') (fun x => Dom theta x R0) IG) as (d & Hd).
  exists d. split; [exact Hd|].
  set (zero := fun _ : J => 0).
  assert (Main : forall e, 0 < e -> exists rho, 0 < rho /\ forall t, Rabs (t - theta) < rho -> Rabs (v t - v theta - (t - theta) * d) <= e * Rabs (t - theta)).
  { intros e He. assert (He4 : 0 < e / 4) by lra.
    apply integral_iff in IG as (_ & _ & CvG). apply integral_iff in Hd as (_ & _ & Cvd).
    destruct (CvG (e / 8)) as (B1 & HB1 & X1); [lra|]. destruct (Cvd (e / 4)) as (B2 & HB2 & X2); [lra|].
    set (B0 := Rmax B1 B2). assert (M1 : B1 <= B0) by apply Rmax_l. assert (M2 : B2 <= B0) by apply Rmax_r.
    assert (HB0 : 0 <= B0) by lra.
    set (Phi := fun B t => cube_integral dec B L (f' t) zero).
    assert (Tail : forall B t, B0 <= B -> Rabs (t - theta) < r -> Rabs (Phi B t - Phi B0 t) <= e / 4).
    { intros B t HB Ht. eapply Rle_trans; [apply (cube_tail dec B0 B L (f' t) G zero)|].
      - lra. - now apply joined_at. - exact CG. - intros y. now apply Dom.
      - pose proof (X1 B ltac:(lra)) as Y. pose proof (X1 B0 M1) as Y0. fold zero in Y, Y0. apply Rabs_def2 in Y, Y0. lra. }
    assert (CP : continuous (Phi B0) theta).
    { pose proof (cube_cont option_dec B0 (map Some L) (joined f') HB0 C') as CC.
      pose proof (cont_line option_dec _ (with_param 0 zero) None CC theta) as K.
      eapply continuous_ext; [|exact K]. intros t. cbv beta. now rewrite upd_none, cube_joined. }
    apply continuity_pt_filterlim in CP. destruct (CP (e / 4) He4) as (rho & Hrho & K).
    exists (Rmin rho r). split; [now apply Rmin_pos|]. intros t Ht.
    assert (Ht1 : Rabs (t - theta) < rho) by (eapply Rlt_le_trans; [exact Ht|apply Rmin_l]).
    assert (Ht2 : Rabs (t - theta) < r) by (eapply Rlt_le_trans; [exact Ht|apply Rmin_r]).
    assert (Each : forall B, B0 <= B -> Rabs (cube_integral dec B L (f t) zero - cube_integral dec B L (f theta) zero - (t - theta) * d) <= 3 * (e / 4) * Rabs (t - theta)).
    { intros B HB.
      destruct (MVT_gen (fun s => cube_integral dec B L (f s) zero) theta t (Phi B)) as (xi & Hxi & E).
      - intros s _. exact (cube_param_derive B f f' (Rle_trans _ _ _ HB0 HB) C C' D s zero).
      - intros s _. apply continuity_pt_filterlim. apply (ex_derive_continuous (fun s => cube_integral dec B L (f s) zero)).
        eexists. exact (cube_param_derive B f f' (Rle_trans _ _ _ HB0 HB) C C' D s zero).
      - rewrite E. replace (Phi B xi * (t - theta) - (t - theta) * d) with ((Phi B xi - d) * (t - theta)) by ring.
        rewrite Rabs_mult. apply Rmult_le_compat_r; [apply Rabs_pos|].
        assert (Nx : Rabs (xi - theta) <= Rabs (t - theta)).
        { unfold Rmin, Rmax in Hxi. destruct (Rle_dec theta t).
          - rewrite !Rabs_pos_eq by lra. lra.
          - rewrite !Rabs_left1 by lra. lra. }
        pose proof (Tail B xi HB ltac:(lra)) as T1. pose proof (X2 B0 M2) as T3.
        assert (T2 : Rabs (Phi B0 xi - Phi B0 theta) < e / 4).
        { destruct (Req_dec xi theta) as [->|Nn]; [unfold Rminus; rewrite Rplus_opp_r, Rabs_R0; lra|].
          apply (K xi). split; [split; [exact Logic.I|now apply not_eq_sym]|]. apply Rle_lt_trans with (Rabs (t - theta)); [exact Nx|exact Ht1]. }
        fold zero in T3. change (Rabs (Phi B0 theta - d) < e / 4) in T3.
        apply Rabs_le_between in T1. apply Rabs_def2 in T2, T3. apply Rabs_le. lra. }
    apply Rnot_lt_le. intros Bad.
    set (gap := Rabs (v t - v theta - (t - theta) * d) - e * Rabs (t - theta)). assert (Hgap : 0 < gap) by (unfold gap; lra).
    pose proof (V t Ht2) as Vt. pose proof (V theta R0) as V0.
    apply integral_iff in Vt as (_ & _ & Cvt). apply integral_iff in V0 as (_ & _ & Cv0).
    destruct (Cvt (gap / 2)) as (B3 & HB3 & Y1); [lra|]. destruct (Cv0 (gap / 2)) as (B4 & HB4 & Y2); [lra|].
    set (B := Rmax B0 (Rmax B3 B4)).
    assert (N0 : B0 <= B) by apply Rmax_l.
    assert (N3 : B3 <= B) by (apply Rle_trans with (Rmax B3 B4); [apply Rmax_l|apply Rmax_r]).
    assert (N4 : B4 <= B) by (apply Rle_trans with (Rmax B3 B4); [apply Rmax_r|apply Rmax_r]).
    specialize (Each B N0). specialize (Y1 B N3). specialize (Y2 B N4). fold zero in Y1, Y2.
    set (a := cube_integral dec B L (f t) zero) in *. set (b := cube_integral dec B L (f theta) zero) in *.
    pose proof (Rabs_pos (t - theta)) as Pt.
    assert (Rabs (v t - v theta - (t - theta) * d) <= Rabs (a - b - (t - theta) * d) + (Rabs (a - v t) + Rabs (b - v theta))).
    { replace (v t - v theta - (t - theta) * d) with ((a - b - (t - theta) * d) + (- (a - v t) + (b - v theta))) by ring.
      eapply Rle_trans; [apply Rabs_triang|]. apply Rplus_le_compat_l. eapply Rle_trans; [apply Rabs_triang|]. rewrite Rabs_Ropp. apply Rle_refl. }
    assert (Rabs (v t - v theta - (t - theta) * d) = gap + e * Rabs (t - theta)) by (unfold gap; ring).
    assert (0 <= e * Rabs (t - theta)) by (apply Rmult_le_pos; lra). lra. }
  apply is_derive_Reals. intros e He. destruct (Main (e / 2)) as (rho & Hrho & K); [lra|].
  exists (mkposreal rho Hrho). intros h Hh Sh. cbn in Sh. specialize (K (theta + h)).
  replace (theta + h - theta) with h in K by ring. specialize (K Sh).
  replace ((v (theta + h) - v theta) / h - d) with ((v (theta + h) - v theta - h * d) / h) by (field; exact Hh).
  unfold Rdiv. rewrite Rabs_mult, Rabs_inv. pose proof (Rabs_pos_lt h Hh) as Ph.
  apply Rle_lt_trans with (e / 2 * Rabs h * / Rabs h).
  - apply Rmult_le_compat_r; [apply Rlt_le, Rinv_0_lt_compat, Ph|exact K].
  - rewrite Rmult_assoc, Rinv_r by lra. lra.
Qed.

Lemma smooth_derive (F : R -> (J -> R) -> R) theta : smooth_integrand dec L F theta ->
  exists r V F' d, 0 < r /\ (forall t, Rabs (t - theta) < r -> integral dec L (F t) (V t)) /\
    (forall x, is_derive (fun s => F s x) theta (F' x)) /\ integral dec L F' d /\ is_derive V theta d.
Proof.
  intros ((v & Hv) & F' & G & m & r & Hr & C & C' & D & Dom & HG).
  pose proof (integral_of_total dec L _ _ HG) as IG.
  pose (V := fun t => real (Lim_seq (fun n => cube_integral dec (INR n) L (F t) (fun _ => 0)))).
  assert (HV : forall t, Rabs (t - theta) < r -> integral dec L (F t) (V t)).
  { intros t Ht. destruct (integral_abs dec L _ _ Hv) as (a & Ia & _).
    destruct (integral_dominated dec L (F t) (fun x => Rabs (F theta x) + r * G x) (a + r * m)) as (u & Hu).
    - now apply joined_at.
    - intros x. destruct (MVT_gen (fun s => F s x) theta t (fun s => F' s x)) as (xi & Hxi & E).
      + intros s _. apply D.
      + intros s _. apply continuity_pt_filterlim. apply (ex_derive_continuous (fun s => F s x)). eexists. apply D.
      + assert (Nx : Rabs (xi - theta) < r).
        { apply Rle_lt_trans with (Rabs (t - theta)); [|exact Ht]. unfold Rmin, Rmax in Hxi. destruct (Rle_dec theta t).
          - rewrite !Rabs_pos_eq by lra. lra.
          - rewrite !Rabs_left1 by lra. lra. }
        specialize (Dom xi x Nx). replace (F t x) with (F theta x + F' xi x * (t - theta)) by lra.
        eapply Rle_trans; [apply Rabs_triang|]. apply Rplus_le_compat_l. rewrite Rabs_mult, Rmult_comm.
        apply Rmult_le_compat; try apply Rabs_pos; [lra|exact Dom].
    - apply integral_plus; [exact Ia|now apply integral_scal].
    - replace (V t) with u; [exact Hu|]. apply integral_iff in Hu as (_ & _ & Cv).
      unfold V. symmetry. rewrite (is_lim_seq_unique _ (Finite u)); [reflexivity|].
      apply is_lim_seq_spec. intros e. destruct (Cv e (cond_pos e)) as (B0 & HB0 & X).
      destruct (nfloor_ex B0 HB0) as (N & HN). exists (S N). intros n Hn. apply X.
      apply Rle_trans with (INR (S N)); [rewrite S_INR; lra|now apply le_INR]. }
  destruct (integral_derive F F' G V m theta r Hr C C' D Dom IG HV) as (d & Hd & Dv).
  exists r, V, (F' theta), d. split; [exact Hr|]. split; [exact HV|]. split; [intros x; apply D|]. split; assumption.
Qed.
End Param.
