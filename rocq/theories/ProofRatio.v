(** The law of the ratios of independent gamma variables. *)
From Coq Require Import List Reals Lra Lia Permutation FunctionalExtensionality.
From Coquelicot Require Import Coquelicot.
From Verif Require Import SpecDensity ProofIntegral ProofDensity PropDensity ProofGammaFn ModelDist SpecVolume ProofVolume ProofChange ProofBimove ProofPart ProofPhase.
Import ListNotations.
Local Open Scope R_scope.

(** ** One coordinate *)
Definition unit_dec (a b : unit) : {a = b} + {a <> b}.
Proof. decide equality. Defined.
(** The logarithm of a gamma variable: the integral of exp(a t - e^t) is Gamma(a). *)
Lemma log_gamma_cube a B : 0 <= B -> RInt (fun t => exp (a * t - exp t)) (- B) B = RInt (eul a) (exp (- B)) (exp B).
Proof.
  intros Hb. rewrite <- (RInt_comp (V := R_CompleteNormedModule) (eul a) exp exp).
  - apply RInt_ext. intros t _. unfold eul. change (exp (a * t - exp t) = exp t * (Rpower (exp t) (a - 1) * exp (- exp t))).
    unfold Rpower. rewrite ln_exp, <- !exp_plus. f_equal. ring.
  - intros t _. apply euler_continuous, exp_pos.
  - intros t _. split; [apply is_derive_exp|apply continuous_exp].
Qed.
Lemma total_log_gamma a m : mass (fun t => Rpower t (a - 1) * exp (- t)) (at_right 0) to_plus_infinity m ->
  total unit_dec [tt] (fun x => exp (a * x tt - exp (x tt))) m.
Proof.
  intros M. change (is_RInt_gen (eul a) (at_right 0) (Rbar_locally p_infty) m) in M.
  assert (Cube : forall B, 0 <= B -> cube_integral unit_dec B [tt] (fun x => exp (a * x tt - exp (x tt))) (fun _ => 0) = RInt (eul a) (exp (- B)) (exp B)).
  { intros B Hb. cbn [cube_integral]. rewrite <- log_gamma_cube by exact Hb. reflexivity. }
  assert (Mono : forall x x' y y', 0 < x' -> x' <= x -> x <= y -> y <= y' -> RInt (eul a) x y <= RInt (eul a) x' y').
  { apply f_mono; [intros; now apply eul_pos|intros; now apply euler_continuous]. }
  assert (Near : forall e, 0 < e -> exists x0 y0, 0 < x0 /\ x0 <= y0 /\ forall x y, 0 < x -> x <= x0 -> y0 <= y -> Rabs (RInt (eul a) x y - m) < e).
  { intros e He. destruct (M _ (locally_ball m (mkposreal e He))) as [P Q HP HQ H]. destruct HP as (d & HP). destruct HQ as (N & HQ).
    pose proof (cond_pos d) as Hd. exists (d / 2), (Rmax (d / 2) (N + 1)). split; [lra|]. split; [apply Rmax_l|].
    intros x y Hx Hx' Hy. destruct (H x y) as (z & Hz & Bz).
    - apply HP; [|exact Hx]. unfold ball; cbn; unfold AbsRing_ball, abs, minus, plus, opp; cbn. rewrite Rabs_pos_eq; lra.
    - apply HQ. pose proof (Rmax_r (d / 2) (N + 1)). lra.
    - cbn [fst snd] in Hz. rewrite (is_RInt_unique _ _ _ _ Hz). exact Bz. }
  split.
  - intros v (B & Hb & ->). rewrite Cube by exact Hb. apply le_epsilon. intros e He. destruct (Near e He) as (x0 & y0 & Hx0 & Le & H).
    set (x := Rmin x0 (exp (- B))). set (y := Rmax y0 (exp B)).
    assert (0 < x) by (apply Rmin_glb_lt; [exact Hx0|apply exp_pos]).
    apply Rle_trans with (RInt (eul a) x y).
    + apply Mono; [assumption|apply Rmin_r|apply exp_le; lra|apply Rmax_r].
    + specialize (H x y ltac:(assumption) (Rmin_l _ _) (Rmax_l _ _)). pose proof (Rle_abs (RInt (eul a) x y - m)). lra.
  - intros b Ub. apply le_epsilon. intros e He. destruct (Near e He) as (x0 & y0 & Hx0 & Le & H).
    set (B := Rmax 0 (Rmax (- ln x0) (ln y0))). assert (Hb : 0 <= B) by apply Rmax_l.
    assert (B1 : - ln x0 <= B) by (eapply Rle_trans; [apply Rmax_l|apply Rmax_r]).
    assert (B2 : ln y0 <= B) by (eapply Rle_trans; [apply Rmax_r|apply Rmax_r]).
    specialize (H (exp (- B)) (exp B) (exp_pos _)).
    assert (exp (- B) <= x0) by (rewrite <- (exp_ln x0) by exact Hx0; apply exp_le; lra).
    assert (y0 <= exp B) by (rewrite <- (exp_ln y0) by lra; apply exp_le; lra).
    specialize (H ltac:(assumption) ltac:(assumption)). specialize (Ub (RInt (eul a) (exp (- B)) (exp B))).
    assert (RInt (eul a) (exp (- B)) (exp B) <= b) by (apply Ub; exists B; split; [exact Hb|now rewrite Cube]).
    pose proof (Rabs_def2 _ _ H). lra.
Qed.

Section Groups.
Context {J A B : Type} (dec : forall i j : J, {i = j} + {i <> j}) (decA : forall i j : A, {i = j} + {i <> j}) (decB : forall i j : B, {i = j} + {i <> j}).
Context (L : list J) (LA : list A) (LB : list B) (a : A -> J) (b : B -> J).
Hypothesis a_inj : forall i j, a i = a j -> i = j.
Hypothesis b_inj : forall i j, b i = b j -> i = j.
Hypothesis apart : forall i j, a i <> b j.
Hypothesis LB_all : forall i, In i LB.
Hypothesis groups : Permutation L (map a LA ++ map b LB).
(** An independent factor of positive mass may be left out. *)
Lemma total_groups_iff (f : (A -> R) -> R) (g : (B -> R) -> R) v w : cont f -> cont g -> (forall q, 0 <= f q) -> (forall q, 0 <= g q) ->
  total decB LB g w -> 0 < w ->
  total dec L (fun x => f (fun i => x (a i)) * g (fun i => x (b i))) (v * w) <-> total decA LA f v.
Proof.
  intros Cf Cg Pf Pg Tg Hw. split; [|intros Tf; now apply (total_groups dec decA decB L LA LB a b)].
  intros T. pose proof T as (U & _).
  assert (Ng : forall B, 0 <= B -> 0 <= cube_integral decB B LB g (fun _ => 0)) by (intros; now apply cube_pos).
  assert (Nf : forall B, 0 <= B -> 0 <= cube_integral decA B LA f (fun _ => 0)) by (intros; now apply cube_pos).
  assert (E : exists B0, 0 <= B0 /\ 0 < cube_integral decB B0 LB g (fun _ => 0)).
  { destruct (Classical_Prop.classic (exists B0, 0 <= B0 /\ 0 < cube_integral decB B0 LB g (fun _ => 0))) as [?|N]; [assumption|]. exfalso.
    assert (w <= 0); [|lra]. apply Tg. intros m (B0 & Hb & ->). destruct (Rle_dec (cube_integral decB B0 LB g (fun _ => 0)) 0) as [?|Q]; [assumption|].
    exfalso. apply N. exists B0. split; [exact Hb|lra]. }
  destruct E as (B0 & Hb0 & P0). set (g0 := cube_integral decB B0 LB g (fun _ => 0)) in *.
  assert (Bd : bound (fun m => exists B, 0 <= B /\ m = cube_integral decA B LA f (fun _ => 0))).
  { exists (v * w / g0). intros m (B1 & Hb1 & ->). apply Rmult_le_reg_r with g0; [exact P0|]. replace (v * w / g0 * g0) with (v * w) by (field; lra).
    assert (Hm : 0 <= Rmax B0 B1) by (apply Rle_trans with B0; [exact Hb0|apply Rmax_l]).
    apply Rle_trans with (cube_integral dec (Rmax B0 B1) L (fun x => f (fun i => x (a i)) * g (fun i => x (b i))) (fun _ => 0)); [|apply U; eauto].
    rewrite (cube_groups dec decA decB L LA LB a b a_inj b_inj apart LB_all groups) by assumption.
    apply Rmult_le_compat; auto; [apply Ng; exact Hb0|apply cube_grow; auto; apply Rmax_r|apply cube_grow; auto; apply Rmax_l]. }
  destruct (completeness _ Bd) as (v' & Tv'); [exists (cube_integral decA 0 LA f (fun _ => 0)), 0; split; [lra|reflexivity]|].
  pose proof (total_groups dec decA decB L LA LB a b a_inj b_inj apart LB_all groups f g v' w Cf Cg Pf Pg Tv' Tg) as T'.
  replace v with v'; [exact Tv'|]. pose proof (total_unique dec L _ _ _ T T') as E. apply (Rmult_eq_reg_r w); lra.
Qed.
End Groups.

(** ** Ratios *)
Section Ratio.
Context {I : Type} (dec : forall i j : I, {i = j} + {i <> j}) (L : list I).
Hypothesis L_once : NoDup L.
Hypothesis L_all : forall i, In i L.
Definition odec (a b : option I) : {a = b} + {a <> b}.
Proof. decide equality. Defined.
Definition olist : list (option I) := map Some L ++ [None].
Lemma olist_once : NoDup olist.
Proof.
  unfold olist. eapply Permutation_NoDup; [apply Permutation_app_comm|]. cbn. constructor.
  - intros H. apply in_map_iff in H. destruct H as (i & E & _). discriminate.
  - apply FinFun.Injective_map_NoDup; [intros i j E; now injection E|exact L_once].
Qed.
Lemma olist_all j : In j olist.
Proof. unfold olist. apply in_or_app. destruct j; [left; now apply in_map|right; now left]. Qed.

Definition sumf {A} (l : list A) (f : A -> R) : R := fold_right Rplus 0 (map f l).
Lemma sumf_ext {A} (l : list A) f g : (forall a, In a l -> f a = g a) -> sumf l f = sumf l g.
Proof. intros H. unfold sumf. f_equal. now apply map_ext_in. Qed.
Lemma sumf_app {A} (l l' : list A) f : sumf (l ++ l') f = sumf l f + sumf l' f.
Proof. unfold sumf. induction l as [|a l IH]; cbn [app map fold_right]; [ring|]. rewrite IH. ring. Qed.
Lemma sumf_map {A B} (e : A -> B) l f : sumf (map e l) f = sumf l (fun a => f (e a)).
Proof. unfold sumf. now rewrite map_map. Qed.
Lemma sumf_plus {A} (l : list A) f g : sumf l (fun a => f a + g a) = sumf l f + sumf l g.
Proof. unfold sumf. induction l as [|a l IH]; cbn [map fold_right]; [ring|]. rewrite IH. ring. Qed.
Lemma sumf_scal {A} (l : list A) c f : sumf l (fun a => c * f a) = c * sumf l f.
Proof. unfold sumf. induction l as [|a l IH]; cbn [map fold_right]; [ring|]. rewrite IH. ring. Qed.
Lemma prodf_exp {A} (l : list A) f : prodf l (fun a => exp (f a)) = exp (sumf l f).
Proof. unfold prodf, sumf. induction l as [|a l IH]; cbn [map fold_right]; [symmetry; apply exp_0|]. rewrite IH. now rewrite exp_plus. Qed.
Lemma cont_sumf {A J} (l : list A) (f : A -> (J -> R) -> R) : (forall a, In a l -> cont (f a)) -> cont (fun x => sumf l (fun a => f a x)).
Proof.
  unfold sumf. induction l as [|a l IH]; intros H; cbn [map fold_right]; [exact (cont_const 0)|]. apply cont_plus; [apply H; now left|]. apply IH. intros b Hb. apply H. now right.
Qed.
Lemma sumf_nonneg {A} (l : list A) f : (forall a, 0 <= f a) -> 0 <= sumf l f.
Proof. intros H. unfold sumf. induction l as [|a l IH]; cbn [map fold_right]; [lra|]. specialize (H a). lra. Qed.

Lemma sumf_olist f : sumf olist f = sumf L (fun i => f (Some i)) + f None.
Proof. unfold olist. rewrite sumf_app, sumf_map. f_equal. unfold sumf. cbn [map fold_right]. ring. Qed.

(** 1 + sum of exp of the log ratios. *)
Definition spread (r : I -> R) : R := 1 + sumf L (fun i => exp (r i)).
Lemma spread_ge r : 1 <= spread r.
Proof. unfold spread. assert (0 <= sumf L (fun i => exp (r i))); [|lra]. apply sumf_nonneg. intros i. left. apply exp_pos. Qed.
Lemma cont_exp' {J} (F : (J -> R) -> R) : cont F -> cont (fun x => exp (F x)).
Proof. apply (cont_fun exp). intros t. apply continuous_exp. Qed.
Lemma cont_spread : cont spread.
Proof. unfold spread. apply cont_plus; [apply cont_const|]. apply (cont_sumf L (fun i r => exp (r i))). intros i _. apply cont_exp', cont_coord. Qed.
Lemma cont_ln {J} (F : (J -> R) -> R) : cont F -> (forall x, 0 < F x) -> cont (fun x => ln (F x)).
Proof.
  intros CF P x e He.
  assert (Q : continuous (T := R_UniformSpace) (U := R_UniformSpace) ln (F x)) by (apply (ex_derive_continuous (V := R_NormedModule)); exists (/ F x); now apply is_derive_ln).
  destruct (proj1 (filterlim_locally ln (ln (F x))) Q (mkposreal e He)) as (d & Hd).
  destruct (CF x d (cond_pos d)) as (d' & Hd' & K). exists d'. split; [exact Hd'|]. intros y Hy. apply (Hd (F y)), (K y Hy).
Qed.

(** From the log ratios and the log of the sum to the logs. *)
Definition from_ratios (x : option I -> R) : option I -> R := fun j =>
  let s := x None - ln (spread (fun i => x (Some i))) in
  match j with Some i => x (Some i) + s | None => s end.
Lemma bimoves_ratios : exists S, bimoves odec olist from_ratios (fun _ => 1) S.
Proof.
  pose proof olist_once as Once. pose proof olist_all as All.
  assert (Cs : cont (fun x : option I -> R => - ln (spread (fun i => x (Some i))))).
  { apply cont_opp. apply (cont_part Some (fun r => ln (spread r))), cont_ln; [apply cont_spread|]. intros r. pose proof (spread_ge r). lra. }
  pose proof (bimoves_affine odec olist Once All None (fun _ => 1) (fun x => - ln (spread (fun i => x (Some i)))) (cont_const 1) Cs ltac:(intros; lra) ltac:(reflexivity)) as M1.
  specialize (M1 ltac:(intros x t; cbv beta; do 3 f_equal; extensionality i; apply upd_other; discriminate)).
  destruct (bimoves_triangular odec olist Once All (fun _ _ => 1) (fun _ x => x None) (map Some L)) as (S2 & M2).
  - apply FinFun.Injective_map_NoDup; [intros i j E; now injection E|exact L_once].
  - intros; apply cont_const.
  - intros; apply cont_coord.
  - intros; lra.
  - apply (earlier_outside odec). reflexivity.
  - apply (earlier_outside odec). intros j x y _ H. apply H. intros Q. apply in_map_iff in Q. destruct Q as (i & E & _). discriminate.
  - eexists. eapply bimoves_ext; [| | |apply (bimoves_comp odec olist All _ _ _ _ _ _ M1 M2)]; [| |reflexivity].
    + intros x. extensionality j. unfold triangular, from_ratios. cbv zeta.
      assert (E0 : affine odec None (fun _ => 1) (fun x => - ln (spread (fun i => x (Some i)))) x None = x None - ln (spread (fun i => x (Some i)))).
      { unfold affine. rewrite upd_same. ring. }
      destruct j as [i|].
      * destruct (in_dec odec (Some i) (map Some L)) as [_|N]; [|destruct N; now apply in_map]. rewrite E0. unfold affine. rewrite upd_other by discriminate. ring.
      * destruct (in_dec odec None (map Some L)) as [Q|_]; [apply in_map_iff in Q; destruct Q as (i & E & _); discriminate|]. exact E0.
    + intros x. cbv beta. rewrite Rabs_R1, Rmult_1_l. apply prodf_one. reflexivity.
Qed.

(** Independent log-gamma variables with shapes [a]: the law of the differences to the
    last one. *)
Theorem ratio_law (a : option I -> R) (G : R) (F : (I -> R) -> R) v :
  let A := sumf olist a in
  mass (fun t => Rpower t (A - 1) * exp (- t)) (at_right 0) to_plus_infinity G -> 0 < G ->
  cont F -> (forall r, 0 <= F r) ->
  total odec olist (fun l => prodf olist (fun j => exp (a j * l j - exp (l j))) * F (fun i => l (Some i) - l None)) (v * G) <->
  total dec L (fun r => exp (sumf L (fun i => a (Some i) * r i) - A * ln (spread r)) * F r) v.
Proof.
  intros A M HG CF PF. pose proof olist_once as Once. pose proof olist_all as All.
  destruct bimoves_ratios as (S & Bi).
  set (H := fun l : option I -> R => prodf olist (fun j => exp (a j * l j - exp (l j))) * F (fun i => l (Some i) - l None)).
  assert (Cd : cont (fun l : option I -> R => F (fun i => l (Some i) - l None))).
  { apply (cont_ext (fun l => (fun x => F (fun i => x (Some i))) (fun j => l j - l None))); [reflexivity|].
    apply (cont_comp olist All (fun x => F (fun i => x (Some i))) (fun l j => l j - l None)); [now apply (cont_part Some)|].
    intros j. apply cont_minus; apply cont_coord. }
  assert (CH : cont H).
  { apply cont_mult; [|exact Cd]. apply (cont_prod olist (fun j l => exp (a j * l j - exp (l j)))). intros j _.
    apply cont_exp', cont_minus; [apply cont_mult; [apply cont_const|apply cont_coord]|apply cont_exp', cont_coord]. }
  assert (PH : forall l, 0 <= H l).
  { intros l. apply Rmult_le_pos; [|apply PF]. rewrite prodf_exp. left. apply exp_pos. }
  rewrite (total_bimoves odec olist Once All from_ratios (fun _ => 1) S H (v * G) Bi CH PH).
  set (f := fun r => exp (sumf L (fun i => a (Some i) * r i) - A * ln (spread r)) * F r).
  set (g := fun x : unit -> R => exp (A * x tt - exp (x tt))).
  assert (E : (fun x => 1 * H (from_ratios x)) = (fun x => f (fun i => x (Some i)) * g (fun _ => x None))).
  { extensionality x. unfold H, f, g. set (r := fun i => x (Some i)). set (s := x None - ln (spread r)).
    replace (fun i => from_ratios x (Some i) - from_ratios x None) with r by (extensionality i; unfold from_ratios, r; ring).
    rewrite prodf_exp, Rmult_1_l.
    replace (exp (sumf olist (fun j => a j * from_ratios x j - exp (from_ratios x j)))) with
      (exp (sumf L (fun i => a (Some i) * r i) - A * ln (spread r)) * exp (A * x None - exp (x None))); [cbv beta; change (fun i : I => x (Some i)) with r; change (fun i : I => a (Some i) * x (Some i)) with (fun i : I => a (Some i) * r i); ring|].
    rewrite <- exp_plus. f_equal. rewrite sumf_olist.
    rewrite (sumf_ext L (fun i => a (Some i) * from_ratios x (Some i) - exp (from_ratios x (Some i))) (fun i => a (Some i) * r i + (s * a (Some i) + - exp s * exp (r i)))).
    2: { intros i _. change (from_ratios x (Some i)) with (r i + s). rewrite exp_plus. ring. }
    rewrite sumf_plus, sumf_plus, !sumf_scal.
    change (from_ratios x None) with s.
    assert (EA : A = sumf L (fun i => a (Some i)) + a None).
    { apply sumf_olist. }
    assert (Es : exp (x None) = exp s * spread r).
    { unfold s, Rminus. rewrite exp_plus, exp_Ropp, exp_ln by (pose proof (spread_ge r); lra). field. pose proof (spread_ge r). lra. }
    rewrite Es. replace (x None) with (s + ln (spread r)) by (unfold s; ring). change (spread r) with (1 + sumf L (fun i => exp (r i))) at 3. rewrite EA. ring. }
  rewrite E.
  apply (total_groups_iff odec dec unit_dec olist L [tt] Some (fun _ => None)).
  - intros i j Q. now injection Q.
  - intros [] []. reflexivity.
  - discriminate.
  - intros []. now left.
  - apply Permutation_refl.
  - apply cont_mult; [|exact CF]. apply cont_exp', cont_minus.
    + apply (cont_sumf L (fun i r => a (Some i) * r i)). intros i _. apply cont_mult; [apply cont_const|apply cont_coord].
    + apply cont_mult; [apply cont_const|]. apply cont_ln; [apply cont_spread|]. intros r. pose proof (spread_ge r). lra.
  - apply cont_exp', cont_minus; [apply cont_mult; [apply cont_const|apply cont_coord]|apply cont_exp', cont_coord].
  - intros r. apply Rmult_le_pos; [left; apply exp_pos|apply PF].
  - intros x. left. apply exp_pos.
  - now apply total_log_gamma.
  - exact HG.
Qed.
End Ratio.
