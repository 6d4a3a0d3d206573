(** Integrals of functions of either sign, and Jensen's inequality. *)
From Coq Require Import List Reals Lra Lia Permutation FunctionalExtensionality.
From Coquelicot Require Import Coquelicot.
From Verif Require Import SpecVolume SpecRun SpecExpect ProofVolume ProofChange ProofBimove ProofPart ProofRun ProofRatio.
Import ListNotations.
Local Open Scope R_scope.

Lemma RInt_positive (g : R -> R) a t0 b : a < t0 < b -> (forall t, continuous g t) -> (forall t, 0 <= g t) -> 0 < g t0 -> 0 < RInt g a b.
Proof.
  intros H C P Pt.
  assert (Hc : locally t0 (fun t => 0 < g t)).
  { apply (C t0 (fun y => 0 < y)). exists (mkposreal _ Pt). intros y Hy. change (Rabs (y - g t0) < g t0) in Hy. apply Rabs_def2 in Hy. lra. }
  destruct Hc as (d & Hd). pose (c := Rmax a (t0 - d / 2)). pose (e := Rmin b (t0 + d / 2)).
  pose proof (cond_pos d) as Dp.
  assert (Hac : a <= c < t0) by (unfold c; split; [apply Rmax_l|apply Rmax_lub_lt; lra]).
  assert (Heb : t0 < e <= b) by (unfold e; split; [apply Rmin_glb_lt; lra|apply Rmin_l]).
  assert (Ex : forall u v, ex_RInt g u v) by (intros u v; apply (ex_RInt_continuous (V := R_CompleteNormedModule)); intros t _; apply C).
  rewrite <- (RInt_Chasles g a c b) by apply Ex. rewrite <- (RInt_Chasles g c e b) by apply Ex.
  change (0 < RInt g a c + (RInt g c e + RInt g e b)).
  assert (A1 : 0 <= RInt g a c) by (apply RInt_ge_0; [lra|apply Ex|intros; apply P]).
  assert (A3 : 0 <= RInt g e b) by (apply RInt_ge_0; [lra|apply Ex|intros; apply P]).
  assert (A2 : 0 < RInt g c e).
  { apply RInt_gt_0; [lra| |intros; apply C]. intros t Ht. apply Hd. change (Rabs (t - t0) < d).
    assert (c >= t0 - d / 2) by (unfold c; apply Rle_ge, Rmax_r). assert (e <= t0 + d / 2) by (unfold e; apply Rmin_r).
    apply Rabs_def1; lra. }
  lra.
Qed.

Section Integral.
Context {J : Type} (dec : forall i j : J, {i = j} + {i <> j}).
Notation cont := (@cont J).
Notation cube := (cube_integral dec).
Implicit Types (x y : J -> R) (F G : (J -> R) -> R).
Context (L : list J).
Notation total := (total dec L).
Notation has_integral := (has_integral dec L).
Notation integral := (integral dec L).
Notation zero := (fun _ : J => 0).

Lemma cont_pos F : cont F -> cont (fun x => Rmax (F x) 0).
Proof.
  intros C. apply (cont_ext (fun x => (F x + Rabs (F x)) * / 2)).
  - intros x. unfold Rmax, Rabs. destruct Rle_dec, Rcase_abs; lra.
  - apply cont_mult; [|apply cont_const]. apply cont_plus; [exact C|now apply cont_abs].
Qed.
Lemma parts F x : F x = Rmax (F x) 0 - Rmax (- F x) 0.
Proof. unfold Rmax. destruct Rle_dec, Rle_dec; lra. Qed.
Lemma parts_abs F x : Rabs (F x) = Rmax (F x) 0 + Rmax (- F x) 0.
Proof. unfold Rmax, Rabs. destruct Rle_dec, Rle_dec, Rcase_abs; lra. Qed.

Definition converges F (v : R) : Prop := forall e, 0 < e -> exists B0, 0 <= B0 /\ forall B, B0 <= B -> Rabs (cube B L F zero - v) < e.

Lemma total_converges F v : cont F -> (forall x, 0 <= F x) -> total F v -> converges F v.
Proof.
  intros C P (U & Lb) e He.
  assert (NN : ~ (forall B, 0 <= B -> cube B L F zero <= v - e)).
  { intros H. assert (v <= v - e); [|lra]. apply Lb. intros m (B & HB & ->). now apply H. }
  apply Classical_Pred_Type.not_all_ex_not in NN as (B0 & N0).
  apply Classical_Prop.imply_to_and in N0 as (H0 & N0).
  exists B0. split; [exact H0|]. intros B HB.
  assert (cube B0 L F zero <= cube B L F zero) by (apply cube_grow; auto).
  assert (cube B L F zero <= v) by (apply U; exists B; split; [lra|reflexivity]).
  apply Rabs_def1; lra.
Qed.
Lemma converges_unique F v w : converges F v -> converges F w -> v = w.
Proof.
  intros A B. apply cond_eq. intros e He.
  destruct (A (e / 2)) as (a & Ha & HA); [lra|]. destruct (B (e / 2)) as (b & Hb & HB); [lra|].
  pose proof (HA (Rmax a b) (Rmax_l _ _)) as X. pose proof (HB (Rmax a b) (Rmax_r _ _)) as Y.
  apply Rabs_def2 in X, Y. apply Rabs_def1; lra.
Qed.
Lemma converges_total F v : cont F -> (forall x, 0 <= F x) -> converges F v -> total F v.
Proof.
  intros C P H. split.
  - intros m (B & HB & ->). apply Rnot_lt_le. intros K. destruct (H (cube B L F zero - v)) as (B0 & H0 & X); [lra|].
    specialize (X (Rmax B B0) (Rmax_r _ _)). assert (cube B L F zero <= cube (Rmax B B0) L F zero) by (apply cube_grow; auto; apply Rmax_l).
    apply Rabs_def2 in X. lra.
  - intros b Hb. apply Rnot_lt_le. intros K. destruct (H (v - b)) as (B0 & H0 & X); [lra|]. specialize (X B0 (Rle_refl _)).
    assert (cube B0 L F zero <= b) by (apply Hb; exists B0; split; [exact H0|reflexivity]). apply Rabs_def2 in X. lra.
Qed.
Lemma converges_plus F G v w : cont F -> cont G -> converges F v -> converges G w -> converges (fun x => F x + G x) (v + w).
Proof.
  intros CF CG A B e He. destruct (A (e / 2)) as (a & Ha & HA); [lra|]. destruct (B (e / 2)) as (b & Hb & HB); [lra|].
  exists (Rmax a b). split; [apply Rle_trans with a; [exact Ha|apply Rmax_l]|]. intros B0 H0.
  rewrite cube_plus; auto; [|apply Rle_trans with a; [exact Ha|apply Rle_trans with (Rmax a b); [apply Rmax_l|exact H0]]].
  specialize (HA B0 (Rle_trans _ _ _ (Rmax_l a b) H0)). specialize (HB B0 (Rle_trans _ _ _ (Rmax_r a b) H0)).
  apply Rabs_def2 in HA, HB. apply Rabs_def1; lra.
Qed.
Lemma converges_scal F c v : cont F -> converges F v -> converges (fun x => c * F x) (c * v).
Proof.
  intros CF A e He. pose proof (Rabs_pos c) as Pc. destruct (A (e / (Rabs c + 1))) as (a & Ha & HA); [apply Rdiv_lt_0_compat; lra|].
  exists a. split; [exact Ha|]. intros B HB. rewrite cube_scal by (auto; lra).
  replace (c * cube B L F zero - c * v) with (c * (cube B L F zero - v)) by ring. rewrite Rabs_mult.
  specialize (HA B HB). pose proof (Rabs_pos (cube B L F zero - v)) as Pd.
  apply Rle_lt_trans with ((Rabs c) * (e / (Rabs c + 1))); [apply Rmult_le_compat_l; lra|].
  apply Rlt_le_trans with ((Rabs c + 1) * (e / (Rabs c + 1))); [apply Rmult_lt_compat_r; [apply Rdiv_lt_0_compat|]; lra|].
  right. field. lra.
Qed.
Lemma converges_ext F G v : (forall x, F x = G x) -> converges F v -> converges G v.
Proof. intros E. replace G with F; [auto|]. now extensionality x. Qed.

(** The integral is the limit over growing cubes, for absolutely integrable functions. *)
Lemma integral_iff F v : integral F v <-> cont F /\ (exists w, total (fun x => Rabs (F x)) w) /\ converges F v.
Proof.
  split.
  - intros (a & b & (Ca & Pa & Ta) & (Cb & Pb & Tb) & ->).
    assert (CF : cont F).
    { apply (cont_ext (fun x => Rmax (F x) 0 - Rmax (- F x) 0)); [intros x; symmetry; apply parts|]. now apply cont_minus. }
    split; [exact CF|]. split.
    + exists (a + b). eapply total_ext; [|apply (total_plus dec L (fun x => Rmax (F x) 0) (fun x => Rmax (- F x) 0)); eauto].
      intros x. cbv beta. symmetry. apply parts_abs.
    + apply (converges_ext (fun x => Rmax (F x) 0 + (-1) * Rmax (- F x) 0)); [intros x; rewrite (parts F x) at 3; ring|].
      replace (a - b) with (a + (-1) * b) by ring.
      apply converges_plus; [exact Ca|apply cont_mult; [apply cont_const|exact Cb]|now apply total_converges|].
      apply converges_scal; [exact Cb|now apply total_converges].
  - intros (CF & (w & Tw) & Cv).
    assert (Ca : cont (fun x => Rmax (F x) 0)) by now apply cont_pos.
    assert (Cb : cont (fun x => Rmax (- F x) 0)) by (apply cont_pos; now apply cont_opp).
    assert (Pa : forall x, 0 <= Rmax (F x) 0) by (intros; apply Rmax_r).
    assert (Pb : forall x, 0 <= Rmax (- F x) 0) by (intros; apply Rmax_r).
    destruct (total_dominated dec L (fun x => Rabs (F x)) (fun x => Rmax (F x) 0) w) as (a & Ta); auto.
    { now apply cont_abs. } { intros x. rewrite parts_abs. specialize (Pa x). specialize (Pb x). lra. }
    destruct (total_dominated dec L (fun x => Rabs (F x)) (fun x => Rmax (- F x) 0) w) as (b & Tb); auto.
    { now apply cont_abs. } { intros x. rewrite parts_abs. specialize (Pa x). specialize (Pb x). lra. }
    exists a, b. split; [now split|]. split; [now split|].
    apply (converges_unique F); [exact Cv|].
    apply (converges_ext (fun x => Rmax (F x) 0 + (-1) * Rmax (- F x) 0)); [intros x; rewrite (parts F x) at 3; ring|].
    replace (a - b) with (a + (-1) * b) by ring.
    apply converges_plus; [exact Ca|apply cont_mult; [apply cont_const|exact Cb]|now apply total_converges|].
    apply converges_scal; [exact Cb|now apply total_converges].
Qed.
Lemma integral_cont F v : integral F v -> cont F.
Proof. now intros (C & _)%integral_iff. Qed.
Lemma integral_unique F v w : integral F v -> integral F w -> v = w.
Proof. intros (_ & _ & A)%integral_iff (_ & _ & B)%integral_iff. now apply (converges_unique F). Qed.
Lemma integral_ext F G v : (forall x, F x = G x) -> integral F v -> integral G v.
Proof. intros E. replace G with F; [auto|]. now extensionality x. Qed.
Lemma integral_plus F G v w : integral F v -> integral G w -> integral (fun x => F x + G x) (v + w).
Proof.
  intros (CF & (a & Ta) & A)%integral_iff (CG & (b & Tb) & B)%integral_iff. apply integral_iff.
  split; [now apply cont_plus|]. split; [|now apply converges_plus].
  apply (total_dominated dec L (fun x => Rabs (F x) + Rabs (G x)) _ (a + b)).
  - apply cont_plus; now apply cont_abs.
  - apply cont_abs. now apply cont_plus.
  - intros x. split; [apply Rabs_pos|apply Rabs_triang].
  - apply total_plus; auto; try (now apply cont_abs); intros; apply Rabs_pos.
Qed.
Lemma integral_scal F c v : integral F v -> integral (fun x => c * F x) (c * v).
Proof.
  intros (CF & (a & Ta) & A)%integral_iff. apply integral_iff.
  split; [apply cont_mult; [apply cont_const|exact CF]|]. split; [|now apply converges_scal].
  pose proof (Rabs_pos c) as Pc.
  apply (total_dominated dec L (fun x => (Rabs c + 1) * Rabs (F x)) _ ((Rabs c + 1) * a)).
  - apply cont_mult; [apply cont_const|now apply cont_abs].
  - apply cont_abs. apply cont_mult; [apply cont_const|exact CF].
  - intros x. split; [apply Rabs_pos|]. rewrite Rabs_mult. apply Rmult_le_compat_r; [apply Rabs_pos|lra].
  - apply total_scal; [lra|now apply cont_abs|exact Ta].
Qed.
Lemma integral_minus F G v w : integral F v -> integral G w -> integral (fun x => F x - G x) (v - w).
Proof.
  intros A B. apply (integral_ext (fun x => F x + (-1) * G x)); [intros; ring|]. replace (v - w) with (v + (-1) * w) by ring.
  apply integral_plus; [exact A|now apply integral_scal].
Qed.
Lemma integral_of_total F v : has_integral F v -> integral F v.
Proof.
  intros (C & P & T). apply integral_iff. split; [exact C|]. split; [|now apply total_converges].
  exists v. eapply total_ext; [|exact T]. intros x. symmetry. now apply Rabs_pos_eq.
Qed.
Lemma integral_total F v : (forall x, 0 <= F x) -> integral F v -> has_integral F v.
Proof. intros P (C & _ & A)%integral_iff. split; [exact C|]. split; [exact P|]. now apply converges_total. Qed.
Lemma integral_ge F v : (forall x, 0 <= F x) -> integral F v -> 0 <= v.
Proof.
  intros P I. destruct (integral_total F v P I) as (C & _ & (U & _)).
  apply Rle_trans with (cube 0 L F zero); [apply cube_pos; auto; lra|]. apply U. exists 0. split; [lra|reflexivity].
Qed.
Lemma integral_le F G v w : (forall x, F x <= G x) -> integral F v -> integral G w -> v <= w.
Proof.
  intros P A B. assert (0 <= w - v); [|lra]. apply (integral_ge (fun x => G x - F x)); [intros x; specialize (P x); lra|]. now apply integral_minus.
Qed.
Lemma integral_dominated F G w : cont F -> (forall x, Rabs (F x) <= G x) -> integral G w -> exists v, integral F v.
Proof.
  intros CF D I.
  assert (PG : forall x, 0 <= G x) by (intros x; apply Rle_trans with (Rabs (F x)); [apply Rabs_pos|apply D]).
  destruct (integral_total G w PG I) as (CG & _ & T).
  assert (Ca : cont (fun x => Rmax (F x) 0)) by now apply cont_pos.
  assert (Cb : cont (fun x => Rmax (- F x) 0)) by (apply cont_pos; now apply cont_opp).
  assert (Pa : forall x, 0 <= Rmax (F x) 0) by (intros; apply Rmax_r).
  assert (Pb : forall x, 0 <= Rmax (- F x) 0) by (intros; apply Rmax_r).
  destruct (total_dominated dec L G (fun x => Rmax (F x) 0) w) as (a & Ta); auto.
  { intros x. specialize (D x). rewrite parts_abs in D. specialize (Pa x). specialize (Pb x). lra. }
  destruct (total_dominated dec L G (fun x => Rmax (- F x) 0) w) as (b & Tb); auto.
  { intros x. specialize (D x). rewrite parts_abs in D. specialize (Pa x). specialize (Pb x). lra. }
  exists (a - b), a, b. repeat split; auto; try (apply Ta); try (apply Tb).
Qed.
Lemma integral_abs F v : integral F v -> exists w, integral (fun x => Rabs (F x)) w /\ Rabs v <= w.
Proof.
  intros I. destruct (integral_iff F v) as [H _]. destruct (H I) as (C & (w & T) & _). exists w.
  assert (Ia : integral (fun x => Rabs (F x)) w).
  { apply integral_of_total. split; [now apply cont_abs|]. split; [intros; apply Rabs_pos|exact T]. }
  split; [exact Ia|]. apply Rabs_le. split.
  - assert (v + w >= 0); [|lra]. apply Rle_ge. apply (integral_ge (fun x => F x + Rabs (F x))); [|now apply integral_plus].
    intros x. pose proof (Rle_abs (- F x)). rewrite Rabs_Ropp in H0. lra.
  - apply (integral_le F (fun x => Rabs (F x))); auto. intros x. apply Rle_abs.
Qed.

(** A nonnegative continuous function of integral zero vanishes. *)
Section Zero.
Hypothesis L_all : forall j, In j L.
Lemma cube_positive B l F : 0 <= B -> cont F -> (forall x, 0 <= F x) -> forall x, (forall j, In j l -> Rabs (x j) < B) -> 0 < F x -> 0 < cube B l F x.
Proof.
  intros HB C P. induction l as [|i l IH]; intros x Hx Px; [exact Px|].
  cbn [cube_integral]. apply RInt_positive with (t0 := x i).
  - pose proof (Hx i (or_introl eq_refl)) as K. apply Rabs_def2 in K. lra.
  - intros t. apply (cont_line dec (cube B l F)). now apply cube_cont.
  - intros t. now apply cube_pos.
  - rewrite upd_id. apply IH; [|exact Px]. intros j Hj. apply Hx. now right.
Qed.
Lemma coordinates_bounded (l : list J) x : exists B, 0 <= B /\ forall j, In j l -> Rabs (x j) < B.
Proof.
  induction l as [|i l (B & HB & K)]; [exists 0; split; [lra|easy]|]. exists (Rmax B (Rabs (x i) + 1)).
  split; [apply Rle_trans with B; [exact HB|apply Rmax_l]|]. intros j [->|Hj].
  - apply Rlt_le_trans with (Rabs (x j) + 1); [lra|apply Rmax_r].
  - apply Rlt_le_trans with B; [now apply K|apply Rmax_l].
Qed.
Lemma integral_zero F : (forall x, 0 <= F x) -> integral F 0 -> forall x, F x = 0.
Proof.
  intros P I x. destruct (integral_total F 0 P I) as (C & _ & (U & _)).
  destruct (P x) as [K|K]; [exfalso|auto].
  destruct (coordinates_bounded L x) as (B & HB & X).
  assert (0 < cube B L F zero).
  { rewrite <- (cube_const_all dec L L_all B F x). now apply cube_positive. }
  assert (cube B L F zero <= 0); [|lra]. apply U. exists B. split; [exact HB|reflexivity].
Qed.
End Zero.

(** Renaming the coordinates. *)
Lemma integral_rename (s t : J -> J) F v : NoDup L -> (forall j, In j L) -> (forall j, s (t j) = j) -> (forall j, t (s j) = j) ->
  integral F v -> integral (fun x => F (fun j => x (s j))) v.
Proof.
  intros Once All st ts (a & b & (Ca & Pa & Ta) & (Cb & Pb & Tb) & ->).
  assert (H : forall G c, has_integral G c -> has_integral (fun x => G (fun j => x (s j))) c).
  { intros G c (CG & PG & TG). split; [|split].
    - apply (cont_comp L All G (fun x j => x (s j)) CG). intros j. apply cont_coord.
    - intros x. apply PG.
    - pose proof (bimoves_rename dec L Once All s t st ts) as Bi.
      apply (total_bimoves dec L Once All _ _ _ G c Bi CG PG) in TG. eapply total_ext; [|exact TG]. intros x. cbv beta. ring. }
  exists a, b. split; [|split; [|reflexivity]].
  - now apply (H (fun x => Rmax (F x) 0)).
  - now apply (H (fun x => Rmax (- F x) 0)).
Qed.
End Integral.

(** ** Products *)
Section Groups.
Context {J A B : Type} (dec : forall i j : J, {i = j} + {i <> j}) (decA : forall i j : A, {i = j} + {i <> j}) (decB : forall i j : B, {i = j} + {i <> j}).
Context (L : list J) (LA : list A) (LB : list B) (a : A -> J) (b : B -> J).
Hypothesis a_inj : forall i j, a i = a j -> i = j.
Hypothesis b_inj : forall i j, b i = b j -> i = j.
Hypothesis apart : forall i j, a i <> b j.
Hypothesis LB_all : forall i, In i LB.
Hypothesis groups : Permutation L (map a LA ++ map b LB).
Lemma integral_groups (f : (A -> R) -> R) (g : (B -> R) -> R) v w : integral decA LA f v -> has_integral decB LB g w ->
  integral dec L (fun x => f (fun i => x (a i)) * g (fun i => x (b i))) (v * w).
Proof.
  intros (u & n & (Cu & Pu & Tu) & (Cn & Pn & Tn) & ->) (Cg & Pg & Tg).
  assert (E : forall c h, Rmax (c * g h) 0 = Rmax c 0 * g h).
  { intros c h. specialize (Pg h). unfold Rmax. destruct (Rle_dec (c * g h) 0), (Rle_dec c 0); nra. }
  exists (u * w), (n * w). split; [|split; [|ring]].
  - split; [|split].
    + apply (cont_ext (fun x => Rmax (f (fun i => x (a i))) 0 * g (fun i => x (b i)))); [intros x; symmetry; apply E|].
      apply cont_mult; [apply (cont_part a (fun x => Rmax (f x) 0) Cu)|apply (cont_part b g Cg)].
    + intros; apply Rmax_r.
    + eapply total_ext; [|apply (total_groups dec decA decB L LA LB a b a_inj b_inj apart LB_all groups (fun x => Rmax (f x) 0) g u w); auto].
      intros x. cbv beta. symmetry. apply E.
  - split; [|split].
    + apply (cont_ext (fun x => Rmax (- f (fun i => x (a i))) 0 * g (fun i => x (b i)))); [intros x; rewrite Ropp_mult_distr_l; symmetry; apply E|].
      apply cont_mult; [apply (cont_part a (fun x => Rmax (- f x) 0) Cn)|apply (cont_part b g Cg)].
    + intros; apply Rmax_r.
    + eapply total_ext; [|apply (total_groups dec decA decB L LA LB a b a_inj b_inj apart LB_all groups (fun x => Rmax (- f x) 0) g n w); auto].
      intros x. cbv beta. rewrite Ropp_mult_distr_l. symmetry. apply E.
Qed.
Lemma integral_groups_signed (f : (A -> R) -> R) (g : (B -> R) -> R) v w : integral decA LA f v -> integral decB LB g w ->
  integral dec L (fun x => f (fun i => x (a i)) * g (fun i => x (b i))) (v * w).
Proof.
  intros If (u & n & Hu & Hn & ->). replace (v * (u - n)) with (v * u - v * n) by ring.
  apply (integral_ext dec L (fun x => f (fun i => x (a i)) * Rmax (g (fun i => x (b i))) 0 - f (fun i => x (a i)) * Rmax (- g (fun i => x (b i))) 0)).
  - intros x. rewrite (parts g (fun i => x (b i))) at 3. ring.
  - apply integral_minus; [exact (integral_groups f (fun y => Rmax (g y) 0) v u If Hu)|exact (integral_groups f (fun y => Rmax (- g y) 0) v n If Hn)].
Qed.
End Groups.

(** ** Jensen's inequality for the logarithm *)
Lemma ln_le_minus w : 0 < w -> ln w <= w - 1.
Proof. intros H. pose proof (exp_ineq1_le (ln w)) as K. rewrite exp_ln in K by exact H. lra. Qed.
Lemma ln_eq_minus w : 0 < w -> ln w = w - 1 -> w = 1.
Proof.
  intros H E. destruct (Req_dec (ln w) 0) as [Z|N].
  - lra.
  - pose proof (exp_ineq1 (ln w) N) as K. rewrite exp_ln in K by exact H. lra.
Qed.
Section Jensen.
Context {J : Type} (dec : forall i j : J, {i = j} + {i <> j}) (L : list J).
Hypothesis L_all : forall j, In j L.
Lemma jensen (rho w : (J -> R) -> R) Z v : (forall x, 0 < rho x) -> (forall x, 0 < w x) ->
  has_integral dec L rho 1 -> has_integral dec L (fun x => rho x * w x) Z -> integral dec L (fun x => rho x * ln (w x)) v ->
  0 < Z /\ v <= ln Z /\ (v = ln Z <-> forall x, w x = Z).
Proof.
  intros Pr Pw Hr Hw Iv.
  assert (HZ : 0 < Z).
  { pose proof (integral_ge dec L _ _ (fun x => Rlt_le _ _ (Rmult_lt_0_compat _ _ (Pr x) (Pw x))) (integral_of_total dec L _ _ Hw)) as [K|K]; [exact K|exfalso].
    rewrite <- K in Hw. pose proof (integral_zero dec L L_all _ (fun x => Rlt_le _ _ (Rmult_lt_0_compat _ _ (Pr x) (Pw x))) (integral_of_total dec L _ _ Hw) (fun _ => 0)) as N.
    cbv beta in N. pose proof (Pr (fun _ => 0)). pose proof (Pw (fun _ => 0)). assert (0 < rho (fun _ => 0) * w (fun _ => 0)) by now apply Rmult_lt_0_compat. lra. }
  set (G := fun x => rho x * (w x / Z - 1 - ln (w x / Z))).
  assert (Pwz : forall x, 0 < w x / Z) by (intros x; now apply Rdiv_lt_0_compat).
  assert (PG : forall x, 0 <= G x).
  { intros x. unfold G. apply Rmult_le_pos; [apply Rlt_le, Pr|]. pose proof (ln_le_minus (w x / Z) (Pwz x)). lra. }
  assert (IG : integral dec L G (ln Z - v)).
  { replace (ln Z - v) with (/ Z * Z + (ln Z - 1) * 1 - v) by (field; lra).
    apply (integral_ext dec L (fun x => / Z * (rho x * w x) + (ln Z - 1) * rho x - rho x * ln (w x))).
    - intros x. unfold G, Rdiv. rewrite ln_mult by (auto; now apply Rinv_0_lt_compat). rewrite ln_Rinv by exact HZ. ring.
    - apply integral_minus; [|exact Iv]. apply integral_plus; apply integral_scal; now apply integral_of_total. }
  split; [exact HZ|]. split; [pose proof (integral_ge dec L G _ PG IG); lra|]. split.
  - intros E. rewrite E, Rminus_diag_eq in IG by reflexivity. intros x.
    pose proof (integral_zero dec L L_all G PG IG x) as K. unfold G in K. apply Rmult_integral in K as [K|K]; [pose proof (Pr x); lra|].
    assert (w x / Z = 1) by (apply ln_eq_minus; [apply Pwz|lra]). apply (Rmult_eq_reg_r (/ Z)); [|apply Rinv_neq_0_compat; lra].
    rewrite Rinv_r by lra. exact H.
  - intros E. assert (K : ln Z - v = 0); [|lra]. apply (integral_unique dec L G); [exact IG|].
    pose proof (integral_scal dec L rho 0 1 (integral_of_total dec L rho 1 Hr)) as I0. rewrite Rmult_0_l in I0.
    apply (integral_ext dec L (fun x => 0 * rho x)); [|exact I0]. intros x. unfold G. rewrite E. replace (Z / Z) with 1 by (field; lra). rewrite ln_1. ring.
Qed.
End Jensen.
