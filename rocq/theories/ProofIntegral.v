(** Improper integrals: the fundamental theorem, substitution, limits. *)
From Coq Require Import Reals Lra Lia.
From Coquelicot Require Import Coquelicot.
Local Open Scope R_scope.

(** Fundamental theorem for improper integrals, with the two ends as filters. *)
Lemma is_RInt_gen_cdf (f F : R -> R) (Fa Fb : (R -> Prop) -> Prop) {FFa : Filter Fa} {FFb : Filter Fb} la lb :
  filter_prod Fa Fb (fun ab => forall x, Rmin (fst ab) (snd ab) <= x <= Rmax (fst ab) (snd ab) ->
    is_derive F x (f x) /\ continuous f x) ->
  filterlim F Fa (locally la) -> filterlim F Fb (locally lb) ->
  is_RInt_gen f Fa Fb (lb - la).
Proof.
  intros D La Lb P HP. unfold filtermapi.
  assert (L : filterlim (fun ab : R * R => F (snd ab) - F (fst ab)) (filter_prod Fa Fb) (locally (lb - la))).
  { apply (filterlim_comp_2 (fun ab : R * R => F (snd ab)) (fun ab => opp (F (fst ab))) Rplus (G := locally lb) (H := locally (- la))).
    - eapply filterlim_comp; [apply filterlim_snd|exact Lb].
    - eapply filterlim_comp with (g := fun x => opp (F x)); [apply filterlim_fst|].
      eapply filterlim_comp; [exact La|]. apply (filterlim_opp la).
    - apply (filterlim_plus lb (- la)). }
  specialize (L P HP). unfold filtermap in L.
  generalize (filter_and _ _ D L). apply filter_imp. intros [a b] [Dab Pab]. simpl in *.
  exists (F b - F a). split; [|exact Pab].
  apply (is_RInt_derive F f).
  - intros x Hx. now apply Dab.
  - intros x Hx. now apply Dab.
Qed.

(** Substitution. *)
Lemma is_RInt_gen_subst (f g phi : R -> R) (Fa Fb Ga Gb : (R -> Prop) -> Prop)
    {F1 : Filter Ga} {F2 : Filter Gb} l :
  is_RInt_gen f Fa Fb l -> filterlim phi Ga Fa -> filterlim phi Gb Fb ->
  filter_prod Ga Gb (fun ab => forall v, is_RInt f (phi (fst ab)) (phi (snd ab)) v -> is_RInt g (fst ab) (snd ab) v) ->
  is_RInt_gen g Ga Gb l.
Proof.
  intros I La Lb E P HP. unfold filtermapi. specialize (I P HP). unfold filtermapi in I.
  destruct I as [Q R HQ HR W]. specialize (La _ HQ). specialize (Lb _ HR). unfold filtermap in *.
  assert (B : filter_prod Ga Gb (fun ab => Q (phi (fst ab)) /\ R (phi (snd ab)))).
  { apply (Filter_prod _ _ _ _ _ La Lb). intros x y H1 H2. split; assumption. }
  generalize (filter_and _ _ E B). apply filter_imp. intros [a b] [Eab [Ha Hb]]. simpl in *.
  destruct (W _ _ Ha Hb) as (v & Hv & Pv). exists v. split; [now apply Eab|exact Pv].
Qed.

Lemma exp_neg_lim k : 0 < k -> filterlim (fun x => exp (- (k * x))) (Rbar_locally p_infty) (locally 0).
Proof.
  intros K. apply (filterlim_comp _ _ _ (fun x => - (k * x)) exp _ (Rbar_locally m_infty)); [|apply is_lim_exp_m].
  intros P (M & HM). exists (- M / k). intros x Hx. apply HM.
  apply (Rmult_lt_compat_l k) in Hx; [|assumption]. unfold Rdiv in Hx.
  replace (k * (- M * / k)) with (- M) in Hx by (field; lra). lra.
Qed.

Lemma filter_forall_prod (Fa Fb : (R -> Prop) -> Prop) {F1 : Filter Fa} {F2 : Filter Fb} (P : R * R -> Prop) :
  (forall x, P x) -> filter_prod Fa Fb P.
Proof. intros H. apply filter_forall. exact H. Qed.

Lemma at_right_pos : at_right 0 (fun x => 0 < x).
Proof. exists (mkposreal 1 Rlt_0_1). intros y _ H. exact H. Qed.
Lemma at_right_lt a b : a < b -> at_right a (fun x => a < x < b).
Proof.
  intros L. exists (mkposreal (b - a) ltac:(lra)). intros y B H. unfold ball in B; simpl in B.
  unfold AbsRing_ball, abs, minus, plus, opp in B; simpl in B. apply Rabs_def2 in B. lra.
Qed.
Lemma at_left_lt a b : a < b -> at_left b (fun x => a < x < b).
Proof.
  intros L. exists (mkposreal (b - a) ltac:(lra)). intros y B H. unfold ball in B; simpl in B.
  unfold AbsRing_ball, abs, minus, plus, opp in B; simpl in B. apply Rabs_def2 in B. lra.
Qed.
Lemma p_infty_gt M : Rbar_locally p_infty (fun x => M < x).
Proof. exists M. auto. Qed.
Lemma m_infty_lt M : Rbar_locally m_infty (fun x => x < M).
Proof. exists M. auto. Qed.

Lemma between_pos a b x : 0 < a -> 0 < b -> Rmin a b <= x <= Rmax a b -> 0 < x.
Proof. intros A B [L _]. unfold Rmin in L. destruct (Rle_dec a b); lra. Qed.

(** x -> b*x and x -> b/x near 0 and infinity *)
Lemma scale_at_right b : 0 < b -> filterlim (fun x => b * x) (at_right 0) (at_right 0).
Proof.
  intros B P (e & He). assert (Q : 0 < e / b) by (apply Rdiv_lt_0_compat; [apply cond_pos|lra]).
  exists (mkposreal _ Q). intros y By Hy. apply He.
  - unfold ball in *; simpl in *. unfold AbsRing_ball, abs, minus, plus, opp in *; simpl in *.
    apply Rabs_def2 in By. pose proof (cond_pos e) as Pe. pose proof (Rmult_lt_0_compat _ _ B Hy) as Pb. apply Rabs_def1; [|lra].
    destruct By as [By _]. apply (Rmult_lt_compat_l b) in By; [|assumption].
    replace (b * (e / b)) with (e : R) in By by (field; lra). lra.
  - nra.
Qed.
Lemma scale_p_infty b : 0 < b -> filterlim (fun x => b * x) (Rbar_locally p_infty) (Rbar_locally p_infty).
Proof.
  intros B P (M & HM). exists (M / b). intros x Hx. apply HM.
  apply (Rmult_lt_compat_l b) in Hx; [|assumption]. replace (b * (M / b)) with M in Hx by (field; lra). lra.
Qed.
Lemma inv_at_right b : 0 < b -> filterlim (fun x => b / x) (at_right 0) (Rbar_locally p_infty).
Proof.
  intros B P (M & HM). set (M' := Rmax M 1). assert (0 < M') by (unfold M'; pose proof (Rmax_r M 1); lra).
  assert (Q : 0 < b / M') by (apply Rdiv_lt_0_compat; lra).
  exists (mkposreal _ Q). intros y By Hy. apply HM.
  unfold ball in *; simpl in *. unfold AbsRing_ball, abs, minus, plus, opp in *; simpl in *.
  apply Rabs_def2 in By. destruct By as [By _]. apply Rle_lt_trans with M'; [apply Rmax_l|].
  assert (Y : y < b / M') by lra. apply (Rmult_lt_reg_r y); [assumption|]. unfold Rdiv at 1. rewrite Rmult_assoc, Rinv_l by lra.
  apply (Rmult_lt_compat_r M') in Y; [|assumption]. replace (b / M' * M') with b in Y by (field; lra). lra.
Qed.
Lemma inv_p_infty b : 0 < b -> filterlim (fun x => b / x) (Rbar_locally p_infty) (at_right 0).
Proof.
  intros B P (e & He). pose proof (cond_pos e). exists (b / e). intros x Hx.
  assert (0 < b / e) by (apply Rdiv_lt_0_compat; lra). assert (X : 0 < x) by lra.
  assert (0 < b / x) by (apply Rdiv_lt_0_compat; lra).
  apply He; [|assumption].
  unfold ball in *; simpl in *. unfold AbsRing_ball, abs, minus, plus, opp in *; simpl in *.
  apply Rabs_def1; [|lra]. rewrite Ropp_0, Rplus_0_r. apply (Rmult_lt_reg_r x); [assumption|]. unfold Rdiv. rewrite Rmult_assoc, Rinv_l by lra.
  apply (Rmult_lt_compat_r e) in Hx; [|assumption]. replace (b / e * e) with b in Hx by (field; lra). lra.
Qed.
Lemma filterlim_point (f : R -> R) a : filterlim f (at_point a) (at_point (f a)).
Proof. intros P H. exact H. Qed.
Lemma filterlim_point_locally (f : R -> R) a : filterlim f (at_point a) (locally (f a)).
Proof. intros P H. apply locally_singleton in H. exact H. Qed.
Lemma mass_chasles (f : R -> R) (Fa Fc : (R -> Prop) -> Prop) {F1 : Filter Fa} {F2 : Filter Fc} b l1 l2 :
  is_RInt_gen f Fa (at_point b) l1 -> is_RInt_gen f (at_point b) Fc l2 -> is_RInt_gen f Fa Fc (l1 + l2).
Proof. exact (is_RInt_gen_Chasles (V := R_NormedModule) f b l1 l2). Qed.
