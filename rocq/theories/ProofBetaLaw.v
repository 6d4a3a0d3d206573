(** The quotient of gamma draws that the Beta sampler returns has the Beta density. *)
From Coq Require Import List Reals Lra Lia.
From Coquelicot Require Import Coquelicot.
From Verif Require Import ModelDist SpecDist SpecDensity SpecPair ProofIntegral ProofDensity PropDensity ProofGammaFn ProofBeta PropBeta ProofTonelli.
Local Open Scope R_scope.

(** The intervals used, and their ends. *)
Definition Pos (x : R) : Prop := 0 < x.
Definition Seg (t x : R) : Prop := 0 < x < t.
Lemma Pos_convex a b x : Pos a -> Pos b -> a <= x <= b -> Pos x.
Proof. unfold Pos. lra. Qed.
Lemma Seg_convex t a b x : Seg t a -> Seg t b -> a <= x <= b -> Seg t x.
Proof. unfold Seg. lra. Qed.
Lemma Pos_open x : Pos x -> locally x Pos.
Proof.
  intros X. exists (mkposreal x X). intros y B. unfold ball in B; simpl in B.
  unfold AbsRing_ball, abs, minus, plus, opp in B; simpl in B. apply Rabs_def2 in B. unfold Pos. lra.
Qed.
Lemma Seg_open t x : Seg t x -> locally x (Seg t).
Proof.
  intros X. assert (E : 0 < Rmin x (t - x)) by (unfold Seg in X; apply Rmin_glb_lt; lra).
  exists (mkposreal _ E). intros y B. unfold ball in B; simpl in B.
  unfold AbsRing_ball, abs, minus, plus, opp in B; simpl in B. apply Rabs_def2 in B. unfold Seg.
  pose proof (Rmin_l x (t - x)). pose proof (Rmin_r x (t - x)). lra.
Qed.
Lemma Pos_span : spans Pos (at_right 0) (Rbar_locally p_infty).
Proof.
  split; [exists 1; unfold Pos; lra|]. intros x X. split.
  - apply (filter_imp (fun a => 0 < a < x)); [unfold Pos; intros; lra|]. now apply at_right_lt.
  - apply (filter_imp (fun a => x < a)); [unfold Pos in *; intros; lra|]. apply p_infty_gt.
Qed.
Lemma Seg_span t : 0 < t -> spans (Seg t) (at_right 0) (at_left t).
Proof.
  intros T. split; [exists (t / 2); unfold Seg; lra|]. intros x X. unfold Seg in *. split.
  - apply (filter_imp (fun a => 0 < a < x)); [intros; lra|]. apply at_right_lt; lra.
  - apply (filter_imp (fun a => x < a < t)); [intros; lra|]. apply at_left_lt; lra.
Qed.

(** An integral whose partial values are bounded exists. *)
Lemma mass_exists (X : R -> Prop) lo hi {F1 : ProperFilter lo} {F2 : ProperFilter hi} (g : R -> R) B :
  (forall a b x, X a -> X b -> a <= x <= b -> X x) -> spans X lo hi ->
  (forall x, X x -> continuous g x) -> (forall x, X x -> 0 <= g x) ->
  (forall a b, X a -> X b -> a <= b -> RInt g a b <= B) -> exists m, is_RInt_gen g lo hi m.
Proof.
  intros Cv Sp Gc Gp Bd.
  destruct (completeness (fun v => exists a b, X a /\ X b /\ a <= b /\ v = RInt g a b)) as (m & Ub & Lub).
  - exists B. intros v (a & b & A & Hb & L & ->). now apply Bd.
  - destruct Sp as ((x & Hx) & _). exists (RInt g x x), x, x. repeat split; auto; lra.
  - exists m. apply (mass_is_sup X lo hi Cv Sp g Gc Gp).
    + intros a b A Hb L. apply Ub. exists a, b. auto.
    + intros e E. destruct (Classical_Prop.classic (exists a b, X a /\ X b /\ a <= b /\ m - e < RInt g a b)) as [H|H]; [exact H|exfalso].
      assert (m <= m - e); [|lra]. apply Lub. intros v (a & b & A & Hb & L & ->).
      destruct (Rle_dec (RInt g a b) (m - e)); [assumption|]. exfalso. apply H. exists a, b. repeat split; auto; lra.
Qed.

(** Nothing happens at an end where the integrand is continuous. *)
Section Tip.
Variable X : R -> Prop.
Hypothesis X_convex : forall a b x, X a -> X b -> a <= x <= b -> X x.
Hypothesis X_open : forall x, X x -> locally x X.
Variable g : R -> R.
Hypothesis g_cont : forall x, X x -> continuous g x.
Lemma any_int a b : X a -> X b -> ex_RInt g a b.
Proof. intros A B. apply (ex_RInt_continuous g). intros x Hx. apply g_cont. now apply (ends_swap X X_convex a b). Qed.
Lemma tip_derive t x : X t -> X x -> is_derive (fun b => RInt g t b) x (g x).
Proof.
  intros T Hx. apply (is_derive_RInt g (fun b => RInt g t b) t x); [|now apply g_cont].
  apply (filter_imp X); [|now apply X_open]. intros b B. apply (RInt_correct g). now apply any_int.
Qed.
Lemma tip_limit t (S : (R -> Prop) -> Prop) : X t -> filter_le S (locally t) -> filterlim (fun b => RInt g t b) S (locally 0).
Proof.
  intros T Le. apply (filterlim_filter_le_1 (F := locally t)); [exact Le|].
  assert (Cc : continuous (fun b => RInt g t b) t).
  { apply (ex_derive_continuous (fun b => RInt g t b)). eexists. now apply tip_derive. }
  unfold continuous in Cc. rewrite RInt_point in Cc. exact Cc.
Qed.
Lemma tip_left t S {F : Filter S} : X t -> filter_le S (locally t) -> is_RInt_gen g S (at_point t) 0.
Proof.
  intros T Le. replace 0 with (0 - 0) by ring.
  apply (is_RInt_gen_cdf g (fun b => RInt g t b)); try typeclasses eauto.
  - apply (Filter_prod _ _ _ X (fun b => b = t)); [apply Le, X_open, T|reflexivity|].
    intros a b A -> x Hx. simpl in Hx. assert (X x) by (now apply (ends_swap X X_convex a t)).
    split; [now apply tip_derive|now apply g_cont].
  - now apply tip_limit.
  - apply tip_limit; [assumption|]. intros P H. now apply locally_singleton in H.
Qed.
Lemma attained t lo S {F1 : ProperFilter lo} {F2 : ProperFilter S} m : X t -> filter_le S (locally t) -> lo X ->
  is_RInt_gen g lo S m -> is_RInt_gen g lo (at_point t) m.
Proof.
  intros T Le Lo M P (e & He). unfold filtermapi.
  assert (E2 : 0 < e / 2) by (pose proof (cond_pos e); lra).
  specialize (M _ (locally_ball m (mkposreal _ E2))). unfold filtermapi in M. destruct M as [Q W HQ HW H].
  pose proof (tip_limit t S T Le _ (locally_ball 0 (mkposreal _ E2))) as L. unfold filtermap in L.
  destruct (filter_ex _ (filter_and _ _ HW (filter_and _ _ L (Le _ (X_open t T))))) as (b & Wb & Lb & Xb).
  apply (Filter_prod _ _ _ (fun a => Q a /\ X a) (fun b => b = t)); [now apply filter_and|reflexivity|].
  intros a b' (Qa & Xa) ->. simpl. exists (RInt g a t). split; [apply (RInt_correct g); now apply any_int|]. apply He.
  destruct (H a b Qa Wb) as (y & I & Hy). simpl in I. apply (is_RInt_unique g a b y) in I.
  rewrite <- (RInt_Chasles g a b t), I by (now apply any_int).
  rewrite <- (opp_RInt_swap (V := R_CompleteNormedModule) g t b) by (now apply any_int).
  unfold ball in *; simpl in *. unfold AbsRing_ball, abs, minus, plus, opp in *; simpl in *.
  apply Rabs_def2 in Lb. apply Rabs_def2 in Hy. apply Rabs_def1; lra.
Qed.
Lemma attained_low t S hi {F1 : ProperFilter S} {F2 : ProperFilter hi} m : X t -> filter_le S (locally t) -> hi X ->
  is_RInt_gen g S hi m -> is_RInt_gen g (at_point t) hi m.
Proof.
  intros T Le Hi M. apply (is_RInt_gen_swap (V := R_NormedModule)) in M.
  pose proof (attained t hi S (opp m) T Le Hi M) as M'. apply (is_RInt_gen_swap (V := R_NormedModule)) in M'.
  now rewrite (opp_opp (G := R_NormedModule)) in M'.
Qed.
End Tip.

Lemma eul_cont a x : Pos x -> continuous (eul a) x.
Proof. intros X. now apply euler_continuous. Qed.
Lemma at_right_le t : filter_le (at_right t) (locally t).
Proof. apply filter_le_within. Qed.
Lemma at_left_le t : filter_le (at_left t) (locally t).
Proof. apply filter_le_within. Qed.

(** The mass of a gamma draw above [q]. *)
Lemma tail_exists b : 0 < b -> exists T1, forall q, 0 < q ->
  is_RInt_gen (eul b) (at_point q) (Rbar_locally p_infty) (RInt (eul b) q 1 + T1).
Proof.
  intros B. destruct (euler_exists b B) as (l & L & M).
  set (Up := fun x => 1 < x).
  assert (Cv : forall a b x, Up a -> Up b -> a <= x <= b -> Up x) by (unfold Up; intros; lra).
  assert (Sp : spans Up (at_right 1) (Rbar_locally p_infty)).
  { split; [exists 2; unfold Up; lra|]. unfold Up. intros x X. split.
    - apply (filter_imp (fun a => 1 < a < x)); [intros; lra|]. now apply at_right_lt.
    - apply (filter_imp (fun a => x < a)); [intros; lra|]. apply p_infty_gt. }
  destruct (mass_exists Up (at_right 1) (Rbar_locally p_infty) (eul b) l Cv Sp) as (T1 & M1).
  - intros x X. apply eul_cont. unfold Pos, Up in *. lra.
  - intros x X. left. apply eul_pos. unfold Up in *. lra.
  - intros x y X Y Lxy. apply (mass_bound Pos (at_right 0) (Rbar_locally p_infty) Pos_convex Pos_span (eul b)); auto.
    + apply eul_cont.
    + intros z Z. left. now apply eul_pos.
    + unfold Pos, Up in *. lra.
    + unfold Pos, Up in *. lra.
  - exists T1. intros q Q.
    apply (mass_chasles (eul b) (at_point q) (Rbar_locally p_infty) 1).
    + apply is_RInt_gen_at_point. apply (RInt_correct (eul b)). apply eul_int; lra.
    + apply (attained_low Pos Pos_convex Pos_open (eul b) (eul_cont b) 1 (at_right 1) (Rbar_locally p_infty) T1); auto.
      * unfold Pos; lra.
      * apply at_right_le.
      * apply p_infty_gt.
Qed.
Lemma tail_continuous b T1 q : Pos q -> continuous (fun q => RInt (eul b) q 1 + T1) q.
Proof.
  intros Q. apply (continuous_plus (fun q => RInt (eul b) q 1) (fun _ => T1)); [|apply continuous_const].
  apply (continuous_ext_loc _ (fun q => opp (RInt (eul b) 1 q))).
  - apply (filter_imp Pos); [|now apply Pos_open]. intros y Y. apply (opp_RInt_swap (V := R_CompleteNormedModule)).
    apply (any_int Pos Pos_convex (eul b) (eul_cont b)); [unfold Pos; lra|exact Y].
  - apply (continuous_opp (fun q => RInt (eul b) 1 q)). apply (ex_derive_continuous (fun q => RInt (eul b) 1 q)).
    eexists. apply (tip_derive Pos Pos_convex Pos_open (eul b) (eul_cont b)); [unfold Pos; lra|exact Q].
Qed.

(** Substituting u/x - u. *)
Lemma quot_0 u : 0 < u -> filterlim (fun x => u / x - u) (at_right 0) (Rbar_locally p_infty).
Proof.
  intros U P (M & HM). pose proof (inv_at_right u U (fun y => M + u < y) ltac:(exists (M + u); auto)) as H.
  unfold filtermap in *. revert H. apply filter_imp. intros x Hx. apply HM. lra.
Qed.
Lemma quot_t u t : 0 < u -> 0 < t < 1 -> filterlim (fun x => u / x - u) (at_left t) (at_right (u / t - u)).
Proof.
  intros U T P HP. unfold filtermap.
  assert (Cc : continuous (fun x => u / x - u) t).
  { apply (ex_derive_continuous (fun x => u / x - u)). auto_derive. lra. }
  specialize (Cc _ HP). unfold filtermap in Cc.
  generalize (filter_and _ _ (at_left_le t _ Cc) (at_left_lt 0 t ltac:(lra))). apply filter_imp.
  intros x (H & X). apply H. assert (u / t < u / x); [|lra].
  apply Rmult_lt_compat_l; [assumption|]. apply Rinv_lt_contravar; nra.
Qed.
Lemma row_subst (f : R -> R) u t l : 0 < u -> 0 < t < 1 -> (forall v, 0 < v -> continuous f v) ->
  is_RInt_gen f (at_right (u / t - u)) (Rbar_locally p_infty) l ->
  is_RInt_gen (fun x => u / (x * x) * f (u / x - u)) (at_right 0) (at_left t) l.
Proof.
  intros U T Cf M.
  apply (is_RInt_gen_swap (V := R_NormedModule)) in M. apply (is_RInt_gen_opp (V := R_NormedModule)) in M.
  replace (opp (opp l)) with l in M by (symmetry; apply (opp_opp (G := R_AbelianGroup))).
  apply (is_RInt_gen_subst (fun y => opp (f y)) _ (fun x => u / x - u) (Rbar_locally p_infty) (at_right (u / t - u))); try typeclasses eauto; auto.
  - now apply quot_0.
  - now apply quot_t.
  - apply (Filter_prod _ _ _ _ _ (at_right_lt 0 t (proj1 T)) (at_left_lt 0 t (proj1 T))). intros a b A Bb v V. simpl in *.
    pose proof (is_RInt_comp (V := R_CompleteNormedModule) (fun y => opp (f y)) (fun x => u / x - u) (fun x => - (u / (x * x))) a b) as E.
    assert (v = RInt (fun y => opp (f y)) (u / a - u) (u / b - u)) as ->.
    { symmetry. apply is_RInt_unique. exact V. }
    assert (In : forall x, Rmin a b <= x <= Rmax a b -> 0 < x < t).
    { intros x. unfold Rmin, Rmax. destruct (Rle_dec a b); lra. }
    apply (is_RInt_ext (fun y => scal (- (u / (y * y))) (opp (f (u / y - u))))).
    + intros x _. unfold scal, opp; simpl; unfold mult; simpl. ring.
    + apply E.
      * intros x X. apply In in X. apply (continuous_opp f). apply Cf.
        assert (u < u / x); [|lra]. replace u with (u / 1) at 1 by field. apply Rmult_lt_compat_l; [assumption|].
        apply Rinv_lt_contravar; lra.
      * intros x X. apply In in X. split.
        -- auto_derive; [lra|]. field. lra.
        -- apply (ex_derive_continuous (fun x => - (u / (x * x)))). auto_derive. nra.
Qed.

(** The joint density of the quotient [x] and the first draw [u]. *)
Definition joint (a b x u : R) : R := bker a b x * (/ x * eul (a + b) (/ x * u)).
Lemma joint_eq a b x u : 0 < x < 1 -> 0 < u -> eul a u * (u / (x * x) * eul b (u / x - u)) = joint a b x u.
Proof.
  intros X U. unfold joint, bker, eul, Rpower.
  replace (u / x - u) with (u * (/ x * (1 - x))) by (field; lra).
  assert (Ix : 0 < / x) by (apply Rinv_0_lt_compat; lra).
  rewrite (ln_mult u), (ln_mult (/ x) (1 - x)), (ln_mult (/ x) u), ln_Rinv by (try apply Rmult_lt_0_compat; lra).
  replace (u / (x * x)) with (exp (ln u + (- ln x + - ln x))) by (rewrite !exp_plus, !exp_Ropp, !exp_ln by lra; field; lra).
  replace (/ x) with (exp (- ln x)) at 2 by (rewrite exp_Ropp, exp_ln by lra; reflexivity).
  rewrite <- !exp_plus. f_equal.
  replace (u * (/ x * (1 - x))) with (/ x * u - u) by (field; lra). ring.
Qed.
Lemma joint_cont a b x u : 0 < x < 1 -> 0 < u -> continuity_2d_pt (joint a b) x u.
Proof.
  intros X U. assert (Ix : 0 < / x) by (apply Rinv_0_lt_compat; lra).
  assert (C1 : continuity_2d_pt (fun x _ : R => / x) x u) by (apply continuity_2d_pt_inv; [apply continuity_2d_pt_id1|lra]).
  unfold joint. apply continuity_2d_pt_mult; [|apply continuity_2d_pt_mult; [exact C1|]].
  - apply (continuity_1d_2d_pt_comp (bker a b) (fun x _ => x)); [|apply continuity_2d_pt_id1].
    apply continuity_pt_filterlim. now apply bker_continuous.
  - apply (continuity_1d_2d_pt_comp (eul (a + b)) (fun x u => / x * u)).
    + apply continuity_pt_filterlim. apply eul_cont. unfold Pos. now apply Rmult_lt_0_compat.
    + apply continuity_2d_pt_mult; [exact C1|apply continuity_2d_pt_id2].
Qed.
Lemma joint_pos a b x u : 0 < x < 1 -> 0 < u -> 0 <= joint a b x u.
Proof.
  intros X U. assert (Ix : 0 < / x) by (apply Rinv_0_lt_compat; lra). unfold joint.
  apply Rmult_le_pos; [left; apply bker_pos|]. apply Rmult_le_pos; [lra|]. left. apply eul_pos. now apply Rmult_lt_0_compat.
Qed.
Lemma joint_over_u a b x l : 0 < x < 1 -> is_RInt_gen (eul (a + b)) (at_right 0) (Rbar_locally p_infty) l ->
  is_RInt_gen (joint a b x) (at_right 0) (Rbar_locally p_infty) (bker a b x * l).
Proof.
  intros X M. unfold joint. apply (mass_scal (fun u => / x * eul (a + b) (/ x * u))); try typeclasses eauto.
  apply gamma_scaled; [apply Rinv_0_lt_compat; lra|exact M].
Qed.
Lemma joint_over_x a b t u T1 : 0 < t < 1 -> 0 < u ->
  (forall q, 0 < q -> is_RInt_gen (eul b) (at_point q) (Rbar_locally p_infty) (RInt (eul b) q 1 + T1)) ->
  is_RInt_gen (fun x => joint a b x u) (at_right 0) (at_left t) (eul a u * (RInt (eul b) (u / t - u) 1 + T1)).
Proof.
  intros T U Tl.
  assert (Q : 0 < u / t - u).
  { assert (u < u / t); [|lra]. replace u with (u / 1) at 1 by field. apply Rmult_lt_compat_l; [assumption|]. apply Rinv_lt_contravar; lra. }
  assert (M : is_RInt_gen (eul b) (at_right (u / t - u)) (Rbar_locally p_infty) (RInt (eul b) (u / t - u) 1 + T1)).
  { rewrite <- (Rplus_0_l (RInt (eul b) (u / t - u) 1 + T1)).
    apply (mass_chasles (eul b) (at_right (u / t - u)) (Rbar_locally p_infty) (u / t - u)); [|now apply Tl].
    apply (tip_left Pos Pos_convex Pos_open (eul b) (eul_cont b)); [typeclasses eauto|exact Q|apply at_right_le]. }
  apply (row_subst (eul b) u t) in M; auto; [|intros; now apply eul_cont].
  apply (mass_scal _ _ _ (eul a u)) in M. revert M. apply (is_RInt_gen_ext (V := R_NormedModule)).
  apply (Filter_prod _ _ _ _ _ (at_right_lt 0 t (proj1 T)) (at_left_lt 0 t (proj1 T))). intros p r P Rr x X. simpl in X.
  apply joint_eq; [|assumption]. unfold Rmin, Rmax in X. destruct (Rle_dec p r); lra.
Qed.
Theorem beta_law a b t : 0 < a -> 0 < b -> 0 < t < 1 -> exists T1 m,
  (forall q, 0 < q -> is_RInt_gen (eul b) (at_point q) (Rbar_locally p_infty) (RInt (eul b) q 1 + T1)) /\
  is_RInt_gen (bker a b) (at_right 0) (at_point t) m /\
  is_RInt_gen (fun u => eul a u * (RInt (eul b) (u / t - u) 1 + T1)) (at_right 0) (Rbar_locally p_infty) (m * exp (log_gamma (a + b))).
Proof.
  intros A B T. destruct (tail_exists b B) as (T1 & Tl). exists T1.
  assert (Gp : forall x, Seg t x -> 0 <= bker a b x) by (intros; left; apply bker_pos).
  assert (Gc : forall x, Seg t x -> continuous (bker a b) x) by (unfold Seg; intros; apply bker_continuous; lra).
  destruct (mass_exists (Seg t) (at_right 0) (at_left t) (bker a b) (exp (log_beta a b)) (Seg_convex t) (Seg_span t (proj1 T)) Gc Gp) as (m & M).
  { intros x y X Y L. apply (mass_bound (Seg 1) (at_right 0) (at_left 1) (Seg_convex 1) (Seg_span 1 Rlt_0_1) (bker a b)); unfold Seg in *; try lra.
    - intros; now apply bker_continuous.
    - intros; left; apply bker_pos.
    - now apply log_beta_mass. }
  exists m. split; [exact Tl|]. split.
  - apply (attained (Seg 1) (Seg_convex 1) (Seg_open 1) (bker a b) (fun x X => bker_continuous a b x X) t (at_right 0) (at_left t)); auto.
    + apply at_left_le.
    + apply at_right_lt. lra.
  - assert (Q : forall u, Pos u -> 0 < u / t - u).
    { unfold Pos. intros u U. assert (u < u / t); [|lra]. replace u with (u / 1) at 1 by field.
      apply Rmult_lt_compat_l; [assumption|]. apply Rinv_lt_contravar; lra. }
    pose proof (log_gamma_euler (a + b) ltac:(lra)) as G.
    apply (tonelli (Seg t) Pos (at_right 0) (at_left t) (at_right 0) (Rbar_locally p_infty) (Seg_convex t) Pos_convex (Seg_open t) Pos_open
      (Seg_span t (proj1 T)) Pos_span (joint a b)) with (g := fun x => bker a b x * exp (log_gamma (a + b))).
    + unfold Seg, Pos. intros; apply joint_cont; lra.
    + unfold Seg, Pos. intros; apply joint_pos; lra.
    + intros x X. apply (continuous_mult (bker a b) (fun _ => exp (log_gamma (a + b)))); [now apply Gc|apply continuous_const].
    + intros u U. apply (continuous_mult (eul a) (fun u => RInt (eul b) (u / t - u) 1 + T1)); [now apply eul_cont|].
      apply (continuous_comp (fun u => u / t - u) (fun q => RInt (eul b) q 1 + T1)).
      * apply (ex_derive_continuous (fun u => u / t - u)). auto_derive. lra.
      * apply tail_continuous. now apply Q.
    + unfold Seg. intros x X. apply joint_over_u; [lra|exact G].
    + unfold Pos. intros u U. now apply joint_over_x.
    + apply (mass_scal _ _ _ (exp (log_gamma (a + b)))) in M. rewrite Rmult_comm in M.
      revert M. apply (is_RInt_gen_ext (V := R_NormedModule)). apply filter_forall_prod; try typeclasses eauto. intros ab x _. apply Rmult_comm.
Qed.
