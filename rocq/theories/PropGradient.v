(** C33 to C37 over continuous latent variables: the gradient estimators of the
    variational objectives, averaged over draws from a density. *)
From Coq Require Import List Arith Bool ZArith Reals Lra Lia FunctionalExtensionality.
From Coquelicot Require Import Coquelicot.
From Verif Require Import ModelShape SpecShape SpecDist ModelVI SpecVI SpecVolume SpecInvariance SpecRun SpecExpect.
From Verif Require Import ProofDiscrete ProofVI ProofVolume ProofChange ProofPart ProofPhase ProofRatio ProofExpect ProofSamples ProofDerive PropELBO PropIW PropVimco PropExpect.
Import ListNotations.
Local Open Scope R_scope.

Section Draws.
Context {I : Type} (dec : forall i j : I, {i = j} + {i <> j}) (L : list I).
Hypothesis L_once : NoDup L.
Hypothesis L_all : forall i, In i L.
Notation point := (I -> R).
Notation quant := (@quantity point).

Lemma log_weight_derive (lj : quant) lqs theta : differentiable_everywhere theta lj -> (forall lq, In lq lqs -> differentiable_everywhere theta lq) ->
  forall z, is_derive (fun t => log_weight lj lqs t z) theta (partial lj z - score lqs z).
Proof.
  intros Dj Dq z. apply (is_derive_minus (K := R_AbsRing) (V := R_NormedModule) (fun t => at_param lj t z) (fun t => log_q lqs t z)); [apply Dj|].
  unfold log_q, score. apply (is_derive_total (fun t lq => at_param lq t z) (fun lq => partial lq z)). intros lq Hl. now apply Dq.
Qed.
Lemma derive_unique (f : R -> R) x a b : is_derive f x a -> is_derive f x b -> a = b.
Proof. intros A B. rewrite <- (is_derive_unique _ _ _ A). now apply is_derive_unique. Qed.

(** ** Reparameterised draws *)
Section Reparam.
Variables (w : point -> R) (lj : quant) (lqs : list quant) (theta : R).
Hypothesis w_density : probability_density dec L w.
Hypothesis latent : lqs <> [].
Hypothesis lj_diff : differentiable_everywhere theta lj.
Hypothesis lqs_diff : forall lq, In lq lqs -> differentiable_everywhere theta lq.
Hypothesis smooth : smooth_integrand dec L (fun t e => w e * log_weight lj lqs t e) theta.
Notation lw := (log_weight lj lqs).

(** When the noise of the draws does not depend on the parameter, the mean gradient of the
    sgvb cost is minus the gradient of the mean objective. *)
Theorem C33_sgvb_continuous K : (1 <= K)%nat ->
  exists objective cost r V D,
    (forall t es, length es = K -> elbo_objective true (tensor_of t lj es) (entropy_of t lqs es) = [objective t es]) /\
    (forall es, length es = K -> elbo_sgvb true (tensor_of theta lj es) (entropy_of theta lqs es) = [cost es] /\
      val (cost es) = - val (objective theta es)) /\
    0 < r /\ (forall t, Rabs (t - theta) < r -> mean_over_samples dec L w K (fun es => val (objective t es)) (V t)) /\
    mean_over_samples dec L w K (fun es => tan (cost es)) D /\ is_derive V theta (- D).
Proof.
  intros HK. assert (HN : INR K <> 0) by (apply not_0_INR; lia).
  destruct (smooth_derive dec L _ theta smooth) as (r & V & F' & d & Hr & HV & DF & HF & DV).
  set (obj := fun t es => dmean (map (fun z => Dual (lw t z) (partial lj z - score lqs z)) es)).
  exists obj, (fun es => dneg (obj theta es)), r, V, (- d). split; [intros t es _; now rewrite elbo_eq|].
  split; [intros es _; split; [unfold elbo_sgvb; now rewrite elbo_eq|reflexivity]|]. split; [exact Hr|]. split; [|split].
  - intros t Ht. replace (V t) with (/ INR K * (INR K * V t)) by (field; exact HN).
    eapply means_ext; [|apply means_scal; apply means_sum; [exact L_all|exact w_density|exact (HV t Ht)]].
    intros es E. cbv beta. unfold obj. rewrite val_dmean, E. cbn [val]. unfold Rdiv. now rewrite Rmult_comm.
  - assert (M : mean_over_sample dec L w (fun z => partial lj z - score lqs z) d).
    { eapply integral_ext; [|exact HF]. intros z. apply (derive_unique (fun s => w z * lw s z) theta); [apply DF|].
      apply (is_derive_scal (fun s => lw s z)). now apply log_weight_derive. }
    replace (- d) with (- / INR K * (INR K * d)) by (field; exact HN).
    eapply means_ext; [|apply means_scal; apply means_sum; [exact L_all|exact w_density|exact M]].
    intros es E. cbv beta. unfold obj. cbn [tan dneg]. rewrite tan_dmean, E; [|intros ->; cbn in E; lia]. cbn [tan]. unfold Rdiv. ring.
  - now rewrite Ropp_involutive.
Qed.

(** Continuity of sums over the draws, jointly in the parameter. *)
Lemma joined_sum K (g : R -> point -> R) : cont (joined g) -> cont (joined (fun t (y : vectors (I := I) K -> R) => sum_over (g t) (as_list K y))).
Proof.
  intros C. induction K as [|K IH]; [exact (cont_const 0)|].
  apply (cont_plus (fun y : option (vectors (I := I) (S K)) -> R => joined g (fun o => y (option_map inl o)))
    (fun y => joined (fun t (y : vectors (I := I) K -> R) => sum_over (g t) (as_list K y)) (fun o => y (option_map inr o)))).
  - exact (cont_part (option_map inl) (joined g) C).
  - exact (cont_part (option_map inr) _ IH).
Qed.
Lemma joined_of {J : Type} (g : (J -> R) -> R) : cont g -> cont (joined (fun _ : R => g)).
Proof. intros C. exact (cont_part Some g C). Qed.

Theorem C35_sgvb_continuous K : (1 <= K)%nat ->
  exists objective cost r V D,
    (forall t es, length es = K -> iw_objective true (tensor_of t lj es) (entropy_of t lqs es) = Some (objective t es)) /\
    (forall es, length es = K -> iw_sgvb true (tensor_of theta lj es) (entropy_of theta lqs es) = Some (cost es) /\
      val (cost es) = - val (objective theta es)) /\
    0 < r /\ (forall t, Rabs (t - theta) < r -> mean_over_samples dec L w K (fun es => val (objective t es)) (V t)) /\
    mean_over_samples dec L w K (fun es => tan (cost es)) D /\ is_derive V theta (- D).
Proof.
  intros HK. destruct K as [|K]; [lia|]. clear HK. set (n := S K). assert (HN : 0 < INR n) by (apply lt_0_INR; unfold n; lia).
  destruct smooth as ((v & Hv) & F' & G & m & r & Hr & C & C' & D & Dom & HG).
  pose proof w_density as (Pw & Cw & Nw & Tw).
  pose (Dw := fun t e => F' t e * / w e).
  assert (Cinv : cont (fun e => / w e)) by (apply cont_inv; [exact Cw|]; intros e; apply Rgt_not_eq, Pw).
  assert (CDw : cont (joined Dw)) by (apply (cont_mult (joined F') (joined (fun _ e => / w e))); [exact C'|now apply joined_of]).
  assert (Clw : cont (joined lw)).
  { apply (cont_ext (fun y => joined (fun t e => w e * lw t e) y * joined (fun _ e => / w e) y)).
    - intros y. unfold joined. field. apply Rgt_not_eq, Pw.
    - apply cont_mult; [exact C|now apply joined_of]. }
  assert (DDw : forall t e, is_derive (fun s => lw s e) t (Dw t e)).
  { intros t e. apply (is_derive_ext (fun s => / w e * (w e * lw s e))).
    - intros s. change (@eq R (/ w e * (w e * lw s e)) (lw s e)). field. apply Rgt_not_eq, Pw.
    - unfold Dw. rewrite Rmult_comm. apply (is_derive_scal (fun s => w e * lw s e)). apply D. }
  pose (W := fun t es => sum_over (fun e => exp (lw t e)) es). pose (WD := fun t es => sum_over (fun e => Dw t e * exp (lw t e)) es).
  assert (PW : forall t es, es <> [] -> 0 < W t es) by (intros t es Ne; now apply total_exp_pos).
  assert (NE : forall y, as_list (I := I) n y <> []) by (intros y; discriminate).
  pose (FK := fun t (y : vectors (I := I) n -> R) => sample_density w (as_list n y) * ln_mean_exp (map (lw t) (as_list n y))).
  pose (FK' := fun t (y : vectors (I := I) n -> R) => sample_density w (as_list n y) * (WD t (as_list n y) * / W t (as_list n y))).
  assert (CW : cont (joined (fun t y => W t (as_list (I := I) n y)))).
  { apply (joined_sum n (fun t e => exp (lw t e))). now apply (cont_exp' (joined lw)). }
  assert (CWD : cont (joined (fun t y => WD t (as_list (I := I) n y)))).
  { apply (joined_sum n (fun t e => Dw t e * exp (lw t e))). apply (cont_mult (joined Dw) (fun y => exp (joined lw y))); [exact CDw|now apply cont_exp']. }
  assert (Crho : cont (joined (fun _ : R => fun y => sample_density w (as_list (I := I) n y)))).
  { apply joined_of. apply (rho_total dec L L_all w w_density n). }
  destruct (integral_abs dec L _ _ Hv) as (a & Ia & _).
  assert (Mabs : mean_over_sample dec L w (fun e => Rabs (lw theta e)) a).
  { eapply integral_ext; [|exact Ia]. intros e. cbv beta. rewrite Rabs_mult, (Rabs_pos_eq (w e)); [reflexivity|apply Nw]. }
  assert (MG : mean_over_sample dec L w (fun e => G e * / w e) m).
  { eapply integral_ext; [|exact (integral_of_total dec L _ _ HG)]. intros e. cbv beta. field. apply Rgt_not_eq, Pw. }
  assert (Dlme : forall t es, es <> [] -> is_derive (fun s => ln_mean_exp (map (lw s) es)) t (WD t es * / W t es)).
  { intros t es Ne. pose proof (lme_derive es lw (Dw t) t es Ne (fun z _ => DDw t z)) as H. rewrite tan_lme in H by exact Ne. exact H. }
  assert (S : smooth_integrand (vectors_dec dec n) (all_of L n) FK theta).
  { split.
    - apply (means_dominated dec L L_all w w_density n (fun es => ln_mean_exp (map (lw theta) es)) (sum_over (fun e => Rabs (lw theta e))) (INR n * a)).
      + apply (cont_ext (fun y => ln (joined (fun t y => W t (as_list (I := I) n y)) (with_param theta y) * / INR n))).
        { intros y. rewrite lme_form, as_list_length. reflexivity. }
        apply cont_ln.
        * apply cont_mult; [|exact (cont_const _)]. exact (joined_at (fun t y => W t (as_list n y)) theta CW).
        * intros y. apply Rmult_lt_0_compat; [apply PW, NE|now apply Rinv_0_lt_compat].
      + intros [|e es] E; [discriminate|]. now apply lme_abs.
      + apply means_sum; [exact L_all|exact w_density|exact Mabs].
    - exists FK', (fun y => sample_density w (as_list n y) * sum_over (fun e => G e * / w e) (as_list n y)), (INR n * m), r.
      split; [exact Hr|]. split; [|split; [|split; [|split]]].
      + apply (cont_mult (joined (fun _ : R => fun y => sample_density w (as_list (I := I) n y))) (joined (fun t y => ln_mean_exp (map (lw t) (as_list n y))))); [exact Crho|].
        apply (cont_ext (fun y => ln (joined (fun t y => W t (as_list (I := I) n y)) y * / INR n))).
        { intros y. unfold joined. rewrite lme_form, as_list_length. reflexivity. }
        apply cont_ln; [apply cont_mult; [exact CW|exact (cont_const _)]|].
        intros y. apply Rmult_lt_0_compat; [apply PW, NE|now apply Rinv_0_lt_compat].
      + apply (cont_mult (joined (fun _ : R => fun y => sample_density w (as_list (I := I) n y))) (joined (fun t y => WD t (as_list n y) * / W t (as_list n y)))); [exact Crho|].
        apply (cont_mult (joined (fun t y => WD t (as_list n y))) (fun y => / joined (fun t y => W t (as_list n y)) y)); [exact CWD|].
        apply cont_inv; [exact CW|]. intros y. apply Rgt_not_eq. apply PW, NE.
      + intros t y. unfold FK, FK'. apply (is_derive_scal (fun s => ln_mean_exp (map (lw s) (as_list n y)))). apply Dlme, NE.
      + intros t y Ht. unfold FK'. pose proof (rho_pos dec L w w_density n y) as Pr. cbv beta in Pr.
        rewrite Rabs_mult, Rabs_pos_eq by lra. apply Rmult_le_compat_l; [lra|].
        generalize (as_list n y) (NE y). intros es Ne. specialize (PW t es Ne).
        rewrite Rabs_mult, (Rabs_pos_eq (/ W t es)) by (apply Rlt_le, Rinv_0_lt_compat, PW).
        apply (Rmult_le_reg_r (W t es)); [exact PW|]. rewrite Rmult_assoc, Rinv_l, Rmult_1_r by lra.
        assert (DB : forall e, Rabs (Dw t e) <= G e * / w e).
        { intros e. unfold Dw. rewrite Rabs_mult, (Rabs_pos_eq (/ w e)) by (apply Rlt_le, Rinv_0_lt_compat, Pw).
          apply Rmult_le_compat_r; [apply Rlt_le, Rinv_0_lt_compat, Pw|]. now apply Dom. }
        assert (PG : forall e, 0 <= G e * / w e) by (intros e; apply Rle_trans with (Rabs (Dw t e)); [apply Rabs_pos|apply DB]).
        unfold WD, W. clear PW Ne. induction es as [|e es IH]; cbn [SpecDist.total]; [rewrite Rabs_R0; lra|].
        set (A := sum_over (fun e => Dw t e * exp (lw t e)) es) in *. set (B := sum_over (fun e => G e * / w e) es) in *. set (E := sum_over (fun e => exp (lw t e)) es) in *.
        assert (0 <= E) by (apply total_nonneg; intros; apply Rlt_le, exp_pos).
        assert (0 <= B) by (apply total_nonneg; intros; apply PG).
        pose proof (exp_pos (lw t e)). specialize (DB e). specialize (PG e).
        eapply Rle_trans; [apply Rabs_triang|]. rewrite Rabs_mult, (Rabs_pos_eq (exp _)) by lra.
        assert (Rabs (Dw t e) * exp (lw t e) <= G e * / w e * exp (lw t e)) by (apply Rmult_le_compat_r; lra).
        assert (0 <= G e * / w e * E) by (apply Rmult_le_pos; lra). assert (0 <= B * exp (lw t e)) by (apply Rmult_le_pos; lra). lra.
      + apply integral_total; [|apply means_sum; [exact L_all|exact w_density|exact MG]].
        intros y. apply Rmult_le_pos; [apply Rlt_le, (rho_pos dec L w w_density)|]. apply total_nonneg. intros e _.
        apply Rmult_le_pos; [apply HG|apply Rlt_le, Rinv_0_lt_compat, Pw]. }
  destruct (smooth_derive _ _ FK theta S) as (r' & V & F1 & d & Hr' & HV & DF & HF & DV).
  set (obj := fun t es => log_mean_exp (map (weighted t lj lqs) es)).
  exists obj, (fun es => dneg (obj theta es)), r', V, (- d). split; [intros t es _; now rewrite iw_eq|].
  split; [intros es _; split; [unfold iw_sgvb; now rewrite iw_eq|reflexivity]|]. split; [exact Hr'|]. split; [|split].
  - intros t Ht. apply (means_ext dec L w n (fun es => ln_mean_exp (map (lw t) es))); [|exact (HV t Ht)]. intros es E. unfold obj. symmetry. apply val_weighted. intros ->. discriminate.
  - assert (M : mean_over_samples dec L w n (fun es => tan (obj theta es)) d).
    { eapply integral_ext; [|exact HF]. intros y. apply (derive_unique (fun s => FK s y) theta); [apply DF|]. unfold FK, obj.
      apply (is_derive_scal (fun s => ln_mean_exp (map (lw s) (as_list n y)))).
      apply (lme_derive (as_list n y) lw (fun z => partial lj z - score lqs z)); [apply NE|]. intros z _. now apply log_weight_derive. }
    replace (- d) with (-1 * d) by ring. eapply means_ext; [|apply means_scal; exact M]. intros es _. cbn [tan dneg]. ring.
  - now rewrite Ropp_involutive.
Qed.
End Reparam.

(** ** Draws from a family of densities *)
Section Family.
Variables (q : R -> point -> R) (lj : quant) (lqs : list quant) (theta : R).
Hypothesis fam : continuous_family dec L q lqs theta.
Hypothesis lj_diff : differentiable_everywhere theta lj.
Notation lw := (log_weight lj lqs).

Lemma density_derive z : is_derive (fun t => q t z) theta (q theta z * score lqs z).
Proof.
  destruct fam as [Dn _ Lq Dq _]. assert (E : forall t, exp (log_q lqs t z) = q t z) by (intros t; rewrite Lq; apply exp_ln, Dn).
  apply (is_derive_ext (fun t => exp (log_q lqs t z))); [exact E|].
  assert (S : is_derive (fun t => log_q lqs t z) theta (score lqs z)).
  { unfold log_q, score. apply (is_derive_total (fun t lq => at_param lq t z) (fun lq => partial lq z)). intros lq Hl. now apply Dq. }
  pose proof (is_derive_comp exp (fun t => log_q lqs t z) theta _ _ (is_derive_exp _) S) as C. cbv beta in C. rewrite E in C.
  rewrite Rmult_comm. exact C.
Qed.
Lemma sample_density_derive zs : is_derive (fun t => sample_density (q t) zs) theta (sample_density (q theta) zs * sum_over (score lqs) zs).
Proof.
  induction zs as [|z zs IH].
  - cbn. rewrite Rmult_0_r. apply (is_derive_const (K := R_AbsRing) (V := R_NormedModule) 1).
  - pose proof (is_derive_mult (fun t => q t z) (fun t => sample_density (q t) zs) theta _ _ (density_derive z) IH ltac:(intros; apply Rmult_comm)) as M.
    match type of M with is_derive _ _ ?m => replace (sample_density (q theta) (z :: zs) * sum_over (score lqs) (z :: zs)) with m; [exact M|] end.
    unfold sample_density. cbn [map fold_right SpecDist.total]. unfold plus, mult. cbn. fold (sample_density (q theta) zs). ring.
Qed.
(** The score has mean zero. *)
Lemma score_mean : mean_over_sample dec L (q theta) (score lqs) 0.
Proof.
  destruct (smooth_derive dec L q theta (cf_smooth _ _ _ _ _ fam)) as (r & V & F' & d & Hr & HV & DF & HF & DV).
  assert (E : d = 0).
  { apply (derive_unique V theta); [exact DV|].
    apply (is_derive_ext_loc (fun _ => 1)); [|apply (is_derive_const (K := R_AbsRing) (V := R_NormedModule) 1)].
    exists (mkposreal r Hr). intros t Ht.
    apply (integral_unique dec L (q t)); [apply integral_of_total, (cf_density _ _ _ _ _ fam)|apply HV; exact Ht]. }
  rewrite <- E. eapply integral_ext; [|exact HF]. intros z. apply (derive_unique (fun s => q s z) theta); [apply DF|apply density_derive].
Qed.

Section Reinforce.
Hypothesis smooth : smooth_integrand dec L (fun t z => q t z * lw t z) theta.
Lemma elbo_gradient : exists r V d, 0 < r /\ (forall t, Rabs (t - theta) < r -> mean_over_sample dec L (q t) (lw t) (V t)) /\
  is_derive V theta d /\ forall c, mean_over_sample dec L (q theta) (fun z => tan (entry theta lj lqs c z)) (- d).
Proof.
  destruct (smooth_derive dec L _ theta smooth) as (r & V & F' & d & Hr & HV & DF & HF & DV).
  exists r, V, d. split; [exact Hr|]. split; [exact HV|]. split; [exact DV|]. intros c.
  replace (- d) with (-1 * d + (c - 1) * 0) by ring.
  apply (integral_ext dec L (fun z => -1 * F' z + (c - 1) * (q theta z * score lqs z))).
  - intros z. replace (F' z) with (q theta z * score lqs z * lw theta z + q theta z * (partial lj z - score lqs z)).
    + cbn [tan entry]. ring.
    + apply (derive_unique (fun s => q s z * lw s z) theta); [|apply DF].
      pose proof (is_derive_mult (fun s => q s z) (fun s => lw s z) theta _ _ (density_derive z)
        (log_weight_derive lj lqs theta lj_diff (cf_diff _ _ _ _ _ fam) z) ltac:(intros; apply Rmult_comm)) as M. exact M.
  - apply integral_plus; apply integral_scal; [exact HF|exact score_mean].
Qed.

(** For a family of densities the mean gradient of the reinforce cost is minus the
    gradient of the evidence lower bound, whatever the baseline and whatever moving
    average is subtracted. *)
Theorem C34_continuous K vr baseline m : (1 <= K)%nat -> (forall b, baseline = Some b -> length b = K) ->
  exists cost r V D,
    (forall zs, length zs = K -> option_map r_cost (reinforce true vr baseline m (tensor_of theta lj zs) (entropy_of theta lqs zs)) = Some [cost zs]) /\
    0 < r /\ (forall t, Rabs (t - theta) < r -> mean_over_sample dec L (q t) (log_weight lj lqs t) (V t)) /\
    mean_over_samples dec L (q theta) K (fun zs => tan (cost zs)) D /\ is_derive V theta (- D).
Proof.
  intros HK HB. pose (z0 := fun _ : I => 0). assert (HN : INR K <> 0) by (apply not_0_INR; lia).
  destruct elbo_gradient as (r & V & d & Hr & HV & DV & Me).
  exists (fun zs => dmean (map (fun j => entry theta lj lqs (offset vr baseline m j) (nth j zs z0)) (seq 0 (length zs)))), r, V, (- d).
  split; [|split; [exact Hr|split; [exact HV|split]]].
  - intros zs Lz. destruct (reinforce_cost true vr baseline m theta lj lqs zs z0 (cf_latent _ _ _ _ _ fam)) as [o [E C]].
    { intros b Hb. rewrite Lz. auto. }
    rewrite E. cbn [option_map]. now rewrite C.
  - apply (means_ext dec L (q theta) K (fun zs => / INR K * sum_over (fun j => tan (entry theta lj lqs (offset vr baseline m j) (nth j zs z0))) (seq 0 K))).
    + intros zs Lz. rewrite Lz, tan_dmean by (destruct K; [lia|easy]). rewrite seq_length. unfold Rdiv. ring.
    + replace (- d) with (/ INR K * sum_over (fun _ => - d) (seq 0 K)) by (rewrite total_const, seq_length; field; exact HN).
      apply means_scal.
      apply (means_sum_family dec L L_all (q theta) (cf_density _ _ _ _ _ fam theta) K (seq 0 K)
        (fun j zs => tan (entry theta lj lqs (offset vr baseline m j) (nth j zs z0))) (fun _ => - d)).
      intros j Hj%in_seq.
      apply (means_nth dec L L_all (q theta) (cf_density _ _ _ _ _ fam theta) K (fun z => tan (entry theta lj lqs (offset vr baseline m j) z))); [lia|]. apply Me.
  - now rewrite Ropp_involutive.
Qed.
(** Without a sample axis, each entry of the cost is unbiased. *)
Theorem C34_continuous_unreduced K vr baseline m j : (j < K)%nat -> (forall b, baseline = Some b -> length b = K) ->
  exists cost r V D,
    (forall zs, length zs = K -> exists o,
      reinforce false vr baseline m (tensor_of theta lj zs) (entropy_of theta lqs zs) = Some o /\
      nth_error (r_cost o) j = Some (cost zs)) /\
    0 < r /\ (forall t, Rabs (t - theta) < r -> mean_over_sample dec L (q t) (log_weight lj lqs t) (V t)) /\
    mean_over_samples dec L (q theta) K (fun zs => tan (cost zs)) D /\ is_derive V theta (- D).
Proof.
  intros HK HB. pose (z0 := fun _ : I => 0).
  destruct elbo_gradient as (r & V & d & Hr & HV & DV & Me).
  exists (fun zs => entry theta lj lqs (offset vr baseline m j) (nth j zs z0)), r, V, (- d).
  split; [|split; [exact Hr|split; [exact HV|split]]].
  - intros zs Lz. destruct (reinforce_cost false vr baseline m theta lj lqs zs z0 (cf_latent _ _ _ _ _ fam)) as [o [E C]].
    { intros b Hb. rewrite Lz. auto. }
    exists o. split; [exact E|]. rewrite C. cbn [mean_if].
    rewrite nth_error_nth' with (d := entry theta lj lqs (offset vr baseline m 0) (nth 0 zs z0)) by (rewrite map_length, seq_length; lia).
    f_equal. rewrite (map_nth (fun j => entry theta lj lqs (offset vr baseline m j) (nth j zs z0))), seq_nth by lia. reflexivity.
  - apply (means_nth dec L L_all (q theta) (cf_density _ _ _ _ _ fam theta) K (fun z => tan (entry theta lj lqs (offset vr baseline m j) z))); [exact HK|]. apply Me.
  - now rewrite Ropp_involutive.
Qed.
End Reinforce.

(** ** VIMCO *)
Lemma without_form j (others : list R) : without j others = ln ((sum_over exp others + exp (mean others)) * / INR (S (length others))).
Proof.
  unfold without, ln_mean_exp. f_equal. unfold mean at 1. rewrite total_map, map_length, app_length. cbn [length]. rewrite firstn_length, skipn_length.
  rewrite total_app. cbn [SpecDist.total]. unfold Rdiv. f_equal.
  - assert (E : sum_over exp others = sum_over exp (firstn j others) + sum_over exp (skipn j others)) by now rewrite <- total_app, firstn_skipn.
    change (fun x : R => exp x) with exp. rewrite E. ring.
  - f_equal. f_equal. lia.
Qed.
Lemma without_abs j (others : list R) : others <> [] -> Rabs (without j others) <= 2 * sum_over Rabs others.
Proof.
  intros N. unfold without.
  assert (H : forall l : list R, l <> [] -> Rabs (ln_mean_exp l) <= sum_over Rabs l).
  { intros l Nl. pose proof (lme_le (fun x : R => x) l (sum_over Rabs l) Nl) as Up. pose proof (lme_ge (fun x : R => x) l Nl) as Lo. rewrite map_id in Up, Lo.
    assert (P : forall x, In x l -> Rabs x <= sum_over Rabs l).
    { clear. induction l as [|y l IH]; intros x Hx; [easy|]. cbn [SpecDist.total].
      pose proof (total_nonneg Rabs l ltac:(intros; apply Rabs_pos)). destruct Hx as [->|Hx]; [lra|]. specialize (IH x Hx). pose proof (Rabs_pos y). lra. }
    apply Rabs_le. split; [|apply Up; intros x Hx; apply Rle_trans with (Rabs x); [apply Rle_abs|now apply P]].
    eapply Rle_trans; [|exact Lo]. unfold mean. pose proof (len_pos l Nl) as PL.
    apply (Rmult_le_reg_r (INR (length l))); [exact PL|]. unfold Rdiv. rewrite Rmult_assoc, Rinv_l, Rmult_1_r by lra.
    rewrite <- (total_const _ l). apply total_le. intros x Hx. specialize (P x Hx). pose proof (Rle_abs (- x)) as A. rewrite Rabs_Ropp in A. lra. }
  eapply Rle_trans; [apply H; destruct (firstn j others); discriminate|]. rewrite total_app. cbn [SpecDist.total].
  assert (E : sum_over Rabs (firstn j others) + sum_over Rabs (skipn j others) = sum_over Rabs others) by now rewrite <- total_app, firstn_skipn.
  assert (M : Rabs (mean others) <= sum_over Rabs others); [|lra].
  unfold mean, Rdiv. rewrite Rabs_mult. pose proof (len_pos others N) as PL.
  rewrite (Rabs_pos_eq (/ INR (length others))) by (apply Rlt_le, Rinv_0_lt_compat, PL).
  assert (T : Rabs (sum_over (fun x => x) others) <= sum_over Rabs others).
  { clear. induction others as [|x l IH]; cbn [SpecDist.total]; [rewrite Rabs_R0; lra|]. eapply Rle_trans; [apply Rabs_triang|]. lra. }
  assert (1 <= INR (length others)) by (destruct others; [easy|]; cbn [length]; rewrite S_INR; pose proof (pos_INR (length others)); lra).
  assert (/ INR (length others) <= 1) by (rewrite <- Rinv_1; apply Rinv_le_contravar; lra).
  pose proof (Rabs_pos (sum_over (fun x => x) others)).
  apply Rle_trans with (Rabs (sum_over (fun x => x) others) * 1); [apply Rmult_le_compat_l; lra|lra].
Qed.
Lemma without_mean K j v : mean_over_sample dec L (q theta) (lw theta) v -> cont (lw theta) ->
  exists b, mean_over_samples dec L (q theta) (S K) (fun zs => without j (map (lw theta) zs)) b.
Proof.
  intros Hv C. pose proof (cf_density _ _ _ _ _ fam theta) as Dn. destruct (integral_abs dec L _ _ Hv) as (a & Ia & _).
  apply (means_dominated dec L L_all (q theta) Dn (S K) _ (fun zs => 2 * sum_over (fun z => Rabs (lw theta z)) zs) (2 * (INR (S K) * a))).
  - apply (cont_ext (fun y => ln ((sum_over (fun z => exp (lw theta z)) (as_list (I := I) (S K) y) + exp (sum_over (lw theta) (as_list (S K) y) * / INR (S K))) * / INR (S (S K))))).
    + intros y. rewrite without_form, !total_map, map_length, as_list_length. unfold mean. rewrite total_map, map_length, as_list_length. reflexivity.
    + apply cont_ln.
      * apply cont_mult; [|exact (cont_const _)]. apply cont_plus; [apply cont_list_sum, cont_exp', C|]. apply cont_exp'. apply cont_mult; [now apply cont_list_sum|exact (cont_const _)].
      * intros y. apply Rmult_lt_0_compat; [|apply Rinv_0_lt_compat, lt_0_INR; lia].
        apply Rplus_lt_0_compat; [apply total_exp_pos; discriminate|apply exp_pos].
  - intros zs E. rewrite <- (total_map Rabs (lw theta)). apply without_abs. destruct zs; discriminate.
  - apply means_scal, means_sum; [exact L_all|exact Dn|]. eapply integral_ext; [|exact Ia]. intros z. cbv beta.
    rewrite Rabs_mult, (Rabs_pos_eq (q theta z)); [reflexivity|]. apply Rlt_le, Dn.
Qed.

(** The mean gradient of an element of the VIMCO cost is minus the gradient of the mean
    importance weighted objective of its draws. *)
Theorem C36_continuous K axis s i (log_joint ent : list point -> tensor dual) v :
  (2 <= K)%nat -> (axis < length s)%nat -> nth axis s 0%nat = K -> valid (drop_axis axis s) i ->
  (forall zs, length zs = K -> t_shape (log_joint zs) = s /\ t_shape (ent zs) = s /\
     along axis (log_joint zs) i = tensor_of theta lj zs /\
     Some (along axis (ent zs) i) = entropy_of theta lqs zs) ->
  cont (log_weight lj lqs theta) -> mean_over_sample dec L (q theta) (log_weight lj lqs theta) v ->
  smooth_integrand (vectors_dec dec K) (all_of L K)
    (fun t y => sample_density (q t) (as_list K y) * ln_mean_exp (map (log_weight lj lqs t) (as_list K y))) theta ->
  exists cost r V D, (forall zs, length zs = K -> exists c,
      vimco (Z.of_nat axis) (log_joint zs) (Some (ent zs)) = Some c /\ t_at c i = cost zs) /\
    0 < r /\ (forall t, Rabs (t - theta) < r ->
      mean_over_samples dec L (q t) K (fun zs => ln_mean_exp (map (log_weight lj lqs t) zs)) (V t)) /\
    mean_over_samples dec L (q theta) K (fun zs => tan (cost zs)) D /\ is_derive V theta (- D).
Proof.
  intros HK Ha Hs Hv HT Cw Mw S. pose (z0 := fun _ : I => 0). pose proof (cf_density _ _ _ _ _ fam theta) as Dn.
  destruct (smooth_derive _ _ _ theta S) as (r & V & F' & d & Hr & HV & DF & HF & DV).
  assert (HC : forall zs, length zs = K -> exists c, vimco (Z.of_nat axis) (log_joint zs) (Some (ent zs)) = Some c /\
    tan (t_at c i) = sum_over (fun j => - score lqs (nth j zs z0) * (ln_mean_exp (map (lw theta) zs) - without j (map (lw theta) (remove_nth j zs)))) (seq 0 K)
      - tan (log_mean_exp (map (weighted theta lj lqs) zs))).
  { intros zs Lz. destruct (HT zs Lz) as [S1 [S2 [A1 A2]]]. apply (vimco_tan lj lqs theta K axis s); auto. apply (cf_latent _ _ _ _ _ fam). }
  exists (fun zs => match vimco (Z.of_nat axis) (log_joint zs) (Some (ent zs)) with Some c => t_at c i | None => dconst 0 end), r, V, (- d).
  split; [intros zs Lz; destruct (HC zs Lz) as [c [E _]]; exists c; now rewrite E|]. split; [exact Hr|]. split; [exact HV|]. split; [|now rewrite Ropp_involutive].
  destruct K as [|[|K]]; [lia|lia|].
  assert (M1 : mean_over_samples dec L (q theta) (Datatypes.S (Datatypes.S K)) (fun zs => sum_over (score lqs) zs * ln_mean_exp (map (lw theta) zs) + tan (log_mean_exp (map (weighted theta lj lqs) zs))) d).
  { eapply integral_ext; [|exact HF]. intros y. cbv beta. generalize (DF y). set (zs := as_list _ y). intros DFy.
    assert (Ne : zs <> []) by discriminate.
    pose proof (lme_derive zs lw (fun z => partial lj z - score lqs z) theta zs Ne
       (fun z _ => log_weight_derive lj lqs theta lj_diff (cf_diff _ _ _ _ _ fam) z)) as DL.
    pose proof (is_derive_mult (fun t => sample_density (q t) zs) (fun t => ln_mean_exp (map (lw t) zs)) theta _ _ (sample_density_derive zs) DL ltac:(intros; apply Rmult_comm)) as M.
    rewrite (derive_unique _ _ _ _ DFy M). unfold plus, mult. cbn [AbelianGroup.plus Ring.mult]. unfold weighted. cbn. ring. }
  assert (M2 : forall j, In j (seq 0 (Datatypes.S (Datatypes.S K))) ->
    mean_over_samples dec L (q theta) (Datatypes.S (Datatypes.S K)) (fun zs => score lqs (nth j zs z0) * without j (map (lw theta) (remove_nth j zs))) 0).
  { intros j Hj%in_seq. destruct (without_mean K j v Mw Cw) as (b & Hb). replace 0 with (0 * b) by ring.
    apply (means_indep dec L L_once L_all (q theta) (Datatypes.S K) (score lqs) (fun zs => without j (map (lw theta) zs)) 0 b j z0); [lia|exact score_mean|exact Hb]. }
  pose proof (means_sum_family dec L L_all (q theta) Dn (Datatypes.S (Datatypes.S K)) (seq 0 (Datatypes.S (Datatypes.S K)))
    (fun j zs => score lqs (nth j zs z0) * without j (map (lw theta) (remove_nth j zs))) (fun _ => 0) M2) as M3.
  pose proof (means_plus dec L (q theta) _ _ _ _ _ (means_scal dec L (q theta) _ _ (-1) _ M1) M3) as M4.
  rewrite total_zero in M4 by reflexivity. replace (-1 * d + 0) with (- d) in M4 by ring.
  eapply means_ext; [|exact M4]. intros zs Lz. cbv beta. destruct (HC zs Lz) as [c [E T]]. rewrite E, T.
  rewrite (total_nth z0 (score lqs) zs), Lz.
  set (ks := seq 0 _). set (l := ln_mean_exp _). set (T1 := tan _). clearbody ks T1. clear. induction ks as [|k ks IH]; cbn [SpecDist.total]; [ring|].
  match goal with |- context [- score lqs (nth k zs z0) * (l - ?w)] => set (wk := w) end. cbv beta in *. lra.
Qed.

(** ** The importance weighted estimator of the inclusive divergence *)
(** Where the joint density is a multiple of the variational density, the weights are
    uniform and the mean gradient of the cost is minus the mean score: zero. *)
Theorem C37_continuous_at_posterior K (c : R) : (1 <= K)%nat -> (forall z, lw theta z = c) ->
  exists cost,
    (forall zs, length zs = K -> klpq_importance true (tensor_of theta lj zs) (entropy_of theta lqs zs) = Some [cost zs]) /\
    mean_over_samples dec L (q theta) K (fun zs => tan (cost zs)) 0.
Proof.
  intros HK Hc. assert (HN : INR K <> 0) by (apply not_0_INR; lia). pose proof (cf_density _ _ _ _ _ fam theta) as Dn.
  pose (cost := fun zs : list point => match klpq_importance true (tensor_of theta lj zs) (entropy_of theta lqs zs) with Some [o] => o | _ => dconst 0 end).
  assert (G : forall zs, length zs = K -> klpq_importance true (tensor_of theta lj zs) (entropy_of theta lqs zs) = Some [cost zs] /\
            tan (cost zs) = - / INR K * SpecDist.total (score lqs) zs).
  { intros zs Lz. assert (Nz : zs <> []) by (intros ->; cbn in Lz; lia).
    destruct (C37_gradient theta lj lqs zs (cf_latent _ _ _ _ _ fam) Nz) as (o & E & T & _).
    unfold cost. rewrite E. split; [reflexivity|]. rewrite T.
    rewrite (ProofDiscrete.total_ext (fun z => exp (lw theta z) * score lqs z) (fun z => score lqs z * exp c)), (ProofDiscrete.total_ext (fun z => exp (lw theta z)) (fun _ => exp c)).
    - rewrite total_scal_r, total_const, Lz. pose proof (exp_pos c). field. split; [exact HN|lra].
    - intros z _. now rewrite Hc.
    - intros z _. rewrite Hc. ring. }
  exists cost. split; [intros zs Lz; apply G, Lz|].
  replace 0 with (- / INR K * (INR K * 0)) by ring.
  eapply means_ext; [|apply means_scal; apply means_sum; [exact L_all|exact Dn|exact score_mean]].
  intros zs Lz. cbv beta. symmetry. apply G, Lz.
Qed.
End Family.
End Draws.
Print Assumptions C33_sgvb_continuous.
Print Assumptions C35_sgvb_continuous.
Print Assumptions C34_continuous.
Print Assumptions C34_continuous_unreduced.
Print Assumptions C36_continuous.
Print Assumptions C37_continuous_at_posterior.

(** A family of densities on the plane that is not the posterior: every hypothesis above
    holds for it, at every parameter. *)
Lemma bounded_smooth {J : Type} (dec : forall i j : J, {i = j} + {i <> j}) (L : list J) (phi : (J -> R) -> R) m (h h' : R -> (J -> R) -> R) M theta :
  has_integral dec L phi m -> cont (joined h) -> cont (joined h') -> (forall t x, is_derive (fun s => h s x) t (h' t x)) ->
  (forall t x, Rabs (h t x) <= M) -> (forall t x, Rabs (h' t x) <= M) ->
  smooth_integrand dec L (fun t x => phi x * h t x) theta.
Proof.
  intros Hp C C' D B B'. destruct Hp as (Cp & Pp & Tp).
  assert (IM : integral dec L (fun x => M * phi x) (M * m)) by (apply integral_scal, integral_of_total; split; [exact Cp|split; [exact Pp|exact Tp]]).
  assert (Bd : forall k, (forall x, Rabs (k x) <= M) -> forall x, Rabs (phi x * k x) <= M * phi x).
  { intros k Hk x. rewrite Rabs_mult, (Rabs_pos_eq (phi x)) by apply Pp. rewrite Rmult_comm. apply Rmult_le_compat_r; [apply Pp|apply Hk]. }
  split.
  - apply (integral_dominated dec L (fun x => phi x * h theta x) (fun x => M * phi x) (M * m)); [|apply Bd, B|exact IM].
    apply cont_mult; [exact Cp|now apply joined_at].
  - exists (fun t x => phi x * h' t x), (fun x => M * phi x), (M * m), 1. split; [lra|]. split; [|split; [|split; [|split]]].
    + apply (cont_mult (joined (fun _ : R => phi)) (joined h)); [exact (cont_part Some phi Cp)|exact C].
    + apply (cont_mult (joined (fun _ : R => phi)) (joined h')); [exact (cont_part Some phi Cp)|exact C'].
    + intros t x. apply (is_derive_scal (fun s => h s x)). apply D.
    + intros t x _. apply Bd, B'.
    + apply integral_total; [|exact IM]. intros x. apply Rmult_le_pos; [|apply Pp]. apply Rle_trans with (Rabs (h 0 x)); [apply Rabs_pos|apply B].
Qed.
Lemma RInt_odd (g : R -> R) B : (forall t, g (- t) = - g t) -> (forall t, continuous g t) -> RInt g (- B) B = 0.
Proof.
  intros O C.
  assert (E : ex_RInt g (- B) B) by (apply (ex_RInt_continuous (V := R_CompleteNormedModule)); intros; apply C).
  pose proof (RInt_comp_lin g (-1) 0 (- B) B) as H. replace (-1 * - B + 0) with B in H by ring. replace (-1 * B + 0) with (- B) in H by ring.
  specialize (H (ex_RInt_swap _ _ _ E)). rewrite (RInt_ext _ g) in H.
  - rewrite <- (opp_RInt_swap g (- B) B E) in H. change (@eq R (RInt g (- B) B) (- RInt g (- B) B)) in H. lra.
  - intros t _. unfold scal; cbn; unfold mult; cbn. replace (-1 * t + 0) with (- t) by ring. rewrite O. ring.
Qed.

Section Case.
Let L := [true; false].
Let phi := noise_density L.
Let u (t : R) (z : bool -> R) := 1 + sin t * sin (z true) / 2.
Let u' (t : R) (z : bool -> R) := cos t * sin (z true) / 2.
Let q t z := phi z * u t z.
Variable theta : R.
Let lq := Quantity (Z := bool -> R) (fun t z => ln (q t z)) (fun z => u' theta z / u theta z).
Let lj := Quantity (Z := bool -> R) (fun t z => ln (phi z)) (fun _ => 0).

Lemma u_range t z : / 2 <= u t z <= 3 / 2 /\ Rabs (u' t z) <= / 2 /\ Rabs (ln (u t z)) <= 1 /\ Rabs (u' t z / u t z) <= 1.
Proof.
  unfold u, u'. pose proof (SIN_bound t). pose proof (SIN_bound (z true)). pose proof (COS_bound t).
  set (a := sin t) in *. set (b := sin (z true)) in *. set (c := cos t) in *. clearbody a b c.
  assert (A : -1 <= a * b <= 1) by (split; nra). assert (B : -1 <= c * b <= 1) by (split; nra).
  assert (R1 : / 2 <= 1 + a * b / 2 <= 3 / 2) by lra. assert (R2 : Rabs (c * b / 2) <= / 2) by (apply Rabs_le; lra).
  split; [exact R1|]. split; [exact R2|]. set (v := 1 + a * b / 2) in *. assert (Pv : 0 < v) by lra. split.
  - pose proof (ln_le_minus v Pv). pose proof (ln_le_minus (/ v) (Rinv_0_lt_compat v Pv)) as K. rewrite ln_Rinv in K by exact Pv.
    assert (/ v <= 2) by (replace 2 with (/ / 2) by field; apply Rinv_le_contravar; lra). apply Rabs_le. lra.
  - unfold Rdiv at 1. rewrite Rabs_mult, (Rabs_pos_eq (/ v)) by (apply Rlt_le, Rinv_0_lt_compat, Pv).
    assert (0 < / v <= 2) by (split; [now apply Rinv_0_lt_compat|replace 2 with (/ / 2) by field; apply Rinv_le_contravar; lra]).
    pose proof (Rabs_pos (c * b / 2)). nra.
Qed.
Lemma u_pos t z : 0 < u t z. Proof. pose proof (u_range t z). lra. Qed.
Lemma u_derive (t : R) z : is_derive (fun s => u s z) t (u' t z).
Proof. unfold u, u'. auto_derive; [exact I|change (@eq R (1 * cos t * sin (z true) * / 2) (cos t * sin (z true) / 2)); field]. Qed.
Lemma cont_sin {J} (F : (J -> R) -> R) : cont F -> cont (fun x => sin (F x)).
Proof. apply (cont_fun sin). intros t. apply continuous_sin. Qed.
Lemma cont_cos {J} (F : (J -> R) -> R) : cont F -> cont (fun x => cos (F x)).
Proof. apply (cont_fun cos). intros t. apply continuous_cos. Qed.
Lemma u_cont : cont (joined u).
Proof.
  unfold joined, u, Rdiv. apply cont_plus; [exact (cont_const 1)|]. apply cont_mult; [|exact (cont_const _)].
  apply cont_mult; apply cont_sin; [apply (cont_coord None)|apply (cont_coord (Some true))].
Qed.
Lemma u'_cont : cont (joined u').
Proof.
  unfold joined, u', Rdiv. apply cont_mult; [|exact (cont_const _)].
  apply cont_mult; [apply cont_cos; apply (cont_coord None)|apply cont_sin; apply (cont_coord (Some true))].
Qed.
Lemma phi_total : has_integral Bool.bool_dec L phi 1.
Proof. apply (proj2 witness_q). Qed.
Lemma sine_mean : integral Bool.bool_dec L (fun z => phi z * sin (z true)) 0.
Proof.
  destruct phi_total as (Cp & Pp & Tp).
  assert (Cf : cont (fun z : bool -> R => phi z * sin (z true))) by (apply cont_mult; [exact Cp|apply cont_sin, cont_coord]).
  destruct (integral_dominated Bool.bool_dec L (fun z => phi z * sin (z true)) (fun z => 1 * phi z) (1 * 1)) as (v & Hv); [exact Cf| |apply integral_scal, integral_of_total, phi_total|].
  - intros z. rewrite Rabs_mult, (Rabs_pos_eq (phi z)) by apply Pp. rewrite Rmult_comm. apply Rmult_le_compat_r; [apply Pp|]. apply Rabs_le. pose proof (SIN_bound (z true)). lra.
  - replace 0 with v; [exact Hv|]. pose proof Hv as (_ & _ & Cv)%integral_iff. apply cond_eq. intros e He.
    destruct (Cv e He) as (B & HB & X). specialize (X B (Rle_refl _)). rewrite Rabs_minus_sym.
    replace 0 with (cube_integral Bool.bool_dec B L (fun z => phi z * sin (z true)) (fun _ => 0)); [exact X|].
    unfold L. cbn [cube_integral]. apply RInt_odd.
    + intros t. rewrite <- (RInt_opp (V := R_CompleteNormedModule)).
      * apply RInt_ext. intros s _. unfold phi, noise_density, L, upd. cbn. rewrite sin_neg.
        replace (SpecDensity.standard_normal (- t)) with (SpecDensity.standard_normal t); [ring|]. unfold SpecDensity.standard_normal. do 3 f_equal. ring.
      * exact (line_int Bool.bool_dec (fun z => phi z * sin (z true)) (upd Bool.bool_dec (fun _ => 0) true t) false (- B) B Cf).
    + intros t. apply (cont_line Bool.bool_dec (fun x => RInt (fun s => (fun z => phi z * sin (z true)) (upd Bool.bool_dec x false s)) (- B) B) (fun _ => 0) true).
      now apply (cont_RInt Bool.bool_dec (fun z => phi z * sin (z true)) false B HB).
Qed.
Lemma q_density t : probability_density Bool.bool_dec L (q t).
Proof.
  destruct phi_total as (Cp & Pp & Tp).
  split; [intros z; apply Rmult_lt_0_compat; [apply noise_pos|apply u_pos]|].
  apply integral_total; [intros z; apply Rmult_le_pos; [apply Pp|apply Rlt_le, u_pos]|].
  replace 1 with (1 + sin t / 2 * 0) by ring.
  apply (integral_ext Bool.bool_dec L (fun z => phi z + sin t / 2 * (phi z * sin (z true)))); [intros z; unfold q, u; lra|].
  apply integral_plus; [apply integral_of_total, phi_total|]. apply integral_scal, sine_mean.
Qed.
Lemma lw_case t z : log_weight lj [lq] t z = - ln (u t z).
Proof.
  assert (E : ln (q t z) = ln (phi z) + ln (u t z)) by (apply ln_mult; [apply noise_pos|apply u_pos]).
  change (log_weight lj [lq] t z) with (ln (phi z) - (ln (q t z) + 0)). rewrite E. ring.
Qed.
Lemma ln_u_derive t z : is_derive (fun s => ln (u s z)) t (u' t z / u t z).
Proof.
  pose proof (is_derive_comp ln (fun s => u s z) t _ _ (is_derive_ln _ (u_pos t z)) (u_derive t z)) as C. exact C.
Qed.
Lemma u_inv_cont : cont (joined (fun t z => / u t z)).
Proof. apply (cont_inv (joined u)); [apply u_cont|]. intros x. apply Rgt_not_eq, u_pos. Qed.
Lemma ln_u_cont : cont (joined (fun t z => ln (u t z))).
Proof. apply (cont_ln (joined u)); [apply u_cont|]. intros x. apply u_pos. Qed.

Lemma case_family : continuous_family Bool.bool_dec L q [lq] theta.
Proof.
  constructor.
  - exact q_density.
  - discriminate.
  - intros t z. cbn. ring.
  - intros l [<-|[]] z. cbn [at_param partial lq].
    apply (is_derive_ext (fun t => ln (phi z) + ln (u t z))).
    + intros t. unfold q. rewrite ln_mult; [reflexivity|apply noise_pos|apply u_pos].
    + rewrite <- (Rplus_0_l (u' theta z / u theta z)).
      apply (is_derive_plus (K := R_AbsRing) (V := R_NormedModule) (fun _ => ln (phi z)) (fun t => ln (u t z))); [|apply ln_u_derive].
      exact (is_derive_const (K := R_AbsRing) (V := R_NormedModule) (ln (phi z)) theta).
  - apply (bounded_smooth Bool.bool_dec L phi 1 u u' 2); [exact phi_total|exact u_cont|exact u'_cont|intros; apply u_derive| |];
      intros t x; pose proof (u_range t x) as (A & B & _); [rewrite Rabs_pos_eq; lra|lra].
Qed.
Lemma case_diff : differentiable_everywhere theta lj.
Proof.
  intros z. change (is_derive (fun _ : R => ln (phi z)) theta 0).
  exact (is_derive_const (K := R_AbsRing) (V := R_NormedModule) (ln (phi z)) theta).
Qed.
Lemma case_elbo : smooth_integrand Bool.bool_dec L (fun t z => q t z * log_weight lj [lq] t z) theta.
Proof.
  replace (fun t z => q t z * log_weight lj [lq] t z) with (fun t z => phi z * (u t z * - ln (u t z)))
    by (extensionality t; extensionality z; rewrite lw_case; unfold q; ring).
  apply (bounded_smooth Bool.bool_dec L phi 1 (fun t z => u t z * - ln (u t z)) (fun t z => - (u' t z * ln (u t z) + u' t z)) 2); [exact phi_total| | | | |].
  - apply (cont_mult (joined u) (fun y => - joined (fun t z => ln (u t z)) y)); [apply u_cont|apply cont_opp, ln_u_cont].
  - apply (cont_opp (fun y => joined u' y * joined (fun t z => ln (u t z)) y + joined u' y)).
    apply cont_plus; [apply cont_mult; [apply u'_cont|apply ln_u_cont]|apply u'_cont].
  - intros t z. pose proof (is_derive_mult (fun s => u s z) (fun s => - ln (u s z)) t _ _ (u_derive t z)
      (is_derive_opp (K := R_AbsRing) (V := R_NormedModule) (fun s => ln (u s z)) t _ (ln_u_derive t z)) ltac:(intros; apply Rmult_comm)) as M.
    match type of M with is_derive _ _ ?m => replace (- (u' t z * ln (u t z) + u' t z)) with m; [exact M|] end.
    unfold plus, mult, opp; cbn. field. apply Rgt_not_eq, u_pos.
  - intros t z. pose proof (u_range t z) as (A & B & C & _). rewrite Rabs_mult, Rabs_Ropp, (Rabs_pos_eq (u t z)) by lra.
    pose proof (Rabs_pos (ln (u t z))). nra.
  - intros t z. pose proof (u_range t z) as (A & B & C & _). rewrite Rabs_Ropp. eapply Rle_trans; [apply Rabs_triang|]. rewrite Rabs_mult.
    pose proof (Rabs_pos (ln (u t z))). pose proof (Rabs_pos (u' t z)). nra.
Qed.
Lemma case_sgvb : smooth_integrand Bool.bool_dec L (fun t z => phi z * log_weight lj [lq] t z) theta.
Proof.
  replace (fun t z => phi z * log_weight lj [lq] t z) with (fun t z => phi z * - ln (u t z))
    by (extensionality t; extensionality z; rewrite lw_case; ring).
  apply (bounded_smooth Bool.bool_dec L phi 1 (fun t z => - ln (u t z)) (fun t z => - (u' t z * / u t z)) 1); [exact phi_total| | | | |].
  - apply cont_opp, ln_u_cont.
  - apply (cont_opp (fun y => joined u' y * joined (fun t z => / u t z) y)). apply cont_mult; [apply u'_cont|apply u_inv_cont].
  - intros t z. apply (is_derive_opp (K := R_AbsRing) (V := R_NormedModule) (fun s => ln (u s z)) t _ (ln_u_derive t z)).
  - intros t z. rewrite Rabs_Ropp. apply (u_range t z).
  - intros t z. rewrite Rabs_Ropp. apply (u_range t z).
Qed.
(** Two draws. *)
Lemma case_two : smooth_integrand (vectors_dec Bool.bool_dec 2) (all_of L 2)
  (fun t y => sample_density (q t) (as_list 2 y) * ln_mean_exp (map (log_weight lj [lq] t) (as_list 2 y))) theta.
Proof.
  pose (a := fun (t : R) (y : vectors (I := bool) 2 -> R) => u t (fun i => y (inl i))).
  pose (b := fun (t : R) (y : vectors (I := bool) 2 -> R) => u t (fun i => y (inr (inl i)))).
  pose (a' := fun (t : R) (y : vectors (I := bool) 2 -> R) => u' t (fun i => y (inl i))).
  pose (b' := fun (t : R) (y : vectors (I := bool) 2 -> R) => u' t (fun i => y (inr (inl i)))).
  pose (l := fun t y => ln (a t y + b t y) - ln 2 - ln (a t y) - ln (b t y)).
  pose (l' := fun t y => (a' t y + b' t y) / (a t y + b t y) - a' t y / a t y - b' t y / b t y).
  assert (Ra : forall t y, / 2 <= a t y <= 3 / 2 /\ Rabs (a' t y) <= / 2 /\ Rabs (ln (a t y)) <= 1 /\ Rabs (a' t y / a t y) <= 1) by (intros; apply u_range).
  assert (Rb : forall t y, / 2 <= b t y <= 3 / 2 /\ Rabs (b' t y) <= / 2 /\ Rabs (ln (b t y)) <= 1 /\ Rabs (b' t y / b t y) <= 1) by (intros; apply u_range).
  assert (Pa : forall t y, 0 < a t y) by (intros; apply u_pos). assert (Pb : forall t y, 0 < b t y) by (intros; apply u_pos).
  assert (Pab : forall t y, 0 < a t y + b t y) by (intros t y; specialize (Pa t y); specialize (Pb t y); lra).
  assert (Ca : cont (joined a)) by exact (cont_part (option_map (fun i => inl i : vectors 2)) (joined u) u_cont).
  assert (Cb : cont (joined b)) by exact (cont_part (option_map (fun i => inr (inl i) : vectors 2)) (joined u) u_cont).
  assert (Ca' : cont (joined a')) by exact (cont_part (option_map (fun i => inl i : vectors 2)) (joined u') u'_cont).
  assert (Cb' : cont (joined b')) by exact (cont_part (option_map (fun i => inr (inl i) : vectors 2)) (joined u') u'_cont).
  assert (Cs : cont (fun y => joined a y + joined b y)) by now apply cont_plus.
  assert (Cl : cont (joined l)).
  { apply (cont_minus (fun y => ln (joined a y + joined b y) - ln 2 - ln (joined a y)) (fun y => ln (joined b y))); [|apply cont_ln; [exact Cb|intros; apply Pb]].
    apply cont_minus; [|apply cont_ln; [exact Ca|intros; apply Pa]]. apply cont_minus; [|exact (cont_const _)]. apply cont_ln; [exact Cs|intros; apply Pab]. }
  assert (Cl' : cont (joined l')).
  { apply (cont_minus (fun y => (joined a' y + joined b' y) * / (joined a y + joined b y) - joined a' y * / joined a y) (fun y => joined b' y * / joined b y)).
    - apply cont_minus; apply cont_mult; [now apply cont_plus| |exact Ca'|]; apply cont_inv; auto; intros y; apply Rgt_not_eq; [apply Pab|apply Pa].
    - apply cont_mult; [exact Cb'|]. apply cont_inv; [exact Cb|]. intros y. apply Rgt_not_eq, Pb. }
  assert (Da : forall t y, is_derive (fun s => a s y) t (a' t y)) by (intros; apply u_derive).
  assert (Db : forall t y, is_derive (fun s => b s y) t (b' t y)) by (intros; apply u_derive).
  assert (Dl : forall t y, is_derive (fun s => l s y) t (l' t y)).
  { intros t y. unfold l, l'.
    pose proof (is_derive_plus (K := R_AbsRing) (V := R_NormedModule) (fun s => a s y) (fun s => b s y) t _ _ (Da t y) (Db t y)) as Ds.
    pose proof (is_derive_comp ln (fun s => a s y + b s y) t _ _ (is_derive_ln _ (Pab t y)) Ds) as D1.
    pose proof (is_derive_comp ln (fun s => b s y) t _ _ (is_derive_ln _ (Pb t y)) (Db t y)) as D2.
    pose proof (is_derive_comp ln (fun s => a s y) t _ _ (is_derive_ln _ (Pa t y)) (Da t y)) as D3.
    pose proof (is_derive_minus (K := R_AbsRing) (V := R_NormedModule) _ (fun _ => ln 2) t _ _ D1 (is_derive_const (K := R_AbsRing) (V := R_NormedModule) (ln 2) t)) as D4.
    pose proof (is_derive_minus (K := R_AbsRing) (V := R_NormedModule) _ _ t _ _ (is_derive_minus (K := R_AbsRing) (V := R_NormedModule) _ _ t _ _ D4 D3) D2) as D5.
    match type of D5 with is_derive _ _ ?m => match goal with |- is_derive _ _ ?d => replace d with m; [exact D5|] end end.
    unfold minus, plus, opp, scal, mult, zero; cbn. unfold mult; cbn. pose proof (Pa t y). pose proof (Pb t y). field. lra. }
  assert (Bl : forall t y, Rabs (l t y) <= 3).
  { intros t y. unfold l. destruct (Ra t y) as (A1 & _ & A3 & _). destruct (Rb t y) as (B1 & _ & B3 & _).
    assert (H : Rabs (ln (a t y + b t y) - ln 2) <= 1).
    { set (s := (a t y + b t y) / 2). assert (S1 : / 2 <= s <= 3 / 2) by (unfold s; lra). assert (Ps : 0 < s) by lra.
      replace (ln (a t y + b t y) - ln 2) with (ln s).
      - pose proof (ln_le_minus s Ps). pose proof (ln_le_minus (/ s) (Rinv_0_lt_compat s Ps)) as K. rewrite ln_Rinv in K by exact Ps.
        assert (/ s <= 2) by (replace 2 with (/ / 2) by field; apply Rinv_le_contravar; lra). apply Rabs_le. lra.
      - unfold s, Rdiv. rewrite ln_mult, ln_Rinv; [ring|lra|lra|lra]. }
    apply Rabs_le_between in A3, B3, H. apply Rabs_le. lra. }
  assert (Bl' : forall t y, Rabs (l' t y) <= 3).
  { intros t y. unfold l'. destruct (Ra t y) as (A1 & A2 & _ & A4). destruct (Rb t y) as (B1 & B2 & _ & B4).
    assert (H : Rabs ((a' t y + b' t y) / (a t y + b t y)) <= 1).
    { unfold Rdiv. rewrite Rabs_mult, (Rabs_pos_eq (/ _)) by (apply Rlt_le, Rinv_0_lt_compat, Pab).
      apply (Rmult_le_reg_r (a t y + b t y)); [apply Pab|]. rewrite Rmult_assoc, Rinv_l, Rmult_1_r by (apply Rgt_not_eq, Pab).
      eapply Rle_trans; [apply Rabs_triang|]. lra. }
    apply Rabs_le_between in A4, B4, H. apply Rabs_le. lra. }
  replace (fun t y => sample_density (q t) (as_list 2 y) * ln_mean_exp (map (log_weight lj [lq] t) (as_list 2 y)))
    with (fun t y => sample_density phi (as_list (I := bool) 2 y) * (a t y * b t y * l t y)).
  - apply (bounded_smooth (vectors_dec Bool.bool_dec 2) (all_of L 2) (fun y => sample_density phi (as_list 2 y)) 1
      (fun t y => a t y * b t y * l t y) (fun t y => (a' t y * b t y + a t y * b' t y) * l t y + a t y * b t y * l' t y) 12).
    + apply (rho_total Bool.bool_dec L ltac:(intros []; cbn; auto) phi); exact witness_q.
    + apply (cont_mult (fun y => joined a y * joined b y) (joined l)); [now apply cont_mult|exact Cl].
    + apply (cont_plus (fun y => (joined a' y * joined b y + joined a y * joined b' y) * joined l y) (fun y => joined a y * joined b y * joined l' y)).
      * apply cont_mult; [|exact Cl]. apply cont_plus; now apply cont_mult.
      * apply cont_mult; [now apply cont_mult|exact Cl'].
    + intros t y. pose proof (is_derive_mult (fun s => a s y) (fun s => b s y) t _ _ (Da t y) (Db t y) ltac:(intros; apply Rmult_comm)) as M.
      pose proof (is_derive_mult (fun s => a s y * b s y) (fun s => l s y) t _ _ M (Dl t y) ltac:(intros; apply Rmult_comm)) as M'. exact M'.
    + intros t y. rewrite !Rabs_mult. specialize (Bl t y). pose proof (Rabs_pos (l t y)). destruct (Ra t y) as (A1 & _). destruct (Rb t y) as (B1 & _).
      rewrite (Rabs_pos_eq (a t y)), (Rabs_pos_eq (b t y)) by lra. assert (0 <= a t y * b t y <= 9 / 4) by (split; nra). nra.
    + intros t y. destruct (Ra t y) as (A1 & A2 & _). destruct (Rb t y) as (B1 & B2 & _). specialize (Bl t y). specialize (Bl' t y).
      assert (H0 : 0 <= a t y * b t y <= 9 / 4) by (split; nra).
      assert (H1 : Rabs (a' t y * b t y + a t y * b' t y) <= 3 / 2).
      { eapply Rle_trans; [apply Rabs_triang|]. rewrite !Rabs_mult, (Rabs_pos_eq (a t y)), (Rabs_pos_eq (b t y)) by lra.
        pose proof (Rabs_pos (a' t y)). pose proof (Rabs_pos (b' t y)). nra. }
      eapply Rle_trans; [apply Rabs_triang|]. rewrite !(Rabs_mult _ (l t y)), (Rabs_mult _ (l' t y)), (Rabs_pos_eq (a t y * b t y)) by lra.
      pose proof (Rabs_pos (l t y)). pose proof (Rabs_pos (l' t y)). pose proof (Rabs_pos (a' t y * b t y + a t y * b' t y)).
      assert (Rabs (a' t y * b t y + a t y * b' t y) * Rabs (l t y) <= 3 / 2 * 3) by (apply Rmult_le_compat; lra).
      assert (a t y * b t y * Rabs (l' t y) <= 9 / 4 * 3) by (apply Rmult_le_compat; lra). lra.
  - extensionality t. extensionality y. cbn [as_list map]. rewrite !lw_case. unfold sample_density. cbn [map fold_right].
    change (u t (fun i => y (inl i))) with (a t y). change (u t (fun i => y (inr (inl i)))) with (b t y).
    unfold q. change (u t (fun i => y (inl i))) with (a t y). change (u t (fun i => y (inr (inl i)))) with (b t y).
    replace (ln_mean_exp [- ln (a t y); - ln (b t y)]) with (l t y); [ring|].
    unfold ln_mean_exp, mean, l. cbn. pose proof (Pa t y). pose proof (Pb t y). rewrite !exp_Ropp, !exp_ln by auto.
    replace ((/ a t y + (/ b t y + 0)) / (1 + 1)) with ((a t y + b t y) * / 2 * / a t y * / b t y) by (field; lra).
    assert (0 < a t y + b t y) by lra.
    rewrite !ln_mult, !ln_Rinv; try lra; repeat apply Rmult_lt_0_compat; try apply Rinv_0_lt_compat; lra.
Qed.

Example gradient_case :
  continuous_family Bool.bool_dec L q [lq] theta /\ differentiable_everywhere theta lj /\
  smooth_integrand Bool.bool_dec L (fun t z => q t z * log_weight lj [lq] t z) theta /\
  smooth_integrand Bool.bool_dec L (fun t e => phi e * log_weight lj [lq] t e) theta /\
  exists cost r V D, (forall zs, length zs = 2%nat -> exists c,
      vimco 0 (Tensor [2%nat] (fun i => nth (nth 0 i 0%nat) (tensor_of theta lj zs) (dconst 0)))
        (Some (Tensor [2%nat] (fun i => nth (nth 0 i 0%nat) (map (fun z => Dual (- log_q [lq] theta z) (- score [lq] z)) zs) (dconst 0))))
      = Some c /\ t_at c [] = cost zs) /\
    0 < r /\ (forall t, Rabs (t - theta) < r ->
      mean_over_samples Bool.bool_dec L (q t) 2 (fun zs => ln_mean_exp (map (log_weight lj [lq] t) zs)) (V t)) /\
    mean_over_samples Bool.bool_dec L (q theta) 2 (fun zs => tan (cost zs)) D /\ is_derive V theta (- D).
Proof.
  split; [exact case_family|]. split; [exact case_diff|]. split; [exact case_elbo|]. split; [exact case_sgvb|].
  destruct case_elbo as ((v & Hv) & _).
  apply (C36_continuous Bool.bool_dec L ltac:(repeat constructor; cbn; intuition discriminate) ltac:(intros []; cbn; auto) q lj [lq] theta case_family case_diff 2 0 [2%nat] []
    (fun zs => Tensor [2%nat] (fun i => nth (nth 0 i 0%nat) (tensor_of theta lj zs) (dconst 0)))
    (fun zs => Tensor [2%nat] (fun i => nth (nth 0 i 0%nat) (map (fun z => Dual (- log_q [lq] theta z) (- score [lq] z)) zs) (dconst 0))) v);
    [lia|cbn; lia|reflexivity|split; [reflexivity|cbn; intros; lia]| | |exact Hv|exact case_two].
  - intros [|x [|x' [|x'' zs]]] H; cbn in H; try lia. split; [reflexivity|]. split; [reflexivity|]. split; [reflexivity|]. now rewrite entropy_eq.
  - apply (cont_ext (fun z => - ln (u theta z))); [intros z; symmetry; apply lw_case|]. apply cont_opp. exact (joined_at (fun t z => ln (u t z)) theta ln_u_cont).
Qed.
(** At the posterior (up to the constant 7) the importance weights are all equal. *)
Example posterior_case :
  exists cost,
    (forall zs, length zs = 3%nat ->
      klpq_importance true (tensor_of theta (Quantity (fun t z => 7 + ln (q t z)) (partial lq)) zs) (entropy_of theta [lq] zs) = Some [cost zs]) /\
    mean_over_samples Bool.bool_dec L (q theta) 3 (fun zs => tan (cost zs)) 0.
Proof.
  apply (C37_continuous_at_posterior Bool.bool_dec L ltac:(intros []; cbn; auto) q _ [lq] theta case_family 3 7); [lia|].
  intros z. unfold log_weight, log_q. cbn. ring.
Qed.
End Case.
