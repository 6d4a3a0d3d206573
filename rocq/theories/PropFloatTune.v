(** C60: the step size of HMC in floating-point arithmetic. *)
From Coq Require Import List Arith Bool Reals ZArith Lra Lia Permutation.
From Flocq Require Import Core Relative.
From Verif Require Import ModelExt ModelSpecial ModelNum ModelFloat ModelFloatSample ModelFloatTune SpecFloat SpecDist SpecChol SpecAdapt
  ProofDiscrete ProofChol ProofAdapt ProofFloat ProofFloatSample ProofFloatDensity ProofFloatTune PropFloat.
Import ListNotations.
Local Open Scope R_scope.

(** ** The tuner *)
Section Tuner.
Variables prec top : Z.
Hypothesis A : ample prec top.
Let W : wide prec top := proj1 A.
Notation u := (unit_roundoff prec).
Notation fmt := (generic_format radix2 (fexpo prec top)).
Notation float := (is_float prec top).
Notation b e := (bpow radix2 e).
Local Instance prec_pos_q : Prec_gt_0 prec := prec_pos prec top W.
Local Instance fexpo_valid_q : Valid_exp (fexpo prec top) := fexpo_valid prec top W.
Variables (libexp : R -> R) (libpow : R -> R -> R).
Hypothesis FE : faithful_exp prec top libexp.
Hypothesis FP : faithful_pow prec top libpow.
Variables mu gamma t0 kappa delta : R.
Hypothesis Fmu : float mu. Hypothesis Bmu : Rabs mu <= b (top - 5).
Hypothesis Fgamma : float gamma. Hypothesis Bgamma : b (prec + 5 - top) <= gamma.
Hypothesis Ft0 : float t0. Hypothesis Bt0 : 0 <= t0 <= b (top - 2).
Hypothesis Fkappa : float kappa. Hypothesis Bkappa : 0 <= kappa.
Hypothesis Fdelta : float delta. Hypothesis Bdelta : 0 <= delta <= 1.

(** The calls of a history, with acceptance rates that are floats of [0, 1]. *)
Definition calls (h : list event) : list (bool * bool * ext) := map (fun e => (ev_adapt e, ev_fresh e, Fi (ev_rate e))) h.
Definition proper (h : list event) : Prop := Forall (fun e => float (ev_rate e) /\ 0 <= ev_rate e <= 1) h.
Notation tune s adapt fresh a := (ftune prec top libexp libpow (Fi mu) (Fi gamma) (Fi t0) (Fi kappa) (Fi delta) s adapt fresh a).
Notation tuned h := (ftuned prec top libexp libpow (Fi mu) (Fi gamma) (Fi t0) (Fi kappa) (Fi delta) (calls h)).
(** Rounding errors accumulated by [n] calls. *)
Definition drift (n : nat) : R := 4 * u * INR n * (INR n + 1) * (1 + 8 * u) ^ n.

(** Error of the logarithm of the step size after [n] calls. *)
Definition log_error (n : nat) : R :=
  u * (Rabs mu + 1 + (8 * INR n + 14) * (sqrt (INR n) / gamma) * (INR n / (INR n + t0)) * (1 + 8 * u) ^ n).

Let deficit (l : list R) : R := rsum (length l) (fun i => delta - nth i l 0).
Let tracks (s : ftuner) (l : list R) : Prop := exists x hb,
  s = FTuner (Fi (IZR (Z.min (Z.of_nat (length l)) (2 ^ prec)))) (Fi x) (Fi hb) /\ float x /\ Rabs x <= b (top - 2) /\ float hb /\ Rabs hb <= 2 /\
  (l = [] -> hb = 0) /\
  (t0 <= b (prec - 3) -> (Z.of_nat (length l) <= 2 ^ (prec - 3))%Z -> Rabs (hb * (INR (length l) + t0) - deficit l) <= drift (length l)).
Lemma deficit_snoc l a : deficit (l ++ [a]) = deficit l + (delta - a).
Proof.
  unfold deficit. rewrite app_length. cbn [length]. rewrite Nat.add_1_r, rsum_S, app_nth2, Nat.sub_diag by lia. cbn [nth]. f_equal.
  apply rsum_ext. intros i Hi. now rewrite app_nth1.
Qed.
Lemma deficit_bound l : Forall (fun a => 0 <= a <= 1) l -> Rabs (deficit l) <= INR (length l).
Proof.
  induction l as [|a l IH] using rev_ind; intros F; [unfold deficit; cbn; rewrite Rabs_R0; lra|]. apply Forall_app in F. destruct F as (F & Fa). inversion Fa as [|? ? Ha _]; subst.
  rewrite deficit_snoc, app_length. cbn [length]. rewrite Nat.add_1_r, S_INR. eapply Rle_trans; [apply Rabs_triang|]. specialize (IH F). assert (Rabs (delta - a) <= 1) by (apply Rabs_le; lra). lra.
Qed.
Lemma drift_pos n : 0 <= drift n.
Proof. unfold drift. pose proof (u_pos prec). pose proof (pos_INR n). apply Rmult_le_pos; [|apply pow_le; lra]. apply Rmult_le_pos; [|lra]. nra. Qed.
Lemma drift_S n : drift n + 8 * u * (INR n + drift n + 1) <= drift (S n).
Proof.
  unfold drift. rewrite S_INR. cbn [pow]. pose proof (u_pos prec) as U. pose proof (pos_INR n) as N. assert (P : 1 <= (1 + 8 * u) ^ n) by (apply pow_R1_Rle; lra). set (p := (1 + 8 * u) ^ n) in *.
  assert (Q : 1 * 1 <= (1 + 8 * u) * p) by (apply Rmult_le_compat; lra).
  replace (4 * u * INR n * (INR n + 1) * p + 8 * u * (INR n + 4 * u * INR n * (INR n + 1) * p + 1)) with (4 * u * (INR n + 1) * (INR n * ((1 + 8 * u) * p) + 2 * 1)) by ring.
  replace (4 * u * (INR n + 1) * (INR n + 1 + 1) * ((1 + 8 * u) * p)) with (4 * u * (INR n + 1) * (INR n * ((1 + 8 * u) * p) + 2 * ((1 + 8 * u) * p))) by ring.
  apply Rmult_le_compat_l; [nra|lra].
Qed.
Lemma count_next n fresh : next_count prec (Z.min (Z.of_nat n) (2 ^ prec)) fresh = Z.min (Z.of_nat (if fresh then 1 else S n)) (2 ^ prec).
Proof. pose proof (pow_pos prec top A). unfold next_count. destruct fresh; lia. Qed.
Lemma small_count : (2 ^ (prec - 3) * 8 = 2 ^ prec)%Z.
Proof. pose proof A as (_ & p3 & _). change 8%Z with (2 ^ 3)%Z. rewrite <- Z.pow_add_r by lia. f_equal. lia. Qed.
Lemma tracks_step s l a (fresh : bool) : tracks s l -> Forall (fun a => 0 <= a <= 1) l -> float a -> 0 <= a <= 1 ->
  tracks (fst (tune s true fresh (Fi a))) ((if fresh then [] else l) ++ [a]).
Proof.
  intros (x & hb & -> & Fx & Bx & Fh & Bh & Zh & Acc) Hl Fa Ha. pose proof (pow_pos prec top A) as PP.
  set (n := Z.min (Z.of_nat (length l)) (2 ^ prec)). assert (N : (0 <= n <= 2 ^ prec)%Z) by lia.
  destruct (tune_step prec top A libexp libpow FP mu gamma t0 kappa delta Bmu Bgamma Ft0 Bt0 Fkappa Bkappa Bdelta n hb x a fresh N Fh Bh Fx Bx Fa Ha) as (x' & E & Fh' & Bh' & Fx' & Bx' & _ & _).
  unfold tracks. exists x', (next_h prec top t0 delta n hb a fresh). rewrite E. cbn [fst].
  assert (L : length ((if fresh then [] else l) ++ [a]) = if fresh then 1%nat else S (length l)) by (rewrite app_length; cbn [length]; destruct fresh; cbn; lia).
  split; [f_equal; f_equal; f_equal; rewrite L; unfold n; apply count_next|]. split; [exact Fx'|split; [exact Bx'|split; [exact Fh'|split; [exact Bh'|split]]]].
  { intros Z. apply app_eq_nil in Z. destruct Z; discriminate. }
  rewrite L. intros T3 Len. rewrite deficit_snoc. pose proof small_count as SC.
  assert (L3 : fresh = true \/ (Z.of_nat (length l) + 1 <= 2 ^ (prec - 3))%Z) by (destruct fresh; [now left|right; lia]).
  assert (P8 : (1 <= 2 ^ (prec - 3))%Z) by (pose proof A as (_ & p3 & _); pose proof (Z.pow_pos_nonneg 2 (prec - 3)); lia).
  destruct fresh.
  - pose proof (h_step prec top A t0 delta Ft0 Bt0 Fdelta Bdelta 0 0 a true ltac:(lia) T3 (float_0 prec top) (fun _ => eq_refl) Fa Ha) as Hs.
    assert (C : next_count prec 0 true = 1%Z) by reflexivity. cbv zeta in Hs. rewrite C in Hs. assert (EH : next_h prec top t0 delta 0 0 a true = next_h prec top t0 delta n hb a true) by reflexivity. rewrite EH in Hs.
    unfold deficit. cbn [length rsum]. rewrite Rplus_0_l in Hs. rewrite Rabs_R0, Rplus_0_l in Hs. change (INR 1) with 1.
    assert (D0 : forall y, rsum 0 y = 0) by reflexivity. rewrite ?D0. rewrite Rplus_0_l. eapply Rle_trans; [exact Hs|]. pose proof (drift_S 0) as D. unfold drift in D at 1 2. change (INR 0) with 0 in D. lra.
  - destruct L3 as [|L3]; [discriminate|]. assert (NL : n = Z.of_nat (length l)) by lia. rewrite NL in *. 
    pose proof (h_step prec top A t0 delta Ft0 Bt0 Fdelta Bdelta (Z.of_nat (length l)) hb a false ltac:(lia) T3 Fh) as Hs.
    specialize (Hs ltac:(intros Z; apply Zh; destruct l; [reflexivity|discriminate]) Fa Ha). cbv zeta in Hs. specialize (Acc T3 ltac:(lia)).
    assert (C : next_count prec (Z.of_nat (length l)) false = Z.of_nat (S (length l))) by (unfold next_count; lia). rewrite C in Hs. rewrite <- !INR_IZR_INZ in Hs. set (w := hb * (INR (length l) + t0)) in *.
    pose proof (deficit_bound l Hl) as DB. pose proof (drift_S (length l)) as D. pose proof (u_pos prec) as U.
    assert (Bw : Rabs w <= INR (length l) + drift (length l)).
    { replace w with ((w - deficit l) + deficit l) by ring. eapply Rle_trans; [apply Rabs_triang|]. lra. }
    set (h' := next_h prec top t0 delta (Z.of_nat (length l)) hb a false) in *. replace (h' * (INR (S (length l)) + t0) - (deficit l + (delta - a))) with
      ((h' * (INR (S (length l)) + t0) - (w + (delta - a))) + (w - deficit l)) by ring. eapply Rle_trans; [apply Rabs_triang|].
    assert (8 * u * (Rabs w + 1) <= 8 * u * (INR (length l) + drift (length l) + 1)) by (apply Rmult_le_compat_l; lra). lra.
Qed.
Lemma tracks_0 : tracks ftuner0 [].
Proof.
  unfold tracks. exists 0, 0. pose proof (pow_pos prec top A). cbn [length]. replace (Z.min (Z.of_nat 0) (2 ^ prec)) with 0%Z by lia. pose proof (float_0 prec top) as F.
  split; [reflexivity|]. rewrite Rabs_R0. split; [exact F|split; [apply bpow_ge_0|split; [exact F|split; [lra|split; [reflexivity|]]]]]. intros _ _. unfold deficit. cbn. rewrite Rmult_0_l, Rminus_eq_0, Rabs_R0. apply drift_pos.
Qed.
Lemma tuned_snoc_event h e : tuned (h ++ [e]) = fst (tune (tuned h) (ev_adapt e) (ev_fresh e) (Fi (ev_rate e))).
Proof. unfold ftuned, calls. rewrite map_app, fold_left_app. reflexivity. Qed.
Lemma tracks_history h seg : proper h -> last_segment h seg -> tracks (tuned h) (tuned_rates seg) /\ Forall (fun a => 0 <= a <= 1) (tuned_rates seg).
Proof.
  revert seg. induction h as [|e h IH] using rev_ind; intros seg P S.
  - destruct S as (pre & E & S). symmetry in E. apply app_eq_nil in E. destruct E as (-> & ->). split; [exact tracks_0|constructor].
  - apply Forall_app in P. destruct P as (P & Pe). inversion Pe as [|? ? (Fe & Re) _]; subst. rewrite tuned_snoc_event.
    destruct S as (pre & E & S). assert (L : exists seg', seg = seg' ++ [e] /\ h = pre ++ seg').
    { destruct seg as [|x s _] using rev_ind.
      - destruct S as [[-> _]|[? [? [? _]]]]; [|discriminate]. rewrite app_nil_r in E. destruct h; discriminate.
      - rewrite app_assoc in E. apply app_inj_tail in E. destruct E as [-> ->]. eauto. }
    destruct L as (seg' & -> & ->). rewrite tuned_snoc.
    destruct (ev_adapt e) eqn:Ad.
    2:{ cbn [ftune fst]. rewrite app_nil_r. apply IH; [exact P|]. exists pre. split; [reflexivity|]. destruct S as [[-> F]|[e' [post [X [R F]]]]]; [left|right].
        - split; [reflexivity|]. apply Forall_app in F. apply F.
        - destruct seg' as [|y seg']; [injection X as -> _; destruct R as [R _]; congruence|]. injection X as -> <-. exists e', seg'. split; [reflexivity|]. split; [assumption|]. apply Forall_app in F. apply F. }
    destruct (ev_fresh e) eqn:Fr.
    + assert (seg' = []) as ->.
      { destruct S as [[_ F]|[e' [post [X [_ F]]]]].
        - apply Forall_app in F. destruct F as [_ F]. inversion F as [|? ? N _]. exfalso. apply N. split; assumption.
        - destruct seg' as [|y seg']; [reflexivity|]. injection X as -> <-. apply Forall_app in F. destruct F as [_ F].
          inversion F as [|? ? N _]. exfalso. apply N. split; assumption. }
      destruct (last_segment_exists (pre ++ [])) as (sg & Hs). destruct (IH sg P Hs) as (T & FT).
      split; [exact (tracks_step _ _ (ev_rate e) true T FT Fe Re)|]. cbn. constructor; [exact Re|constructor].
    + assert (S' : last_segment (pre ++ seg') seg').
      { exists pre. split; [reflexivity|]. destruct S as [[-> F]|[e' [post [X [R F]]]]]; [left|right].
        - split; [reflexivity|]. apply Forall_app in F. apply F.
        - destruct seg' as [|y seg'].
          + injection X as -> _. destruct R as [_ R]. congruence.
          + injection X as -> <-. exists e', seg'. split; [reflexivity|]. split; [assumption|]. apply Forall_app in F. apply F. }
      destruct (IH seg' P S') as (T & FT). split; [exact (tracks_step _ _ (ev_rate e) false T FT Fe Re)|]. apply Forall_app. split; [exact FT|]. constructor; [exact Re|constructor].
Qed.

(** The variables of the tuner never overflow and never become NaN, for every history; the
    counter is exact up to 2 ^ prec, where it stops. *)
Theorem C60_tuner h seg : proper h -> last_segment h seg ->
  exists x hb, tuned h = FTuner (Fi (IZR (Z.min (Z.of_nat (length (tuned_rates seg))) (2 ^ prec)))) (Fi x) (Fi hb) /\
    float x /\ Rabs x <= b (top - 2) /\ float hb /\ Rabs hb <= 2.
Proof.
  intros P S. destruct (tracks_history h seg P S) as ((x & hb & E & Fx & Bx & Fh & Bh & _) & _). exists x, hb. rewrite E. auto.
Qed.
(** h_bar is the average shortfall of the acceptance rates, up to rounding. *)
Theorem C60_shortfall h seg : proper h -> last_segment h seg -> t0 <= b (prec - 3) ->
  let n := length (tuned_rates seg) in (1 <= n)%nat -> (Z.of_nat n <= 2 ^ (prec - 3))%Z ->
  exists hb, ft_h_bar (tuned h) = Fi hb /\ Rabs (hb - shortfall t0 delta (tuned_rates seg) n) <= drift n / (INR n + t0).
Proof.
  intros P S T3 n N1 N. destruct (tracks_history h seg P S) as ((x & hb & E & _ & _ & _ & _ & _ & Acc) & _). exists hb. rewrite E. split; [reflexivity|]. specialize (Acc T3 N). fold n in Acc.
  assert (Tp : 0 < INR n + t0) by (pose proof (le_INR 1 n N1) as X; cbn in X; lra). change (shortfall t0 delta (tuned_rates seg) n) with (deficit (tuned_rates seg) / (INR n + t0)).
  replace (hb - deficit (tuned_rates seg) / (INR n + t0)) with ((hb * (INR n + t0) - deficit (tuned_rates seg)) / (INR n + t0)) by (field; lra).
  unfold Rdiv. rewrite Rabs_mult, (Rabs_pos_eq (/ _)) by (left; now apply Rinv_0_lt_compat). apply Rmult_le_compat_r; [left; now apply Rinv_0_lt_compat|exact Acc].
Qed.

Lemma exp_out le : float le -> feexp top libexp (Fi le) = PInf \/ exists eps, feexp top libexp (Fi le) = Fi eps /\ float eps /\ 0 <= eps.
Proof.
  intros F. pose proof (FE le F) as E. assert (N : 0 <= libexp le) by (apply (faithful_ge prec top W _ _ _ _ E); [apply generic_format_0|left; apply exp_pos]).
  cbn. unfold overflow. destruct (Rlt_dec (Rabs (libexp le)) (b top)) as [L|L].
  - right. exists (libexp le). split; [reflexivity|]. split; [split; [apply (faithful_fmt prec top W _ _ _ E)|exact L]|exact N].
  - destruct (Rlt_dec 0 (libexp le)) as [|M]; [now left|]. exfalso. apply L. rewrite Rabs_pos_eq by exact N. assert (libexp le = 0) as -> by lra. apply bpow_gt_0.
Qed.
(** The step size is never NaN and never negative (it can be 0 or infinite). *)
Theorem C60_step_size h e : proper (h ++ [e]) ->
  let v := snd (tune (tuned h) (ev_adapt e) (ev_fresh e) (Fi (ev_rate e))) in
  v = PInf \/ exists eps, v = Fi eps /\ float eps /\ 0 <= eps.
Proof.
  intros P. apply Forall_app in P. destruct P as (P & Pe). inversion Pe as [|? ? (Fe & Re) _]; subst. destruct (last_segment_exists h) as (sg & Hs).
  destruct (tracks_history h sg P Hs) as ((x & hb & E & Fx & Bx & Fh & Bh & _) & _). rewrite E. destruct (ev_adapt e); [|apply exp_out; exact Fx]. pose proof (pow_pos prec top A).
  set (n := Z.min (Z.of_nat (length (tuned_rates sg))) (2 ^ prec)).
  destruct (tune_step prec top A libexp libpow FP mu gamma t0 kappa delta Bmu Bgamma Ft0 Bt0 Fkappa Bkappa Bdelta n hb x (ev_rate e) (ev_fresh e) ltac:(lia) Fh Bh Fx Bx Fe Re) as (x' & E' & _ & _ & _ & _ & Fl & _).
  rewrite E'. apply exp_out. exact Fl.
Qed.

Lemma le_accuracy m h' : (1 <= m <= 2 ^ prec)%Z -> gamma <= b (top - 2) -> float h' -> Rabs h' <= 2 -> 
  let G := sqrt (IZR m) / gamma in
  Rabs (nearest prec top (mu - nearest prec top (nearest prec top (nearest prec top (sqrt (IZR m)) / gamma) * h')) - (mu - G * h')) <= u * Rabs mu + 6 * u * (G * Rabs h') + u.
Proof.
  intros M Ug Fh Bh G. pose proof (u_pos prec) as U. pose proof (u_eighth prec top A) as U8. pose proof A as (_ & p3 & _). pose proof (top_big prec top A) as TB.
  assert (M1 : 1 <= sqrt (IZR m)) by (rewrite <- sqrt_1; apply sqrt_le_1_alt; apply IZR_le; lia). assert (G0 : 0 < gamma) by (pose proof (bpow_gt_0 radix2 (prec + 5 - top)); lra).
  destruct (factor_normal prec top A (sqrt (IZR m))) as (f1 & E1 & B1); [rewrite Rabs_pos_eq by lra; apply Rle_trans with 1; [apply (bpow_le radix2 _ 0); lia|exact M1]|].
  assert (Q1 : 1 <= nearest prec top (sqrt (IZR m))) by (apply near_ge_fmt; [exact W|apply (fmt_1 prec top W)|exact M1]).
  destruct (factor_normal prec top A (nearest prec top (sqrt (IZR m)) / gamma)) as (f2 & E2 & B2).
  { rewrite Rabs_pos_eq by (apply Rmult_le_pos; [lra|left; now apply Rinv_0_lt_compat]). replace (2 - top)%Z with (- (top - 2))%Z by lia. rewrite bpow_opp. apply Rle_trans with (1 * / gamma).
    - rewrite Rmult_1_l. now apply Rinv_le.
    - apply Rmult_le_compat_r; [left; now apply Rinv_0_lt_compat|exact Q1]. }
  destruct (factor_mul prec top A (nearest prec top (nearest prec top (sqrt (IZR m)) / gamma) * h')) as (f3 & e3 & E3 & B3 & S3). set (w := nearest prec top (nearest prec top (nearest prec top (sqrt (IZR m)) / gamma) * h')) in *.
  assert (Fw : fmt w) by apply (near_fmt prec top W). destruct (factor_sub prec top A mu w (proj1 Fmu) Fw) as (f4 & E4 & B4).
  rewrite E2, E1 in E3. assert (Ew : w = G * h' * (f1 * f2 * f3) + e3) by (rewrite E3; unfold G; field; lra).
  pose proof (close_mult f1 f2 1 1 u ltac:(lra) ltac:(lra) ltac:(lra) B1 B2) as Q2. pose proof (close_mult (f1 * f2) f3 (1 + 1 + 1 * 1 / 8) 1 u ltac:(lra) ltac:(lra) ltac:(lra) Q2 B3) as Q3. set (F := f1 * f2 * f3) in *.
  assert (Gp : 0 <= G) by (apply Rmult_le_pos; [lra|left; now apply Rinv_0_lt_compat]). set (X := G * h') in *. assert (AX : Rabs X = G * Rabs h') by (unfold X; rewrite Rabs_mult, Rabs_pos_eq; [reflexivity|exact Gp]).
  pose proof (eta_small prec top W) as Eta. pose proof (Rabs_pos X) as PX. assert (Dw : Rabs (X - w) <= 7 / 2 * u * Rabs X + u / 4).
  { replace (X - w) with (- (X * (F - 1)) - e3) by (rewrite Ew; ring). eapply Rle_trans; [apply Rabs_triang|]. rewrite !Rabs_Ropp, Rabs_mult.
    assert (Rabs X * Rabs (F - 1) <= Rabs X * (7 / 2 * u)) by (apply Rmult_le_compat_l; lra). lra. }
  rewrite E4. replace ((mu - w) * f4 - (mu - X)) with ((mu - w) * (f4 - 1) + (X - w)) by ring. eapply Rle_trans; [apply Rabs_triang|]. rewrite Rabs_mult, <- AX.
  assert (Mw : Rabs (mu - w) <= Rabs mu + (1 + 7 / 2 * u) * Rabs X + u / 4).
  { replace (mu - w) with (mu + (- X + (X - w))) by ring. eapply Rle_trans; [apply Rabs_triang|]. pose proof (Rabs_triang (- X) (X - w)) as Tr. rewrite Rabs_Ropp in Tr. lra. }
  assert (Mf : Rabs (mu - w) * Rabs (f4 - 1) <= (Rabs mu + (1 + 7 / 2 * u) * Rabs X + u / 4) * u) by (apply Rmult_le_compat; auto using Rabs_pos; lra).
  assert (UX : u * (u * Rabs X) <= 1 / 8 * (u * Rabs X)) by (apply Rmult_le_compat_r; [apply Rmult_le_pos; lra|exact U8]). assert (UU : u * u <= 1 / 8 * u) by (apply Rmult_le_compat_r; lra). assert (0 <= u * Rabs X) by (apply Rmult_le_pos; lra). lra.
Qed.

(** The step size is the exponential of the exact proposal, up to the stated error in the
    logarithm. *)
Theorem C60_log_step h e seg : proper (h ++ [e]) -> ev_adapt e = true -> last_segment (h ++ [e]) seg -> t0 <= b (prec - 3) -> gamma <= b (top - 2) ->
  let n := length (tuned_rates seg) in (Z.of_nat n <= 2 ^ (prec - 3))%Z ->
  exists le, snd (tune (tuned h) true (ev_fresh e) (Fi (ev_rate e))) = feexp top libexp (Fi le) /\ float le /\
    Rabs (le - log_proposal mu gamma t0 delta (tuned_rates seg) n) <= log_error n.
Proof.
  intros P Ad S T3 Ug n N. set (exact := log_proposal mu gamma t0 delta (tuned_rates seg) n). set (err := log_error n). pose proof (u_pos prec) as U. pose proof (u_eighth prec top A) as U8. pose proof A as (_ & p3 & _). pose proof (top_big prec top A) as TB.
  pose proof (tracks_history _ _ P S) as (Tr & FT). rewrite tuned_snoc_event, Ad in Tr.
  apply Forall_app in P. destruct P as (P & Pe). inversion Pe as [|? ? (Fe & Re) _]; subst. destruct (last_segment_exists h) as (sg & Hs).
  destruct (tracks_history h sg P Hs) as ((x & hb & E & Fx & Bx & Fh & Bh & _) & _). rewrite E in *. pose proof (pow_pos prec top A) as PP. set (k := Z.min (Z.of_nat (length (tuned_rates sg))) (2 ^ prec)) in *.
  destruct (tune_step prec top A libexp libpow FP mu gamma t0 kappa delta Bmu Bgamma Ft0 Bt0 Fkappa Bkappa Bdelta k hb x (ev_rate e) (ev_fresh e) ltac:(lia) Fh Bh Fx Bx Fe Re) as (x' & E' & Fh' & Bh' & _ & _ & Fl & Bl).
  rewrite E' in Tr. cbn [fst] in Tr. destruct Tr as (x2 & h2 & E2 & _ & _ & _ & _ & _ & Acc). injection E2 as Ec _ Eh. rewrite <- Eh in Acc. specialize (Acc T3 N). fold n in Acc, Ec. pose proof small_count as SC.
  pose proof (next_count_spec prec top A k (ev_fresh e) ltac:(lia)) as NC. rewrite Z.min_l in Ec by lia. apply eq_IZR in Ec. set (hn := next_h prec top t0 delta k hb (ev_rate e) (ev_fresh e)) in *. set (le := next_le prec top mu gamma t0 delta k hb (ev_rate e) (ev_fresh e)) in *.
  assert (N1 : 1 <= INR n) by (rewrite INR_IZR_INZ; apply IZR_le; lia). set (T := INR n + t0) in *. assert (T1 : 1 <= T) by (unfold T; lra).
  pose proof (le_accuracy (next_count prec k (ev_fresh e)) hn NC Ug Fh' Bh') as LA. change (nearest prec top (mu - nearest prec top (nearest prec top (nearest prec top (sqrt (IZR (next_count prec k (ev_fresh e)))) / gamma) * hn))) with le in LA.
  rewrite Ec, <- INR_IZR_INZ in LA. set (G := sqrt (INR n) / gamma) in *. assert (G0 : 0 < gamma) by (pose proof (bpow_gt_0 radix2 (prec + 5 - top)); lra).
  assert (Gp : 0 <= G) by (apply Rmult_le_pos; [apply sqrt_pos|left; now apply Rinv_0_lt_compat]). cbv zeta in LA.
  set (p := (1 + 8 * u) ^ n) in *. assert (P1 : 1 <= p) by (apply pow_R1_Rle; lra). pose proof (deficit_bound _ FT) as DB. fold n in DB. set (V := deficit (tuned_rates seg)) in *.
  assert (Ex : exact = mu - G * (V / T)) by reflexivity. set (c := INR n / T) in *. assert (C0 : 0 <= c) by (apply Rmult_le_pos; [lra|left; apply Rinv_0_lt_compat; lra]).
  assert (Sh : Rabs (V / T) <= c) by (unfold Rdiv; rewrite Rabs_mult, Rabs_inv, (Rabs_pos_eq T) by lra; apply Rmult_le_compat_r; [left; apply Rinv_0_lt_compat; lra|exact DB]).
  assert (Dh : Rabs (hn - V / T) <= c * (4 * u * (INR n + 1) * p)).
  { replace (hn - V / T) with ((hn * T - V) / T) by (field; lra). unfold Rdiv. rewrite Rabs_mult, Rabs_inv, (Rabs_pos_eq T) by lra. unfold drift in Acc. fold p in Acc. unfold c, Rdiv.
    replace (INR n * / T * (4 * u * (INR n + 1) * p)) with (4 * u * INR n * (INR n + 1) * p * / T) by ring. apply Rmult_le_compat_r; [left; apply Rinv_0_lt_compat; lra|exact Acc]. }
  set (d := c * (4 * u * (INR n + 1) * p)) in *. assert (Hn : Rabs hn <= c + d) by (replace hn with (V / T + (hn - V / T)) by ring; eapply Rle_trans; [apply Rabs_triang|lra]).
  assert (Err : Rabs (le - exact) <= err).
  { rewrite Ex. replace (le - (mu - G * (V / T))) with ((le - (mu - G * hn)) - G * (hn - V / T)) by ring. eapply Rle_trans; [apply Rabs_triang|]. rewrite Rabs_Ropp, (Rabs_mult G), (Rabs_pos_eq G) by exact Gp.
    assert (Z1 : G * Rabs (hn - V / T) <= G * d) by (apply Rmult_le_compat_l; assumption). assert (Z2 : 6 * u * (G * Rabs hn) <= 6 * u * (G * (c + d))) by (apply Rmult_le_compat_l; [lra|]; now apply Rmult_le_compat_l).
    assert (Gc : 0 <= G * c) by now apply Rmult_le_pos. assert (Z3 : G * d = 4 * u * (G * c * ((INR n + 1) * p))) by (unfold d; ring).
    assert (Z4 : err = u * Rabs mu + u + u * ((8 * INR n + 14) * (G * c * p))) by (unfold err, log_error; fold G T c p; ring). rewrite Z4.
    assert (Z5 : 6 * u * (G * (c + d)) = 6 * u * (G * c) + 6 * u * (G * d)) by ring. assert (Gd : 0 <= G * d) by (rewrite Z3; apply Rmult_le_pos; [lra|]; apply Rmult_le_pos; [exact Gc|]; apply Rmult_le_pos; lra).
    assert (Z6 : 6 * u * (G * d) <= 6 / 8 * (G * d)) by (apply Rmult_le_compat_r; lra). set (g := G * c) in *.
    assert (Z7 : g <= g * p) by (rewrite <- (Rmult_1_r g) at 1; apply Rmult_le_compat_l; lra). assert (Z8 : u * g <= u * (g * p)) by (apply Rmult_le_compat_l; lra).
    assert (Z9 : G * d = 4 * (INR n + 1) * (u * (g * p))) by (rewrite Z3; ring). set (y := u * (g * p)) in *. assert (Y0 : 0 <= y) by (unfold y; apply Rmult_le_pos; [lra|apply Rmult_le_pos; lra]).
    assert (Z10 : u * ((8 * INR n + 14) * (g * p)) = (8 * INR n + 14) * y) by (unfold y; ring). rewrite Z10. rewrite Z9 in *. assert (0 <= INR n * y) by (apply Rmult_le_pos; lra). lra. }
  exists le. rewrite E'. auto.
Qed.
(** As long as the exact proposal stays away from the ends of the range, it is a positive
    float. *)
Theorem C60_accuracy h e seg : proper (h ++ [e]) -> ev_adapt e = true -> last_segment (h ++ [e]) seg -> t0 <= b (prec - 3) -> gamma <= b (top - 2) ->
  let n := length (tuned_rates seg) in (Z.of_nat n <= 2 ^ (prec - 3))%Z ->
  let exact := log_proposal mu gamma t0 delta (tuned_rates seg) n in
  Rabs exact + log_error n <= (IZR top - 2) * ln 2 ->
  exists le eps, snd (tune (tuned h) true (ev_fresh e) (Fi (ev_rate e))) = Fi eps /\ float eps /\ 0 < eps /\
    Rabs (eps - exp le) <= 2 * u * exp le /\ Rabs (le - exact) <= log_error n.
Proof.
  intros P Ad S T3 Ug n N exact Range. destruct (C60_log_step h e seg P Ad S T3 Ug N) as (le & E' & Fl & Err). fold n in Err. fold exact in Err. pose proof A as (_ & p3 & _). pose proof (top_big prec top A) as TB.
  assert (LB : Rabs le <= (IZR top - 2) * ln 2) by (replace le with (exact + (le - exact)) by ring; eapply Rle_trans; [apply Rabs_triang|lra]). apply Rabs_le_inv in LB.
  pose proof (FE le Fl) as FEl. assert (T2 : (IZR top - 2) * ln 2 = ln (b (top - 2))) by (rewrite ln_bpow, minus_IZR; reflexivity).
  assert (X1 : b (2 - top) <= exp le <= b (top - 2)).
  { split; [replace (2 - top)%Z with (- (top - 2))%Z by lia; rewrite bpow_opp, <- (exp_ln (b (top - 2))), <- exp_Ropp by apply bpow_gt_0|rewrite <- (exp_ln (b (top - 2))) by apply bpow_gt_0]; apply exp_le; lra. }
  assert (X2 : b (2 - top) <= libexp le <= b (top - 2)).
  { split; [apply (faithful_ge prec top W _ _ _ _ FEl); [apply (fmt_bpow prec top W); lia|lra]|apply (faithful_le prec top W _ _ _ _ FEl); [apply (fmt_bpow prec top W); lia|lra]]. }
  pose proof (bpow_gt_0 radix2 (2 - top)) as Tn. assert (Bt : b (top - 2) < b top) by (apply bpow_lt; lia).
  exists le, (libexp le). rewrite E'. assert (Fo : float (libexp le)) by (split; [apply (faithful_fmt prec top W _ _ _ FEl)|rewrite Rabs_pos_eq; lra]).
  split; [apply overflow_small, Fo|split; [exact Fo|split; [lra|split; [|exact Err]]]]. eapply Rle_trans; [apply (faithful_err prec top W _ _ _ FEl)|].
  eapply Rle_trans; [apply (ulp_FLT_le radix2 (3 - top - prec) prec (exp le))|].
  - rewrite Rabs_pos_eq by lra. replace (3 - top - prec + prec - 1)%Z with (2 - top)%Z by lia. lra.
  - rewrite Rabs_pos_eq by lra. replace (1 - prec)%Z with (- prec + 1)%Z by lia. rewrite b_1. change (bpow radix2 (- prec)) with u. lra.
Qed.
End Tuner.

(** ** The search of the initial step size *)
Section Trial.
Variables (prec top : Z) (libexp : R -> R) (chains n : nat).
Variables (grad : fstate -> fstate) (log_posterior : fstate -> nat -> ext) (mass : nat -> ext) (ps : nat -> plan) (pm : plan).
Hypothesis some_entry : (1 <= n)%nat.
Hypothesis some_chain : (1 <= chains)%nat.
Hypothesis masses : forall i, mass i = PInf \/ exists x, mass i = Fi x /\ 0 <= x.
Hypothesis plans : forall c, (c < chains)%nat -> adds_up (ps c) n.
Hypothesis plan_mean : adds_up pm chains.
Notation trial q p s := (ftrial prec top libexp chains n grad log_posterior mass ps pm q p s).

(** With an infinite step size every momentum becomes infinite or NaN, and the acceptance
    rate is exactly 0, whatever the model. *)
Theorem C60_infinite_step q p : trial q p PInf = Fi 0.
Proof.
  unfold ftrial. assert (H : fdiv prec top PInf (Fi 2) = PInf) by (unfold fdiv; cbn; destruct (Rlt_dec 2 0); [lra|reflexivity]). rewrite H. cbv zeta beta iota delta [fleapfrog_integrator].
  match goal with |- fdivn _ _ (fsum _ _ _ (map ?f _)) _ = _ => assert (Z : map f (seq 0 chains) = map (fun _ => Fi 0) (seq 0 chains)) end.
  { apply map_ext_in. intros c Hc. apply in_seq in Hc. apply lost_acceptance. unfold fhamiltonian. cbn [fst]. apply lost_add_r, lost_half.
    match goal with |- lost (fsum _ _ _ ?l) => assert (L : length l = n) by (now rewrite map_length, seq_length); destruct (lost_sum prec top l) with (p := ps c) as [(E & _)|G] end; [| |exfalso|exact G].
    - intros i Hi. rewrite L in Hi. match goal with |- lost (nth i (map ?g (seq 0 n)) NaN) => rewrite nth_indep with (d' := g O) by (rewrite map_length, seq_length; exact Hi); rewrite (map_nth g), seq_nth by exact Hi end.
      cbv beta. apply lost_div; [|apply masses]. apply lost_square. apply unbounded_add, unbounded_mul.
    - intros i Hi. rewrite L. apply (Permutation_in _ (plans c ltac:(lia))) in Hi. apply in_seq in Hi. lia.
    - specialize (plans c ltac:(lia)). unfold adds_up in plans. rewrite E in plans. apply Permutation_nil in plans. destruct n; [lia|discriminate]. }
  rewrite Z, sum_zeros.
  - unfold fdivn, ediv. destruct (Req_EM_T (INR chains) 0) as [E|E]; [pose proof (lt_0_INR chains ltac:(lia)); lra|]. unfold Rdiv. rewrite Rmult_0_l. cbn. unfold nearest. rewrite round_0 by exact _.
    unfold overflow. rewrite Rabs_R0. destruct (Rlt_dec 0 (bpow radix2 top)) as [|N]; [reflexivity|]. pose proof (bpow_gt_0 radix2 top). contradiction.
  - intros i Hi. apply (Permutation_in _ plan_mean) in Hi. apply in_seq in Hi. lia.
Qed.
End Trial.

(** The trial evaluates one leapfrog step, within rounding, for bounded finite positions,
    momenta and gradients: positions, momenta and gradients at most 2^k, step size at most
    2^l, masses at least 2^-j. *)
Section Accurate.
Variables prec top : Z.
Hypothesis A : ample prec top.
Notation u := (unit_roundoff prec).
Notation float := (is_float prec top).
Notation near := (nearest prec top).
Notation b e := (bpow radix2 e).
Variables (libexp : R -> R) (chains n : nat).
Variables (grad : fstate -> fstate) (log_posterior : fstate -> nat -> ext) (mass : nat -> ext) (ps : nat -> plan) (pm : plan).
Variables k l j : Z.
Hypothesis range : (0 <= k /\ 0 <= l /\ 0 <= j /\ k + 2 * l + j + 3 <= top)%Z.
Definition at_most (e : Z) (a : ext) : Prop := exists x, a = Fi x /\ float x /\ Rabs x <= b e.
Hypothesis gradients : forall q, (forall c i, exists x, q c i = Fi x /\ float x) -> forall c i, at_most k (grad q c i).
Hypothesis masses : forall i, exists m, mass i = Fi m /\ float m /\ b (- j) <= m.
Notation at_ f c i := (real_of (f c i)).
Theorem C60_trial q p s : (forall c i, at_most k (q c i)) -> (forall c i, at_most k (p c i)) -> float s -> 0 <= s <= b l ->
  exists q' p' : fstate,
    ftrial prec top libexp chains n grad log_posterior mass ps pm q p (Fi s) =
      fdivn prec top (fsum prec top pm (map (fun c =>
        facceptance prec top libexp (fst (fhamiltonian prec top n log_posterior mass ps q p c))
          (fst (fhamiltonian prec top n log_posterior mass ps q' p' c)) (log_posterior q' c)) (seq 0 chains))) chains /\
    forall c i, is_finite (q' c i) = true /\ is_finite (p' c i) = true /\
      let half := at_ p c i + s / 2 * at_ (grad q) c i in
      Rabs (at_ q' c i - (at_ q c i + s * (half / real_of (mass i)))) <= 6 * u * b (k + 2 * l + j) /\
      Rabs (at_ p' c i - (half + s / 2 * at_ (grad q') c i)) <= 5 * u * b (k + l).
Proof.
  intros Hq Hp Fs Hs. pose proof (proj1 A) as W. pose proof (top_big prec top A) as TB. assert (U0 : 0 < u) by apply u_pos. pose proof A as (_ & p3 & _).
  assert (Gq := gradients q ltac:(intros c i; destruct (Hq c i) as (x & ? & ? & _); eauto)).
  assert (X0 : forall c i, fadd prec top (q c i) (fmul prec top (Fi 0) (fdiv prec top (p c i) (mass i))) = q c i).
  { intros c i. destruct (Hq c i) as (x & -> & Fx & _). destruct (Hp c i) as (y & -> & Fy & By). destruct (masses i) as (m & -> & Fm & Hm). pose proof (bpow_gt_0 radix2 (- j)) as Bj.
    rewrite (fdiv_fi prec top) by lra. assert (V : Rabs (y / m) <= b (k + j)).
    { unfold Rdiv. rewrite Rabs_mult, bpow_plus. apply Rmult_le_compat; auto using Rabs_pos. rewrite Rabs_pos_eq by (left; apply Rinv_0_lt_compat; lra). rewrite <- (Z.opp_involutive j), bpow_opp. apply Rinv_le; lra. }
    destruct (float_near prec top A (y / m)) as (-> & Fv); [eapply Rle_trans; [exact V|apply bpow_le; lia]|]. rewrite fmul_0_l by exact Fv. unfold fadd. cbn [eadd]. rewrite Rplus_0_r. now apply rounded_float. }
  set (h := near (s / 2)). assert (Eh : fdiv prec top (Fi s) (Fi 2) = Fi h /\ float h /\ 0 <= h <= b l /\ Rabs (h - s / 2) <= u * b l / 2).
  { rewrite (fdiv_fi prec top) by lra. pose proof (bpow_gt_0 radix2 l) as Bl. assert (S2 : Rabs (s / 2) <= b l) by (rewrite Rabs_pos_eq; lra).
    destruct (float_near prec top A (s / 2)) as (-> & Fh); [eapply Rle_trans; [exact S2|apply bpow_le; lia]|]. split; [reflexivity|]. split; [exact Fh|]. split; [|apply (near_binade prec top A); [lia|exact S2]].
    split; [apply (near_nonneg prec top W); lra|]. apply near_le_fmt; [exact W|apply (fmt_bpow prec top W); lia|lra]. }
  destruct Eh as (Eh & Fh & Hh & Ah).
  pose proof (b_1 (k + l)) as B1. pose proof (b_1 (k + l + 1)) as B2. pose proof (b_1 (k + 2 * l + j)) as B3. pose proof (b_1 (k + 2 * l + j + 1)) as B4. pose proof (bpow_gt_0 radix2 (k + l)) as B0. pose proof (bpow_gt_0 radix2 (k + 2 * l + j)) as B0'.
  assert (UB : 0 < u * b (k + l)) by (apply Rmult_lt_0_compat; assumption). assert (UB' : 0 < u * b (k + 2 * l + j)) by (apply Rmult_lt_0_compat; assumption).
  assert (Bkl : b k <= b (k + l)) by (apply bpow_le; lia).
  (* product of the half step with a gradient *)
  assert (HG : forall g, float g -> Rabs g <= b k -> fmul prec top (Fi h) (Fi g) = Fi (near (h * g)) /\ float (near (h * g)) /\ Rabs (near (h * g)) <= b (k + l) /\ Rabs (near (h * g) - s / 2 * g) <= u * b (k + l)).
  { intros g Fg Bg. assert (V : Rabs (h * g) <= b (k + l)).
    { rewrite Rabs_mult, (Rabs_pos_eq h) by lra. rewrite Z.add_comm, bpow_plus. apply Rmult_le_compat; auto using Rabs_pos; lra. }
    destruct (fmul_near prec top A h g (k + l) ltac:(lia) ltac:(lia) V) as (E & F & H). split; [exact E|]. split; [exact F|]. split; [exact H|].
    pose proof (near_binade prec top A (h * g) (k + l) ltac:(lia) V) as E1. replace (near (h * g) - s / 2 * g) with ((near (h * g) - h * g) + (h - s / 2) * g) by ring. eapply Rle_trans; [apply Rabs_triang|]. rewrite Rabs_mult.
    assert (Rabs (h - s / 2) * Rabs g <= u * b l / 2 * b k) by (apply Rmult_le_compat; auto using Rabs_pos). rewrite bpow_plus in *. lra. }
  (* the momentum after the first half step *)
  set (p1 := fun c i => fadd prec top (p c i) (fmul prec top (Fi h) (grad q c i)) : ext).
  assert (P1 : forall c i, exists y, p1 c i = Fi y /\ float y /\ Rabs y <= b (k + l + 1) /\ Rabs (y - (at_ p c i + s / 2 * at_ (grad q) c i)) <= 2 * u * b (k + l)).
  { intros c i. unfold p1. destruct (Hp c i) as (y & -> & Fy & By). destruct (Gq c i) as (g & -> & Fg & Bg). destruct (HG g Fg Bg) as (-> & Fhg & Bhg & Ahg). cbn [real_of].
    assert (V : Rabs (y + near (h * g)) <= b (k + l + 1)) by (rewrite B1; eapply Rle_trans; [apply Rabs_triang|]; lra).
    destruct (fadd_near prec top A y (near (h * g)) (k + l + 1) ltac:(lia) ltac:(lia) V) as (E & F & H). eexists. split; [exact E|]. split; [exact F|]. split; [exact H|].
    pose proof (near_binade prec top A _ (k + l + 1) ltac:(lia) V) as E1. rewrite B1 in E1. replace (near (y + near (h * g)) - (y + s / 2 * g)) with ((near (y + near (h * g)) - (y + near (h * g))) + (near (h * g) - s / 2 * g)) by ring.
    eapply Rle_trans; [apply Rabs_triang|]. lra. }
  set (q' := fun c i => fadd prec top (q c i) (fmul prec top (Fi s) (fdiv prec top (p1 c i) (mass i))) : ext).
  set (p' := fun c i => fadd prec top (p1 c i) (fmul prec top (Fi h) (grad q' c i)) : ext).
  exists q', p'. split.
  { assert (L1 : fleapfrog_integrator prec top grad mass (Fi 0) (Fi h) q p = (q, p1)).
    { unfold fleapfrog_integrator. assert (Xq : (fun c i => fadd prec top (q c i) (fmul prec top (Fi 0) (fdiv prec top (p c i) (mass i)))) = q) by (do 2 (apply FunctionalExtensionality.functional_extensionality; intros); apply X0). now rewrite Xq. }
    unfold ftrial. rewrite Eh. cbv zeta. rewrite L1. change (fleapfrog_integrator prec top grad mass (Fi s) (Fi h) q p1) with (q', p'). cbv iota beta. f_equal. f_equal. apply map_ext. intros c. f_equal.
    unfold fhamiltonian. cbn [snd]. destruct (log_posterior q' c); cbn [eneg]; [rewrite Ropp_involutive|..]; reflexivity. }
  assert (QQ : forall c i, exists z, q' c i = Fi z /\ float z /\ Rabs (z - (at_ q c i + s * ((at_ p c i + s / 2 * at_ (grad q) c i) / real_of (mass i)))) <= 6 * u * b (k + 2 * l + j)).
  { intros c i. destruct (P1 c i) as (y & Ey & Fy & By & Ay). destruct (Hq c i) as (x & Ex & Fx & Bx). destruct (masses i) as (m & Em & Fm & Hm). pose proof (bpow_gt_0 radix2 (- j)) as Bj.
  assert (Im : / m <= b j) by (rewrite <- (Z.opp_involutive j), bpow_opp; apply Rinv_le; lra). assert (I0 : 0 < / m) by (apply Rinv_0_lt_compat; lra).
  assert (V : Rabs (y / m) <= b (k + l + j + 1)).
  { unfold Rdiv. rewrite Rabs_mult, (Rabs_pos_eq (/ m)) by lra. replace (k + l + j + 1)%Z with (k + l + 1 + j)%Z by lia. rewrite (bpow_plus radix2 (k + l + 1) j). apply Rmult_le_compat; auto using Rabs_pos; lra. }
  destruct (float_near prec top A (y / m)) as (Ev & Fv); [eapply Rle_trans; [exact V|apply bpow_le; lia]|]. pose proof (near_binade prec top A _ (k + l + j + 1) ltac:(lia) V) as Av. pose proof (near_bpow prec top W _ (k + l + j + 1) ltac:(lia) V) as Bv. set (v := near (y / m)) in *.
  set (H2 := at_ p c i + s / 2 * at_ (grad q) c i) in *.
  assert (B5 : b (k + l + j + 1) = 2 * b (k + l + j)) by apply b_1. assert (B6 : b (k + l) * b j = b (k + l + j)) by (rewrite <- bpow_plus; f_equal; lia). assert (B7 : b l * b (k + l + j) = b (k + 2 * l + j)) by (rewrite <- bpow_plus; f_equal; lia).
  assert (Av2 : Rabs (v - H2 / m) <= 3 * u * b (k + l + j)).
  { replace (v - H2 / m) with ((v - y / m) + (y - H2) * / m) by (unfold Rdiv; ring). eapply Rle_trans; [apply Rabs_triang|]. rewrite Rabs_mult, (Rabs_pos_eq (/ m)) by lra.
    assert (Rabs (y - H2) * / m <= 2 * u * b (k + l) * b j) by (apply Rmult_le_compat; auto using Rabs_pos; lra). rewrite B5 in Av. rewrite <- B6 in *. lra. }
  assert (Sv : Rabs (s * v) <= b (k + 2 * l + j + 1)).
  { rewrite Rabs_mult, (Rabs_pos_eq s) by lra. rewrite B3, <- B7. rewrite B5 in Bv. replace (2 * (b l * b (k + l + j))) with (b l * (2 * b (k + l + j))) by ring. apply Rmult_le_compat; auto using Rabs_pos; lra. }
  destruct (fmul_near prec top A s v (k + 2 * l + j + 1) ltac:(lia) ltac:(lia) Sv) as (Es & Fsv & Bsv). pose proof (near_binade prec top A _ (k + 2 * l + j + 1) ltac:(lia) Sv) as As.
  assert (Bx' : b k <= b (k + 2 * l + j)) by (apply bpow_le; lia).
  assert (Q : Rabs (x + near (s * v)) <= b (k + 2 * l + j + 1 + 1)) by (rewrite B4, B3; eapply Rle_trans; [apply Rabs_triang|]; rewrite B3 in Bsv; lra).
  destruct (fadd_near prec top A x (near (s * v)) (k + 2 * l + j + 1 + 1) ltac:(lia) ltac:(lia) Q) as (Eq & Fq & _). pose proof (near_binade prec top A _ (k + 2 * l + j + 1 + 1) ltac:(lia) Q) as Aq.
  assert (Eq' : q' c i = Fi (near (x + near (s * v)))) by (unfold q'; rewrite Ex, Ey, Em, (fdiv_fi prec top) by lra; rewrite Ev, Es; exact Eq).
  eexists. split; [exact Eq'|]. split; [exact Fq|]. rewrite Ex, Em. cbn [real_of].
    assert (T : Rabs (s * (v - H2 / m)) <= 3 * u * b (k + 2 * l + j)).
    { rewrite Rabs_mult, (Rabs_pos_eq s), <- B7 by lra. replace (3 * u * (b l * b (k + l + j))) with (b l * (3 * u * b (k + l + j))) by ring. apply Rmult_le_compat; auto using Rabs_pos; lra. }
    rewrite B4, B3 in Aq. rewrite B3 in As. apply Rabs_le_inv in T, Aq, As. apply Rabs_le. split; lra. }
  assert (Gq' := gradients q' ltac:(intros c i; destruct (QQ c i) as (x & ? & ? & _); eauto)).
  intros c i. destruct (P1 c i) as (y & Ey & Fy & By & Ay). destruct (QQ c i) as (z & Eq' & _ & Az).
  destruct (Gq' c i) as (g & Eg & Fg & Bg). destruct (HG g Fg Bg) as (Ehg & Fhg & Bhg & Ahg).
  assert (R : Rabs (y + near (h * g)) <= b (k + l + 1 + 1)) by (rewrite B2; eapply Rle_trans; [apply Rabs_triang|]; rewrite B1 in By |- *; lra).
  destruct (fadd_near prec top A y (near (h * g)) (k + l + 1 + 1) ltac:(lia) ltac:(lia) R) as (Ep & Fp & _). pose proof (near_binade prec top A _ (k + l + 1 + 1) ltac:(lia) R) as Ap.
  assert (Ep' : p' c i = Fi (near (y + near (h * g)))) by (unfold p'; rewrite Ey, Eg, Ehg; exact Ep).
  split; [now rewrite Eq'|]. split; [now rewrite Ep'|]. cbv zeta. split; [rewrite Eq'; exact Az|]. rewrite Ep', Eg. cbn [real_of].
  rewrite B2, B1 in Ap. apply Rabs_le_inv in Ap, Ahg, Ay. apply Rabs_le. split; lra.
Qed.
End Accurate.

(** The hypotheses are met: float32, one entry with Laplace density (gradient of -|q|: 1 on
    one side, -1 on the other), step size 1/2 from position 1 with momentum 1. *)
Example C60_trial_case :
  let one : fstate := fun _ _ => Fi 1 in
  let grad : fstate -> fstate := fun q c i => match q c i with Fi x => if Rlt_dec 0 x then Fi (-1) else Fi 1 | _ => Fi 0 end in
  (forall q, (forall c i, exists x, q c i = Fi x /\ is_float 24 128 x) -> forall c i, at_most 24 128 0 (grad q c i)) /\
  (forall c i, at_most 24 128 0 (one c i)) /\ is_float 24 128 (1/2) /\ 0 <= 1/2 <= bpow radix2 0.
Proof.
  assert (A : ample 24 128) by (unfold ample, wide; repeat split; try lia; cbn; reflexivity || discriminate).
  assert (F2 : forall e, (-2 <= e <= 0)%Z -> is_float 24 128 (bpow radix2 e)).
  { intros e He. split; [apply (fmt_bpow 24 128 (proj1 A)); lia|]. rewrite Rabs_pos_eq by apply bpow_ge_0. apply bpow_lt. lia. }
  assert (F1 : is_float 24 128 1) by exact (F2 0%Z ltac:(lia)).
  assert (M : forall x, is_float 24 128 x -> Rabs x <= 1 -> at_most 24 128 0 (Fi x)) by (intros x H1 H2; exists x; cbn; auto).
  cbv zeta. split; [|split; [|split]].
  - intros q H c i. destruct (H c i) as (x & -> & _). destruct (Rlt_dec 0 x); apply M; try exact F1; try (rewrite Rabs_pos_eq; lra).
    + now apply float_opp in F1.
    + rewrite Rabs_left; lra.
  - intros c i. apply M; [exact F1|rewrite Rabs_pos_eq; lra].
  - replace (1/2) with (bpow radix2 (-1)) by (cbn; lra). apply F2; lia.
  - cbn. lra.
Qed.

Section Search.
Variables prec top : Z.
Hypothesis A : ample prec top.
Let W : wide prec top := proj1 A.
Notation fmt := (generic_format radix2 (fexpo prec top)).
Notation float := (is_float prec top).
Notation b e := (bpow radix2 e).
Local Instance prec_pos_s : Prec_gt_0 prec := prec_pos prec top W.
Local Instance fexpo_valid_s : Valid_exp (fexpo prec top) := fexpo_valid prec top W.
(** The step size after [k] increases. *)
Definition grown (s : ext) (k : nat) : ext := Nat.iter k (fun s => fmul prec top s (Fi (3 / 2))) s.

Let at_least (a : ext) (x : R) : Prop := a = PInf \/ exists y, a = Fi y /\ float y /\ x <= y.
Lemma grow_once a x y : at_least a x -> 0 < x -> fmt y -> y <= x * (3 / 2) -> at_least (fmul prec top a (Fi (3 / 2))) y.
Proof.
  intros [-> |(z & -> & Fz & L)] P Fy H; unfold fmul; cbn [emul].
  - left. destruct (Rlt_dec 0 (3 / 2)); [reflexivity|lra].
  - assert (N : y <= nearest prec top (z * (3 / 2))) by (apply near_ge_fmt; [exact W|exact Fy|lra]). assert (N0 : 0 <= nearest prec top (z * (3 / 2))) by (apply (near_nonneg prec top W); lra).
    cbn [rounded]. unfold overflow. destruct (Rlt_dec (Rabs (nearest prec top (z * (3 / 2)))) (b top)) as [B|B].
    + right. eexists. split; [reflexivity|]. split; [split; [apply (near_fmt prec top W)|exact B]|exact N].
    + left. destruct (Rlt_dec 0 (nearest prec top (z * (3 / 2)))) as [|C]; [reflexivity|]. exfalso. apply B. assert (nearest prec top (z * (3 / 2)) = 0) as -> by lra. rewrite Rabs_R0. apply bpow_gt_0.
Qed.
Lemma grow_twice a e : (4 - top - prec <= e)%Z -> at_least a (b e) -> at_least (fmul prec top (fmul prec top a (Fi (3 / 2))) (Fi (3 / 2))) (b (e + 1)).
Proof.
  intros E H. pose proof (bpow_gt_0 radix2 e) as P. pose proof A as (_ & p3 & _). apply (grow_once _ (b e * (3 / 2))); [|lra|apply (fmt_bpow prec top W); lia|rewrite b_1; lra].
  apply (grow_once _ (b e)); [exact H|exact P| |lra]. replace (b e * (3 / 2)) with (IZR 3 * b (e - 1)) by (unfold Z.sub; rewrite bpow_plus; cbn; lra).
  apply (fmt_grid prec top W); [|lia]. pose proof (Z.pow_le_mono_r 2 2 prec). cbn in *. lia.
Qed.
Lemma grown_infinite s e : (4 - top - prec <= e <= top)%Z -> float s -> b e <= s -> grown (Fi s) (2 * Z.to_nat (top - e)) = PInf.
Proof.
  intros E F L. assert (G : forall m, at_least (grown (Fi s) (2 * m)) (b (e + Z.of_nat m))).
  { induction m as [|m IH]; [cbn; rewrite Z.add_0_r; right; exists s; auto|]. replace (2 * S m)%nat with (S (S (2 * m))) by lia. change (grown (Fi s) (S (S (2 * m)))) with (fmul prec top (fmul prec top (grown (Fi s) (2 * m)) (Fi (3 / 2))) (Fi (3 / 2))).
    replace (e + Z.of_nat (S m))%Z with (e + Z.of_nat m + 1)%Z by lia. apply grow_twice; [lia|exact IH]. }
  destruct (G (Z.to_nat (top - e))) as [->|(y & -> & (_ & B) & L')]; [reflexivity|]. exfalso. replace (e + Z.of_nat (Z.to_nat (top - e)))%Z with top in L' by lia.
  pose proof (bpow_gt_0 radix2 top). rewrite Rabs_pos_eq in B; lra.
Qed.
Lemma search_steps acc target s k last : (forall j, (j < k)%nat -> eltb (acc (grown s j)) target = false) -> eltb (acc (grown s k)) target = true -> eltb last target = false ->
  fsearch prec top acc target (S k) s last true = Some (fmul prec top (grown s k) (one_over_factor prec top)).
Proof.
  revert s last. induction k as [|k IH]; intros s last H Hk L.
  - cbn in Hk |- *. rewrite Hk, L. reflexivity.
  - change (fsearch prec top acc target (S (S k)) s last true) with
      (fsearch prec top acc target (S k) (if eltb (acc s) target then fmul prec top s (one_over_factor prec top) else fmul prec top s (Fi (3 / 2))) (acc s) (negb (xorb (eltb last target) (eltb (acc s) target)))).
    pose proof (H 0%nat ltac:(lia)) as H0. cbn in H0. rewrite H0, L. cbn [xorb negb].
    assert (G : forall j, grown (fmul prec top s (Fi (3 / 2))) j = grown s (S j)) by (induction j as [|j J]; [reflexivity|]; exact (f_equal (fun x => fmul prec top x (Fi (3 / 2))) J)).
    rewrite <- G. apply IH; [|now rewrite G|exact H0]. intros j Hj. rewrite G. apply H. lia.
Qed.

Lemma first_true (f : nat -> bool) m : f m = true -> exists k, (k <= m)%nat /\ (forall j, (j < k)%nat -> f j = false) /\ f k = true.
Proof.
  intros Y. assert (Z : forall m', (exists k, (k < m')%nat /\ (forall j, (j < k)%nat -> f j = false) /\ f k = true) \/ (forall j, (j < m')%nat -> f j = false)).
  { induction m' as [|m' [(k & K1 & K2)|IH]]; [right; lia|left; exists k; split; [lia|exact K2]|]. destruct (f m') eqn:Em; [left; exists m'; split; [lia|auto]|right].
    intros j Hj. destruct (Nat.eq_dec j m') as [->|]; [exact Em|apply IH; lia]. }
  destruct (Z (S m)) as [(k & K1 & K2)|N]; [exists k; split; [lia|exact K2]|]. rewrite N in Y by lia. discriminate.
Qed.

(** The search ends after at most 2 (top - e) + 1 trials, whatever the acceptance rates of
    finite step sizes: it returns the first step size that is not accepted often enough,
    reduced once. *)
Theorem C60_search acc t s e : (4 - top - prec <= e <= top)%Z -> float s -> b e <= s -> t <= 1 -> eltb (acc PInf) (Fi t) = true ->
  exists k, (k <= 2 * Z.to_nat (top - e))%nat /\ (forall j, (j < k)%nat -> eltb (acc (grown (Fi s) j)) (Fi t) = false) /\
    eltb (acc (grown (Fi s) k)) (Fi t) = true /\
    finit_step_size prec top acc (Fi t) (S k) (Fi s) = Some (fmul prec top (grown (Fi s) k) (one_over_factor prec top)).
Proof.
  intros E F L T H. assert (X : exists k, (k <= 2 * Z.to_nat (top - e))%nat /\ (forall j, (j < k)%nat -> eltb (acc (grown (Fi s) j)) (Fi t) = false) /\ eltb (acc (grown (Fi s) k)) (Fi t) = true).
  { apply (first_true (fun j => eltb (acc (grown (Fi s) j)) (Fi t))). now rewrite (grown_infinite s e). }
  destruct X as (k & K1 & K2 & K3). exists k. split; [exact K1|split; [exact K2|split; [exact K3|]]]. unfold finit_step_size. apply search_steps; auto.
  cbn. destruct (Rlt_dec 1 t); [lra|reflexivity].
Qed.
(** The search of HMC ends for every model, with any gradients and log probabilities
    (infinite and NaN ones included). *)
Theorem C60_search_ends libexp chains n grad log_posterior mass ps pm q p t s e :
  (1 <= n)%nat -> (1 <= chains)%nat -> (forall i, mass i = PInf \/ exists x, mass i = Fi x /\ 0 <= x) ->
  (forall c, (c < chains)%nat -> adds_up (ps c) n) -> adds_up pm chains ->
  (4 - top - prec <= e <= top)%Z -> float s -> b e <= s -> 0 < t <= 1 ->
  exists fuel r, (fuel <= 2 * Z.to_nat (top - e) + 1)%nat /\
    finit_step_size prec top (ftrial prec top libexp chains n grad log_posterior mass ps pm q p) (Fi t) fuel (Fi s) = Some r.
Proof.
  intros Hn Hc Hm Hp Hpm E F L (T0 & T1). destruct (C60_search (ftrial prec top libexp chains n grad log_posterior mass ps pm q p) t s e E F L T1) as (k & K & _ & _ & R).
  - rewrite C60_infinite_step by assumption. cbn. destruct (Rlt_dec 0 t); [reflexivity|lra].
  - eexists. eexists. split; [|exact R]. lia.
Qed.

(** Finding: on a flat target the search returns an infinite step size. *)
Let flat_grad : fstate -> fstate := fun _ _ _ => Fi 0.
Let flat_log : fstate -> nat -> ext := fun _ _ => Fi 0.
Theorem C60_search_infinite_refuted libexp t : faithful_exp prec top libexp -> 0 < t <= 1 ->
  exists fuel, finit_step_size prec top (ftrial prec top libexp 1 1 flat_grad flat_log (fun _ => Fi 1) (fun _ => Entry 0) (Entry 0) (fun _ _ => Fi 0) (fun _ _ => Fi 1)) (Fi t) fuel (Fi 1) = Some PInf.
Proof.
  intros FE (T0 & T1). set (acc := ftrial _ _ _ _ _ _ _ _ _ _ _ _). pose proof (float_0 prec top) as F0. pose proof (float_1 prec top A) as F1. pose proof A as (_ & p3 & _). pose proof (top_big prec top A) as TB.
  assert (Fh : float (1 / 2)).
  { replace (1 / 2) with (b (-1)) by (cbn; lra). split; [apply (fmt_bpow prec top W); lia|]. rewrite Rabs_pos_eq by apply bpow_ge_0. apply bpow_lt. lia. }
  assert (Acc : forall y, float y -> acc (Fi y) = Fi 1).
  { intros y Fy. unfold acc, ftrial. cbv zeta beta iota delta [fleapfrog_integrator fhamiltonian flat_grad flat_log]. cbn [fst snd seq map fsum nth].
    assert (H1 : forall a, match a with Fi _ => True | _ => False end -> fadd prec top (Fi 1) (fmul prec top a (Fi 0)) = Fi 1).
    { intros [a| | |] []. unfold fmul. cbn [emul]. rewrite Rmult_0_r, (rounded_float prec top _ F0). unfold fadd. cbn [eadd]. rewrite Rplus_0_r. now apply rounded_float. }
    assert (Hd : match fdiv prec top (Fi y) (Fi 2) with Fi _ => True | _ => False end).
    { rewrite (fdiv_fi prec top) by lra. cbn. rewrite overflow_small; [exact I|]. pose proof (near_err prec top W (y / 2)) as N. pose proof Fy as (Fy1 & By).
      apply Rle_lt_trans with (Rabs y); [|exact By]. assert (Fa : fmt (Rabs y)) by now apply generic_format_abs. assert (Z : Rabs (y / 2) <= Rabs y) by (unfold Rdiv; rewrite Rabs_mult, (Rabs_pos_eq (/ 2)) by lra; pose proof (Rabs_pos y); lra).
      apply Rabs_le_inv in Z. apply Rabs_le. split; [apply near_ge_fmt; [exact W|now apply fmt_opp|lra]|apply near_le_fmt; [exact W|exact Fa|lra]]. }
    rewrite !(H1 _ Hd). assert (D1 : fdiv prec top (Fi 1) (Fi 1) = Fi 1) by (rewrite (fdiv_fi prec top) by lra; replace (1 / 1) with 1 by field; now apply rounded_float).
    rewrite !(fmul_1_l prec top 1 F1), D1. assert (K : fmul prec top (Fi (1 / 2)) (Fi 1) = Fi (1 / 2)) by (unfold fmul; cbn [emul]; rewrite Rmult_1_r; now apply rounded_float). rewrite K. cbn [eneg].
    assert (P : fadd prec top (Fi (- 0)) (Fi (1 / 2)) = Fi (1 / 2)) by (unfold fadd; cbn [eadd]; rewrite Ropp_0, Rplus_0_l; now apply rounded_float). rewrite P.
    destruct (proj2 (C55_acceptance prec top libexp W FE (Fi (1 / 2)) (Fi (1 / 2)) (Fi (- - 0)) ltac:(intros h [-> | ->]; exact Fh)) _ _ _ eq_refl eq_refl eq_refl) as (a & Ea & One & _).
    rewrite Ea, (One (Rle_refl _)). unfold fdivn, ediv. change (INR 1) with 1. destruct (Req_EM_T 1 0); [lra|]. replace (1 / 1) with 1 by field. now apply rounded_float. }
  destruct (C60_search acc t 1 0 ltac:(lia) F1 (Rle_refl 1) T1) as (k & _ & K2 & K3 & R).
  { unfold acc. rewrite C60_infinite_step; [cbn; destruct (Rlt_dec 0 t); [reflexivity|lra]|lia|lia|intros; right; exists 1; split; [reflexivity|lra]|intros; apply Permutation_refl|apply Permutation_refl]. }
  exists (S k). rewrite R. f_equal. assert (G : forall j, grown (Fi 1) j = PInf \/ exists y, grown (Fi 1) j = Fi y /\ float y).
  { assert (Gp : forall j, at_least (grown (Fi 1) j) 1).
    { induction j as [|j IH]; [right; exists 1; split; [reflexivity|split; [exact F1|lra]]|]. apply (grow_once _ 1); [exact IH|lra|apply F1|lra]. }
    intros j. destruct (Gp j) as [|(y & E & F & _)]; [now left|right; exists y; auto]. }
  destruct (G k) as [->|(y & Ey & Fy)].
  - unfold one_over_factor. replace (1 / (3 / 2)) with (2 / 3) by field. pose proof (b_1 (-1)) as B1. destruct (float_near prec top A (2 / 3)) as (-> & _).
    { rewrite Rabs_pos_eq by lra. pose proof (one_le_top prec top W). lra. }
    unfold fmul. cbn [emul rounded]. assert (Pn : 1 / 2 <= nearest prec top (2 / 3)) by (apply near_ge_fmt; [exact W|apply Fh|lra]). destruct (Rlt_dec 0 (nearest prec top (2 / 3))); [reflexivity|lra].
  - rewrite Ey, Acc in K3 by exact Fy. cbn in K3. destruct (Rlt_dec 1 t); [lra|discriminate].
Qed.

(** The mean acceptance rate the tuner receives is a float of [0, 1]. *)
Theorem C60_mean_rate libexp hs pm : faithful_exp prec top libexp -> hs <> [] -> (Z.of_nat (length hs) <= 2 ^ prec)%Z -> adds_up pm (length hs) ->
  (forall old_h new_h lp h, In (old_h, new_h, lp) hs -> h = old_h \/ h = new_h -> match h with Fi x => float x | _ => True end) ->
  fraction prec top (fdivn prec top (fsum prec top pm (map (fun x => facceptance prec top libexp (fst (fst x)) (snd (fst x)) (snd x)) hs)) (length hs)).
Proof.
  intros FE NE LE AU FH. set (rate := fun x : ext * ext * ext => facceptance prec top libexp (fst (fst x)) (snd (fst x)) (snd x)).
  assert (R : forall x, In x hs -> exists a, rate x = Fi a /\ fmt a /\ 0 <= a <= 1).
  { intros ((o & w) & lp) I. destruct (proj1 (C55_acceptance prec top libexp W FE o w lp (fun h => FH o w lp h I))) as (a & Ea & Ra). exists a. unfold rate. cbn [fst snd]. rewrite Ea. split; [reflexivity|split; [|exact Ra]].
    unfold facceptance in Ea. destruct (_ && _) in Ea; [|injection Ea as <-; apply generic_format_0].
    assert (Out : forall z, float z -> overflow top (libexp z) = Fi a -> fmt a).
    { intros z Fz. unfold overflow. destruct (Rlt_dec (Rabs (libexp z)) (b top)); [injection 1 as <-; apply (faithful_fmt prec top W _ _ _ (FE _ Fz))|destruct (Rlt_dec 0 (libexp z)); discriminate]. }
    assert (Fd : forall y, fadd prec top (eneg w) o = Fi y -> float y).
    { intros y. unfold fadd. destruct w as [w| | |], o as [o| | |]; cbn; try discriminate. unfold overflow. destruct (Rlt_dec (Rabs (nearest prec top (- w + o))) (b top)) as [Q|Q]; [|destruct (Rlt_dec 0 _); discriminate].
      injection 1 as <-. split; [apply (near_fmt prec top W)|exact Q]. }
    destruct (fadd prec top (eneg w) o) as [y| | |]; cbn [emin feexp] in Ea; try discriminate; [| |injection Ea as <-; apply generic_format_0].
    - assert (Fz : float (Rmin y 0)) by (unfold Rmin; destruct (Rle_dec y 0); [now apply Fd|exact (float_0 prec top)]). exact (Out _ Fz Ea).
    - exact (Out _ (float_0 prec top) Ea). }
  destruct (sum_spec prec top W (fun i => real_of (nth i (map rate hs) (Fi 0))) (map rate hs)) with (p := pm) as (s & Es & Fs & (S0 & S1) & _).
  - intros i e Hi. assert (L : (i < length (map rate hs))%nat) by (apply nth_error_Some; congruence). rewrite (nth_error_nth _ _ (Fi 0) Hi). apply nth_error_In, in_map_iff in Hi. destruct Hi as (x & <- & I). destruct (R x I) as (a & -> & _). reflexivity.
  - intros i Hi. assert (I : In (nth i (map rate hs) (Fi 0)) (map rate hs)) by now apply nth_In. apply in_map_iff in I. destruct I as (x & Ex & I). rewrite <- Ex. destruct (R x I) as (a & -> & Fa & Ra). auto.
  - intros i Hi. rewrite map_length. apply (Permutation_in _ AU) in Hi. apply in_seq in Hi. lia.
  - rewrite (Permutation_length AU), seq_length. exact LE.
  - rewrite (Permutation_length AU), seq_length in S1. fold rate. rewrite Es. unfold fdivn, ediv. assert (N : 0 < INR (length hs)) by (apply lt_0_INR; destruct hs; [contradiction|cbn; lia]).
    destruct (Req_EM_T (INR (length hs)) 0); [lra|]. pose proof (div_unit s (INR (length hs)) ltac:(lra) N) as D. destruct (rounded_unit prec top W _ D) as (E & F). rewrite E. eexists. split; [reflexivity|split; [exact F|now apply (near_unit prec top W)]].
Qed.
End Search.

(** ** float32 with settings close to the defaults *)
Lemma ln_2_34 : ln 2 <= 3 / 4.
Proof.
  rewrite <- (ln_exp (3 / 4)). apply ln_le'; [lra|]. pose proof (pow_exp (3 / 64) 16 ltac:(lra)) as X. replace (INR 16 * (3 / 64)) with (3 / 4) in X by (rewrite INR_IZR_INZ; cbn; lra).
  eapply Rle_trans; [|exact X]. cbn. lra.
Qed.
Section Float32.
Notation float := (is_float 24 128).
Notation b e := (bpow radix2 e).
Let A : ample 24 128. Proof. unfold ample, wide. repeat split; try lia; cbn; reflexivity || discriminate. Qed.
Let settings : float 10 /\ Rabs 10 <= b (128 - 5) /\ b (24 + 5 - 128) <= 1 / 16 /\ float 100 /\ 0 <= 100 <= b (128 - 2) /\ float (3 / 4) /\ 0 <= 3 / 4 /\ 0 <= 3 / 4 <= 1 /\ 100 <= b (24 - 3) /\ 1 / 16 <= b (128 - 2).
Proof.
  assert (X : 1 <= b (128 - 2 - 8)) by (apply (bpow_le radix2 0); lia). assert (Y : b (128 - 2) = b (128 - 2 - 8) * 256) by (replace (128 - 2)%Z with (128 - 2 - 8 + 8)%Z at 1 by lia; rewrite bpow_plus; reflexivity).
  assert (Z : b (128 - 2 - 8) <= b (128 - 5)) by (apply bpow_le; lia). split; [apply (float_count 24 128 A 10); lia|]. split.
  { rewrite Rabs_pos_eq by lra. apply Rle_trans with (b 4); [cbn; lra|apply bpow_le; lia]. }
  split; [replace (1 / 16) with (b (-4)) by (cbn; lra); apply bpow_le; lia|]. split; [apply (float_count 24 128 A 100); lia|]. split; [lra|]. split.
  { replace (3 / 4) with (IZR 3 * b (-2)) by (cbn; lra). split; [apply (fmt_grid 24 128 (proj1 A)); lia|]. rewrite Rabs_pos_eq by (cbn; lra). apply Rlt_le_trans with (b 0); [cbn; lra|apply bpow_le; lia]. }
  repeat split; try lra; cbn; lra.
Qed.
Let same (a : R) (k : nat) : list event := repeat (Event true a false) k.
Lemma same_segment a k : last_segment (same a k ++ [Event true a false]) (same a k ++ [Event true a false]) /\
  tuned_rates (same a k ++ [Event true a false]) = repeat a (S k).
Proof.
  replace (same a k ++ [Event true a false]) with (repeat (Event true a false) (S k)) by (unfold same; cbn [repeat]; apply repeat_cons). split.
  - exists []. split; [reflexivity|left]. split; [reflexivity|]. apply Forall_forall. intros e He. apply repeat_spec in He. subst. intros (_ & N). discriminate.
  - unfold tuned_rates. generalize (S k) as m. induction m as [|m IH]; [reflexivity|]. cbn in *. now rewrite IH.
Qed.
Lemma shortfall_same t0 delta a k : shortfall t0 delta (repeat a k) k = INR k * (delta - a) / (INR k + t0).
Proof.
  unfold shortfall. f_equal. rewrite (rsum_ext _ _ (fun _ => delta - a)).
  - induction k as [|k IH]; [cbn; ring|]. rewrite rsum_S, IH, S_INR. ring.
  - intros i Hi. f_equal. assert (In (nth i (repeat a k) 0) (repeat a k)) as I by (apply nth_In; now rewrite repeat_length). now apply repeat_spec in I.
Qed.
Lemma error_32 n : (1 <= n <= 1024)%nat -> sqrt (INR n) <= 32 -> log_error 24 10 (1 / 16) 100 n <= 1.
Proof.
  intros N Sq. unfold log_error, unit_roundoff. change (- (24))%Z with (-24)%Z. rewrite Rabs_pos_eq by lra. assert (N1 : 1 <= INR n <= 1024).
  { rewrite INR_IZR_INZ. split; apply IZR_le; lia. }
  assert (P : (1 + 8 * b (-24)) ^ n <= 2).
  { eapply Rle_trans; [apply pow_exp; cbn; lra|]. apply Rle_trans with (exp (1024 * (8 * b (-24)))); [apply exp_le; apply Rmult_le_compat_r; [cbn; lra|lra]|].
    eapply Rle_trans; [apply exp_upper; cbn; lra|]. cbn. lra. }
  assert (P0 : 0 <= (1 + 8 * b (-24)) ^ n) by (apply pow_le; cbn; lra). set (p := (1 + 8 * b (-24)) ^ n) in *. pose proof (sqrt_pos (INR n)) as S0.
  assert (C : 0 <= INR n / (INR n + 100) <= 1) by (apply div_unit; lra). set (c := INR n / (INR n + 100)) in *.
  replace (sqrt (INR n) / (1 / 16)) with (sqrt (INR n) * 16) by field.
  assert (Q1 : (8 * INR n + 14) * (sqrt (INR n) * 16) <= 8206 * 512) by (apply Rmult_le_compat; lra).
  assert (Q2 : (8 * INR n + 14) * (sqrt (INR n) * 16) * c <= 8206 * 512 * 1) by (apply Rmult_le_compat; try lra; apply Rmult_le_pos; lra).
  assert (Q3 : (8 * INR n + 14) * (sqrt (INR n) * 16) * c * p <= 8206 * 512 * 1 * 2) by (apply Rmult_le_compat; try lra; apply Rmult_le_pos; try lra; apply Rmult_le_pos; lra).
  apply Rle_trans with (b (-24) * (11 + 8206 * 512 * 1 * 2)); [apply Rmult_le_compat_l; [apply bpow_ge_0|lra]|]. cbn. lra.
Qed.
Variables (libexp : R -> R) (libpow : R -> R -> R).
Hypothesis FE : faithful_exp 24 128 libexp.
Hypothesis FP : faithful_pow 24 128 libpow.
Notation step a k := (snd (ftune 24 128 libexp libpow (Fi 10) (Fi (1 / 16)) (Fi 100) (Fi (3 / 4)) (Fi (3 / 4))
  (ftuned 24 128 libexp libpow (Fi 10) (Fi (1 / 16)) (Fi 100) (Fi (3 / 4)) (Fi (3 / 4)) (calls (same a k))) true false (Fi a))).
Lemma step_32 a k : float a -> 0 <= a <= 1 -> (S k <= 1024)%nat -> sqrt (INR (S k)) <= 32 ->
  exists le, step a k = feexp 128 libexp (Fi le) /\ float le /\ Rabs (le - (10 - sqrt (INR (S k)) * 16 * (INR (S k) * (3 / 4 - a) / (INR (S k) + 100)))) <= 1.
Proof.
  intros Fa Ra K Sq. destruct settings as (S1 & S2 & S3 & S4 & S5 & S6 & S7 & S8 & S9 & S10). destruct (same_segment a k) as (L & T).
  assert (P : proper 24 128 (same a k ++ [Event true a false])).
  { apply Forall_app. split; [|constructor; [auto|constructor]]. apply Forall_forall. intros e He. apply repeat_spec in He. subst. auto. }
  assert (N : (Z.of_nat (length (tuned_rates (same a k ++ [Event true a false]))) <= 2 ^ (24 - 3))%Z) by (rewrite T, repeat_length; change (2 ^ (24 - 3))%Z with 2097152%Z; lia).
  destruct (C60_log_step 24 128 A libexp libpow FP 10 (1 / 16) 100 (3 / 4) (3 / 4) S1 S2 S3 S4 S5 S6 S7 S6 S8 (same a k) (Event true a false) _ P eq_refl L S9 S10 N) as (le & E & F & B).
  rewrite T, repeat_length in B. exists le. split; [exact E|split; [exact F|]]. unfold log_proposal in B. rewrite shortfall_same in B.
    replace (sqrt (INR (S k)) / (1 / 16)) with (sqrt (INR (S k)) * 16) in B by field. eapply Rle_trans; [exact B|]. apply error_32; [lia|exact Sq].
Qed.
(** Findings: after 256 rejections in a row the step size is at most the smallest positive
    float; after 1024 acceptances in a row it is infinite. *)
Theorem C60_vanishes_refuted : exists eps, step 0 255 = Fi eps /\ 0 <= eps <= b (-149).
Proof.
  assert (S16 : sqrt (INR 256) = 16) by (rewrite INR_IZR_INZ; change (IZR (Z.of_nat 256)) with 256; replace 256 with (16 * 16) by ring; apply sqrt_square; lra).
  destruct (step_32 0 255 (float_0 24 128) ltac:(lra) ltac:(lia)) as (le & E & F & B); [rewrite S16; lra|]. rewrite S16 in B. replace (INR 256) with 256 in B by (rewrite INR_IZR_INZ; reflexivity).
  apply Rabs_le_inv in B. assert (L : le <= -127) by lra. pose proof (FE le F) as G.
  assert (X : exp le <= b (-149)). { rewrite <- (exp_ln (b (-149))) by apply bpow_gt_0. apply exp_le. rewrite ln_bpow. pose proof ln_2_34. lra. }
  exists (libexp le). rewrite E. assert (R : 0 <= libexp le <= b (-149)).
  { split; [apply (faithful_ge 24 128 (proj1 A) _ _ _ _ G); [apply generic_format_0|left; apply exp_pos]|]. apply (faithful_le 24 128 (proj1 A) _ _ _ _ G); [apply (fmt_bpow 24 128 (proj1 A)); lia|exact X]. }
  split; [|exact R]. apply overflow_small. rewrite Rabs_pos_eq by lra. eapply Rle_lt_trans; [apply R|]. apply bpow_lt. lia.
Qed.
Theorem C60_diverges_refuted : step 1 1023 = PInf.
Proof.
  assert (S32 : sqrt (INR 1024) = 32) by (rewrite INR_IZR_INZ; change (IZR (Z.of_nat 1024)) with 1024; replace 1024 with (32 * 32) by ring; apply sqrt_square; lra).
  destruct (step_32 1 1023 (float_1 24 128 A) ltac:(lra) ltac:(lia)) as (le & E & F & B); [rewrite S32; lra|]. rewrite S32 in B. replace (INR 1024) with 1024 in B by (rewrite INR_IZR_INZ; reflexivity).
  apply Rabs_le_inv in B. assert (L : 100 <= le) by lra. pose proof (FE le F) as G.
  assert (X : b 128 <= exp le). { rewrite <- (exp_ln (b 128)) by apply bpow_gt_0. apply exp_le. rewrite ln_bpow. pose proof ln_2_34. lra. }
  assert (R : b 128 <= libexp le) by (apply (faithful_ge 24 128 (proj1 A) _ _ _ _ G); [apply (fmt_bpow 24 128 (proj1 A)); lia|exact X]).
  rewrite E. cbn [feexp]. unfold overflow. pose proof (bpow_gt_0 radix2 128). rewrite Rabs_pos_eq by lra. destruct (Rlt_dec (libexp le) (b 128)); [lra|]. destruct (Rlt_dec 0 (libexp le)); [reflexivity|lra].
Qed.
End Float32.

(** Libraries and settings that meet the hypotheses. *)
Example C60_library prec top : ample prec top ->
  faithful_exp prec top (fun x => nearest prec top (exp x)) /\ faithful_pow prec top (fun x y => nearest prec top (Rpower x y)).
Proof. intros A. split; intros x; intros; apply round_DN_or_UP; apply valid_rnd_N. Qed.
Example C60_case : let h := repeat (Event true 0 false) 63 in let e := Event true 0 false in
  ample 24 128 /\ proper 24 128 (h ++ [e]) /\ last_segment (h ++ [e]) (h ++ [e]) /\ length (tuned_rates (h ++ [e])) = 64%nat /\
  is_float 24 128 10 /\ Rabs 10 <= bpow radix2 (128 - 5) /\ bpow radix2 (24 + 5 - 128) <= 1 / 16 <= bpow radix2 (128 - 2) /\
  is_float 24 128 100 /\ 0 <= 100 <= bpow radix2 (24 - 3) /\ is_float 24 128 (3 / 4) /\
  Rabs (log_proposal 10 (1 / 16) 100 (3 / 4) (tuned_rates (h ++ [e])) 64) + log_error 24 10 (1 / 16) 100 64 <= (IZR 128 - 2) * ln 2.
Proof.
  intros h e. assert (A : ample 24 128) by (unfold ample, wide; repeat split; try lia; cbn; reflexivity || discriminate). destruct (same_segment 0 63) as (L & T). fold h e in L, T.
  split; [exact A|]. split; [apply Forall_app; split; [apply Forall_forall; intros x Hx; apply repeat_spec in Hx; subst|constructor; [|constructor]]; (split; [apply float_0|cbn; lra])|].
  split; [exact L|]. rewrite T. split; [apply repeat_length|]. split; [apply (float_count 24 128 A 10); lia|].
  split; [rewrite Rabs_pos_eq by lra; apply Rle_trans with (bpow radix2 4); [cbn; lra|apply bpow_le; lia]|].
  split; [replace (1 / 16) with (bpow radix2 (-4)) by (cbn; lra); split; apply bpow_le; lia|]. split; [apply (float_count 24 128 A 100); lia|]. split; [cbn; lra|]. split.
  { replace (3 / 4) with (IZR 3 * bpow radix2 (-2)) by (cbn; lra). split; [apply (fmt_grid 24 128 (proj1 A)); lia|]. rewrite Rabs_pos_eq by (cbn; lra). apply Rlt_le_trans with (bpow radix2 0); [cbn; lra|apply bpow_le; lia]. }
  unfold log_proposal. rewrite shortfall_same. assert (E : INR 64 = 64) by (rewrite INR_IZR_INZ; reflexivity). assert (S8 : sqrt (INR 64) = 8) by (rewrite E; replace 64 with (8 * 8) by ring; apply sqrt_square; lra).
  pose proof (error_32 64 ltac:(lia) ltac:(rewrite S8; lra)) as B. rewrite S8, E.
  assert (L2 : 1 / 2 <= ln 2) by (rewrite <- (ln_exp (1 / 2)); apply ln_le'; [apply exp_pos|]; pose proof (exp_upper (1 / 2) ltac:(lra)); lra).
  replace (10 - 8 / (1 / 16) * (64 * (3 / 4 - 0) / (64 + 100))) with (10 - 128 * (48 / 164)) by field. unfold Rabs. destruct (Rcase_abs _); lra.
Qed.

Print Assumptions C60_tuner.
Print Assumptions C60_shortfall.
Print Assumptions C60_step_size.
Print Assumptions C60_log_step.
Print Assumptions C60_accuracy.
Print Assumptions C60_trial.
Print Assumptions C60_infinite_step.
Print Assumptions C60_search.
Print Assumptions C60_search_ends.
Print Assumptions C60_search_infinite_refuted.
Print Assumptions C60_mean_rate.
Print Assumptions C60_vanishes_refuted.
Print Assumptions C60_diverges_refuted.
