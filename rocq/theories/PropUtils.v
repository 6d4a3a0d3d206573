(** C23: log_sum_exp and log_mean_exp. *)
From Coq Require Import List Reals Lra Lia Arith.
From Verif Require Import ModelExt ModelUtils ModelDist SpecDist ProofDiscrete.
Import ListNotations.
Local Open Scope R_scope.

(** exp of an entry that is a real number or minus infinity. *)
Definition weight (x : ext) : R := match x with Fi r => exp r | _ => 0 end.
Definition ordinary (x : ext) : Prop := match x with Fi _ | MInf => True | _ => False end.

Definition is_max (m : R) (l : list R) : Prop := In m l /\ forall x, In x l -> x <= m.

Lemma reduce_max_cases l : Forall ordinary l ->
  (reduce_max l = MInf /\ forall x, In x l -> x = MInf) \/
  exists m, reduce_max l = Fi m /\ In (Fi m) l /\ forall r, In (Fi r) l -> r <= m.
Proof.
  induction 1 as [|x l Hx Hl IH]; [left; split; [reflexivity|contradiction]|].
  cbn [reduce_max fold_right]. fold (reduce_max l). destruct IH as [[-> A]|[m [-> [I M]]]].
  - destruct x as [r| | |]; simpl in Hx; try contradiction; simpl.
    + right. exists r. split; [reflexivity|]. split; [auto|]. intros r' [E|H]; [inversion E; lra|].
      apply A in H. discriminate.
    + left. split; [reflexivity|]. intros x [<-|H]; auto.
  - right. destruct x as [r| | |]; simpl in Hx; try contradiction; simpl.
    + exists (Rmax r m). split; [reflexivity|]. split.
      * destruct (Rmax_case_strong r m (fun z => z = r \/ z = m)) as [-> | ->]; auto.
      * intros r' [E|H]; [inversion E; apply Rmax_l|]. eapply Rle_trans; [now apply M|apply Rmax_r].
    + exists m. split; [reflexivity|]. split; [auto|]. intros r' [E|H]; [discriminate|auto].
Qed.
Lemma reduce_sum_fin l : reduce_sum (map Fi l) = Fi (sumR l).
Proof.
  induction l as [|a l IH]; [reflexivity|]. change (eadd (Fi a) (reduce_sum (map Fi l)) = Fi (a + sumR l)).
  now rewrite IH.
Qed.
Lemma shifted_exp l m : Forall ordinary l -> reduce_max l = Fi m ->
  map eexp (shifted l) = map Fi (map (fun x => weight x / exp m) l).
Proof.
  intros H E. unfold shifted. rewrite E, !map_map. apply map_ext_in. intros x Hx.
  rewrite Forall_forall in H. specialize (H x Hx). destruct x as [r| | |]; simpl in H; try contradiction; simpl.
  - f_equal. fold (r - m). apply exp_minus.
  - f_equal. unfold Rdiv. ring.
Qed.
Lemma sumR_div c l : sumR (map (fun x => weight x / c) l) = total weight l / c.
Proof. induction l; simpl; [unfold Rdiv; ring|]. rewrite IHl. unfold Rdiv. ring. Qed.
Lemma weight_nonneg x : 0 <= weight x.
Proof. destruct x; simpl; try lra. left. apply exp_pos. Qed.
Lemma total_ge m l : In (Fi m) l -> exp m <= total weight l.
Proof.
  induction l as [|x l IH]; simpl; [contradiction|].
  assert (0 <= total weight l) by (apply total_nonneg; intros; apply weight_nonneg).
  intros [->|Hm]; [simpl; lra|]. specialize (IH Hm). pose proof (weight_nonneg x). lra.
Qed.
Lemma total_le m l : (forall r, In (Fi r) l -> r <= m) -> Forall ordinary l ->
  total weight l <= INR (length l) * exp m.
Proof.
  induction l as [|x l IH]; intros M H; [simpl; lra|]. inversion H; subst.
  cbn [length total]. rewrite S_INR.
  assert (total weight l <= INR (length l) * exp m) by (apply IH; auto; intros; apply M; simpl; auto).
  assert (weight x <= exp m).
  { destruct x as [r| | |]; simpl in *; try contradiction; [|left; apply exp_pos].
    destruct (M r (or_introl eq_refl)) as [L|L]; [left; now apply exp_increasing|subst; lra]. }
  lra.
Qed.

(** ** Exactness: whenever the entries are reals or -inf and at least one is a real,
    the result is the logarithm of the sum (mean) of the exponentials. *)
Theorem C23_exact keepdims l : Forall ordinary l -> (exists r, In (Fi r) l) ->
  log_sum_exp keepdims l = Fi (ln (total weight l)) /\
  log_mean_exp keepdims l = Fi (ln (total weight l / INR (length l))).
Proof.
  intros H [r0 Hr0]. destruct (reduce_max_cases l H) as [[_ A]|[m [E [I M]]]]; [apply A in Hr0; discriminate|].
  assert (P : 0 < total weight l) by (pose proof (total_ge m l I); pose proof (exp_pos m); lra).
  assert (N : 0 < INR (length l)) by (apply lt_0_INR; destruct l; simpl in *; [contradiction|lia]).
  assert (Pm : 0 < total weight l / exp m) by (apply Rdiv_lt_0_compat; auto; apply exp_pos).
  assert (E1 : lse_arg l = Fi (total weight l / exp m)).
  { unfold lse_arg. rewrite (shifted_exp l m H E), reduce_sum_fin. f_equal. apply sumR_div. }
  assert (E2 : lme_arg l = Fi (total weight l / exp m / INR (length l))).
  { unfold lme_arg, reduce_mean. rewrite (shifted_exp l m H E), reduce_sum_fin, !map_length. simpl.
    destruct (Req_EM_T (INR (length l)) 0); [lra|]. f_equal. f_equal. apply sumR_div. }
  assert (L1 : ln (total weight l / exp m) + m = ln (total weight l)).
  { unfold Rdiv. rewrite ln_mult, ln_Rinv, ln_exp; auto using exp_pos; [ring|]. apply Rinv_0_lt_compat, exp_pos. }
  assert (L2 : ln (total weight l / exp m / INR (length l)) + m = ln (total weight l / INR (length l))).
  { rewrite <- (ln_exp m) at 2. rewrite <- ln_mult; [|apply Rdiv_lt_0_compat; auto|apply exp_pos].
    f_equal. field. split; [lra|apply Rgt_not_eq, exp_pos]. }
  split.
  - assert (R : eadd (elog (lse_arg l)) (reduce_max l) = Fi (ln (total weight l))).
    { rewrite E1, E. simpl. destruct (Rlt_dec _ _); [|contradiction]. simpl. now rewrite L1. }
    unfold log_sum_exp. rewrite R. destruct keepdims; [reflexivity|]. simpl. now rewrite Rplus_0_r.
  - assert (R : eadd (elog (lme_arg l)) (reduce_max l) = Fi (ln (total weight l / INR (length l)))).
    { rewrite E2, E. simpl. destruct (Rlt_dec _ _) as [_|F]; [simpl; now rewrite L2|].
      exfalso. apply F. apply Rdiv_lt_0_compat; auto. }
    unfold log_mean_exp. rewrite R. destruct keepdims; [reflexivity|]. unfold reduce_mean. simpl.
    destruct (Req_EM_T 1 0); [lra|]. f_equal. field.
Qed.
Print Assumptions C23_exact.

(** ** No overflow: every exponential taken is at most 1, and the logarithm's
    argument is at least 1 (for the sum; 1/n for the mean). *)
Theorem C23_no_overflow l : Forall ordinary l -> (exists r, In (Fi r) l) ->
  (forall e, In e (map eexp (shifted l)) -> exists r, e = Fi r /\ 0 <= r <= 1) /\
  (exists a, lse_arg l = Fi a /\ 1 <= a <= INR (length l)) /\
  (exists a, lme_arg l = Fi a /\ / INR (length l) <= a <= 1).
Proof.
  intros H [r0 Hr0]. destruct (reduce_max_cases l H) as [[_ A]|[m [E [I M]]]]; [apply A in Hr0; discriminate|].
  pose proof (exp_pos m) as Pm. pose proof (total_ge m l I) as G. pose proof (total_le m l M H) as L.
  assert (N : 0 < INR (length l)) by (apply lt_0_INR; destruct l; simpl in *; [contradiction|lia]).
  assert (B : 1 <= total weight l / exp m <= INR (length l)).
  { split; apply Rmult_le_reg_r with (exp m); auto; unfold Rdiv; rewrite Rmult_assoc, Rinv_l; lra. }
  split; [|split].
  - intros e He. rewrite (shifted_exp l m H E), map_map in He. apply in_map_iff in He. destruct He as [x [<- Hx]].
    exists (weight x / exp m). split; [reflexivity|]. pose proof (weight_nonneg x). split.
    + apply Rmult_le_pos; auto. left. now apply Rinv_0_lt_compat.
    + apply Rmult_le_reg_r with (exp m); auto. unfold Rdiv. rewrite Rmult_assoc, Rinv_l, Rmult_1_l, Rmult_1_r by lra.
      destruct x as [r| | |]; simpl; try lra. destruct (M r Hx) as [Q|Q]; [left; now apply exp_increasing|subst; lra].
  - exists (total weight l / exp m). split; auto.
    unfold lse_arg. rewrite (shifted_exp l m H E), reduce_sum_fin. f_equal. apply sumR_div.
  - exists (total weight l / exp m / INR (length l)). split.
    + unfold lme_arg, reduce_mean. rewrite (shifted_exp l m H E), reduce_sum_fin, !map_length. simpl.
      destruct (Req_EM_T (INR (length l)) 0); [lra|]. f_equal. f_equal. apply sumR_div.
    + split; apply Rmult_le_reg_r with (INR (length l)); auto; [rewrite Rinv_l by lra|rewrite Rmult_1_l];
        unfold Rdiv at 1; rewrite (Rmult_assoc (_ / _)), Rinv_l; lra.
Qed.
Print Assumptions C23_no_overflow.

(** ** Non-finite maxima give NaN, where the mathematical value is -inf or +inf. *)
Theorem C23_all_minus_inf_refuted keepdims l : l <> [] -> Forall (fun x => x = MInf) l ->
  log_sum_exp keepdims l = NaN /\ log_mean_exp keepdims l = NaN.
Proof.
  intros N H. assert (E : reduce_max l = MInf).
  { clear N. induction H as [|x l Hx Hl IH]; [reflexivity|]. subst. simpl. fold (reduce_max l). now rewrite IH. }
  assert (S : reduce_sum (map eexp (shifted l)) = NaN).
  { unfold shifted. rewrite E. destruct H as [|x l Hx Hl]; [congruence|]. subst. reflexivity. }
  unfold log_sum_exp, log_mean_exp, lse_arg, lme_arg. unfold reduce_mean. rewrite S.
  destruct keepdims; split; reflexivity.
Qed.
Print Assumptions C23_all_minus_inf_refuted.
Lemma reduce_sum_NaN l : In NaN l -> reduce_sum l = NaN.
Proof.
  induction l as [|x l IH]; simpl; [contradiction|]. intros [->|H]; [reflexivity|].
  fold (reduce_sum l). rewrite IH by assumption. destruct x; reflexivity.
Qed.
Theorem C23_plus_inf_or_nan keepdims l : In PInf l \/ In NaN l ->
  log_sum_exp keepdims l = NaN /\ log_mean_exp keepdims l = NaN.
Proof.
  intros H. assert (S : reduce_sum (map eexp (shifted l)) = NaN).
  { apply reduce_sum_NaN.
    assert (E : (reduce_max l = PInf /\ In PInf l) \/ reduce_max l = NaN).
    { clear - H. induction l as [|x l IH]; [destruct H as [[]|[]]|].
      assert (D : (In PInf l \/ In NaN l) \/ (x = PInf \/ x = NaN)) by (simpl in H; tauto).
      destruct D as [D|[-> | ->]].
      - simpl. fold (reduce_max l). destruct (IH D) as [[-> I]| ->]; destruct x; simpl; auto.
      - simpl. fold (reduce_max l). destruct (reduce_max l); auto.
      - simpl. auto. }
    unfold shifted. rewrite map_map. apply in_map_iff. destruct E as [[-> I]| ->].
    - exists PInf. auto.
    - destruct l as [|x l]; [destruct H as [[]|[]]|]. exists x. split; [destruct x; reflexivity|simpl; auto]. }
  unfold log_sum_exp, log_mean_exp, lse_arg, lme_arg. unfold reduce_mean. rewrite S.
  destruct keepdims; split; reflexivity.
Qed.
Print Assumptions C23_plus_inf_or_nan.

(** ** Mathematical consequences for lists of reals. *)
Lemma all_ordinary l : Forall ordinary (map Fi l).
Proof. apply Forall_forall. intros x Hx. apply in_map_iff in Hx. destruct Hx as [r [<- _]]. exact I. Qed.
Lemma total_Fi l : total weight (map Fi l) = total exp l.
Proof. now rewrite total_map. Qed.
Lemma some_Fi l : l <> [] -> exists r, In (Fi r) (map Fi l).
Proof. intros N. destruct l as [|r l]; [congruence|]. exists r. simpl. auto. Qed.
(** Between max and max + log n (sum), max - log n and max (mean). *)
Theorem C23_bounds keepdims l m : is_max m l ->
  (exists v, log_sum_exp keepdims (map Fi l) = Fi v /\ m <= v <= m + ln (INR (length l))) /\
  (exists v, log_mean_exp keepdims (map Fi l) = Fi v /\ m - ln (INR (length l)) <= v <= m).
Proof.
  intros [I M]. assert (N : l <> []) by (destruct l; [contradiction|congruence]).
  destruct (C23_exact keepdims (map Fi l) (all_ordinary l) (some_Fi l N)) as [-> ->].
  assert (P : 0 < INR (length l)) by (apply lt_0_INR; destruct l; simpl in *; [contradiction|lia]).
  assert (G : exp m <= total weight (map Fi l)) by (apply total_ge; now apply in_map).
  assert (L : total weight (map Fi l) <= INR (length l) * exp m).
  { rewrite <- (map_length Fi l). apply total_le; [|apply all_ordinary]. intros r Hr.
    apply in_map_iff in Hr. destruct Hr as [r' [E Hr]]. inversion E; subst. auto. }
  pose proof (exp_pos m) as Pm. rewrite map_length.
  assert (A1 : m <= ln (total weight (map Fi l))).
  { rewrite <- (ln_exp m) at 1. destruct G as [G|G]; [left; apply ln_increasing; lra|rewrite G; lra]. }
  assert (A2 : ln (total weight (map Fi l)) <= m + ln (INR (length l))).
  { rewrite Rplus_comm. rewrite <- (ln_exp m) at 1. rewrite <- ln_mult by auto.
    destruct L as [L|L]; [left; apply ln_increasing; lra|rewrite <- L; lra]. }
  split; eexists; (split; [reflexivity|]); [lra|].
  unfold Rdiv. rewrite ln_mult, ln_Rinv by (auto; try apply Rinv_0_lt_compat; lra). lra.
Qed.
Print Assumptions C23_bounds.
(** Shift equivariance and monotonicity. *)
Theorem C23_shift keepdims l c : l <> [] -> exists v w,
  log_sum_exp keepdims (map Fi l) = Fi v /\ log_sum_exp keepdims (map (fun x => Fi (x + c)) l) = Fi (v + c) /\
  log_mean_exp keepdims (map Fi l) = Fi w /\ log_mean_exp keepdims (map (fun x => Fi (x + c)) l) = Fi (w + c).
Proof.
  intros N. destruct (C23_exact keepdims (map Fi l) (all_ordinary l) (some_Fi l N)) as [-> ->].
  rewrite <- (map_map (fun x => x + c) Fi).
  assert (N' : map (fun x => x + c) l <> []) by (destruct l; simpl; congruence).
  destruct (C23_exact keepdims (map Fi (map (fun x => x + c) l)) (all_ordinary _) (some_Fi _ N')) as [-> ->].
  rewrite !total_Fi, !map_length, total_map.
  rewrite (total_ext (fun x => exp (x + c)) (fun x => exp c * exp x)) by (intros; rewrite exp_plus; ring).
  rewrite total_scal. assert (P : 0 < total exp l) by (apply total_pos; auto; intros; apply exp_pos).
  assert (Pn : 0 < INR (length l)) by (apply lt_0_INR; destruct l; simpl in *; [congruence|lia]).
  exists (ln (total exp l)), (ln (total exp l / INR (length l))). repeat split.
  - f_equal. rewrite ln_mult, ln_exp; auto using exp_pos. ring.
  - f_equal. unfold Rdiv. rewrite Rmult_assoc, ln_mult, ln_exp; auto using exp_pos; [ring|].
    apply Rmult_lt_0_compat; auto. now apply Rinv_0_lt_compat.
Qed.
Print Assumptions C23_shift.
Theorem C23_monotone keepdims l l' : l <> [] -> Forall2 Rle l l' -> exists v v' w w',
  log_sum_exp keepdims (map Fi l) = Fi v /\ log_sum_exp keepdims (map Fi l') = Fi v' /\ v <= v' /\
  log_mean_exp keepdims (map Fi l) = Fi w /\ log_mean_exp keepdims (map Fi l') = Fi w' /\ w <= w'.
Proof.
  intros N F. assert (N' : l' <> []) by (destruct F; congruence).
  destruct (C23_exact keepdims (map Fi l) (all_ordinary l) (some_Fi l N)) as [-> ->].
  destruct (C23_exact keepdims (map Fi l') (all_ordinary l') (some_Fi l' N')) as [-> ->].
  rewrite !total_Fi, !map_length.
  assert (T : total exp l <= total exp l').
  { clear N N'. induction F as [|x y l l' H F IH]; simpl; [lra|].
    assert (exp x <= exp y) by (destruct H as [H|H]; [left; now apply exp_increasing|subst; lra]). lra. }
  assert (Len : length l = length l') by (clear -F; induction F; simpl; congruence). rewrite <- Len.
  assert (P : 0 < total exp l) by (apply total_pos; auto; intros; apply exp_pos).
  assert (Pn : 0 < INR (length l)) by (apply lt_0_INR; destruct l; simpl in *; [congruence|lia]).
  do 4 eexists. split; [reflexivity|]. split; [reflexivity|].
  assert (Q : ln (total exp l) <= ln (total exp l')) by (destruct T as [T|T]; [left; apply ln_increasing; lra|rewrite T; lra]).
  split; [exact Q|]. split; [reflexivity|]. split; [reflexivity|].
  unfold Rdiv. rewrite !ln_mult; auto; try lra; now apply Rinv_0_lt_compat.
Qed.
Print Assumptions C23_monotone.
Example C23_ex : log_sum_exp false [Fi 0; MInf; Fi 0] = Fi (ln 2).
Proof.
  destruct (C23_exact false [Fi 0; MInf; Fi 0]) as [-> _].
  - repeat constructor.
  - exists 0. simpl. auto.
  - simpl. rewrite exp_0. do 2 f_equal. ring.
Qed.
