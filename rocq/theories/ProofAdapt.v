(** Supporting lemmas about the adaptation of step size and mass. *)
From Coq Require Import List Arith Lia Bool Reals Lra ZArith.
From Verif Require Import ModelExt ModelHMC SpecDist SpecChol ProofDiscrete ProofChol SpecAdapt.
Import ListNotations.
Local Open Scope R_scope.

(** ** Histories *)
Lemma restarts_dec e : restarts e \/ ~ restarts e.
Proof. unfold restarts. destruct (ev_adapt e), (ev_fresh e); intuition congruence. Qed.
Lemma last_segment_exists h : exists seg, last_segment h seg.
Proof.
  induction h as [|e h IH] using rev_ind.
  - exists [], []. split; [reflexivity|]. left. auto.
  - destruct (restarts_dec e) as [R|N].
    + exists [e], h. split; [reflexivity|]. right. exists e, []. auto.
    + destruct IH as [seg [pre [-> H]]]. exists (seg ++ [e]), pre. split; [now rewrite app_assoc|].
      destruct H as [[-> F]|[e' [post [-> [R F]]]]]; [left|right].
      * split; [reflexivity|]. apply Forall_app; auto.
      * exists e', (post ++ [e]). split; [reflexivity|]. split; [assumption|]. apply Forall_app; auto.
Qed.
Lemma tuned_snoc seg e : tuned_rates (seg ++ [e]) = tuned_rates seg ++ (if ev_adapt e then [ev_rate e] else []).
Proof. unfold tuned_rates. rewrite filter_app, map_app. cbn. now destruct (ev_adapt e). Qed.

Section DA.
Variables (mu gamma t0 kappa delta : R).
Notation short := (shortfall t0 delta).
Notation prop := (log_proposal mu gamma t0 delta).
Notation aver := (averaged mu gamma t0 kappa delta).

Lemma short_app l l' n : (n <= length l)%nat -> short (l ++ l') n = short l n.
Proof. intros L. unfold shortfall. f_equal. apply rsum_ext. intros k Hk. rewrite app_nth1 by lia. reflexivity. Qed.
Lemma prop_app l l' n : (n <= length l)%nat -> prop (l ++ l') n = prop l n.
Proof. intros. unfold log_proposal. now rewrite short_app. Qed.
Lemma short_snoc l a : 0 <= t0 ->
  short (l ++ [a]) (S (length l)) =
  (1 - 1 / (INR (length l) + 1 + t0)) * short l (length l) + 1 / (INR (length l) + 1 + t0) * (delta - a).
Proof.
  intros T. unfold shortfall. rewrite rsum_S, app_nth2, Nat.sub_diag by lia. cbn [nth].
  rewrite (rsum_ext _ _ (fun i => delta - nth i l 0)) by (intros; rewrite app_nth1 by lia; reflexivity).
  rewrite S_INR. destruct (length l) as [|n].
  - change (rsum 0 (fun i => delta - nth i l 0)) with 0. cbn [INR]. unfold Rdiv. rewrite !Rmult_0_l. ring.
  - pose proof (pos_INR n). rewrite !S_INR. field. split; lra.
Qed.
Lemma da_weight_S n i : da_weight kappa (S n) i =
  if Nat.eqb i (S n) then Rpower (INR (S n)) (- kappa) else (1 - Rpower (INR (S n)) (- kappa)) * da_weight kappa n i.
Proof. reflexivity. Qed.
Lemma aver_snoc l a : let n := S (length l) in let r := Rpower (INR n) (- kappa) in
  aver (l ++ [a]) n = r * prop (l ++ [a]) n + (1 - r) * aver l (length l).
Proof.
  intros n r. unfold averaged. unfold n at 1. rewrite rsum_S. fold n.
  replace (da_weight kappa n n) with r by (unfold n; rewrite da_weight_S, Nat.eqb_refl; reflexivity).
  rewrite Rplus_comm. f_equal. rewrite <- rsum_scal. apply rsum_ext. intros k Hk.
  unfold n at 1. rewrite da_weight_S. destruct (Nat.eqb_spec (S k) (S (length l))); [lia|].
  fold n. fold r. rewrite prop_app by lia. ring.
Qed.
Lemma Rpower_neg_range x : 1 <= x -> 0 <= kappa -> 0 < Rpower x (- kappa) <= 1.
Proof.
  intros X K. split; [unfold Rpower; apply exp_pos|].
  rewrite <- (Rpower_O x) by lra. apply Rle_Rpower; lra.
Qed.
Lemma Rpower_1 y : Rpower 1 y = 1.
Proof. unfold Rpower. now rewrite ln_1, Rmult_0_r, exp_0. Qed.
Lemma da_weight_sum n : rsum (S n) (fun i => da_weight kappa (S n) (S i)) = 1.
Proof.
  induction n.
  - unfold rsum. cbn -[INR]. rewrite Rpower_1. lra.
  - rewrite rsum_S, da_weight_S, Nat.eqb_refl.
    rewrite (rsum_ext _ _ (fun i => (1 - Rpower (INR (S (S n))) (- kappa)) * da_weight kappa (S n) (S i))).
    + rewrite rsum_scal, IHn. ring.
    + intros k Hk. rewrite da_weight_S. destruct (Nat.eqb_spec (S k) (S (S n))); [lia|reflexivity].
Qed.
Lemma da_weight_nonneg n i : 0 <= kappa -> 0 <= da_weight kappa n i.
Proof.
  intros K. induction n; [cbn; lra|]. rewrite da_weight_S.
  assert (1 <= INR (S n)) by (rewrite S_INR; pose proof (pos_INR n); lra).
  pose proof (Rpower_neg_range (INR (S n)) H K).
  destruct Nat.eqb; [lra|]. apply Rmult_le_pos; lra.
Qed.
End DA.

(** ** Exponentially weighted moments *)
Lemma fold_total l : fold_right Rplus 0 l = total (fun x => x) l.
Proof. induction l; cbn; congruence. Qed.
Lemma avg_mean l : avg l = mean_of l.
Proof. unfold avg, mean_of. now rewrite fold_total. Qed.
Lemma total_map {X Y} (f : Y -> R) (g : X -> Y) l : total f (map g l) = total (fun x => f (g x)) l.
Proof. induction l; cbn; congruence. Qed.
Lemma mean_map {X} (f : X -> R) l : mean_of (map f l) = total f l / INR (length l).
Proof. unfold mean_of. rewrite total_map, map_length. reflexivity. Qed.

Section EW.
Variable d : R.
Lemma ew_total_snoc f bs x : ew_total d f (bs ++ [x]) = d * ew_total d f bs + f x.
Proof.
  unfold ew_total. rewrite app_length. cbn [length]. rewrite Nat.add_1_r, rsum_S.
  rewrite app_nth2, Nat.sub_diag by lia. cbn [nth].
  replace (S (length bs) - 1 - length bs)%nat with 0%nat by lia. cbn [pow].
  rewrite <- rsum_scal. rewrite Rmult_1_l. f_equal. apply rsum_ext. intros k Hk.
  rewrite app_nth1 by lia. replace (S (length bs) - 1 - k)%nat with (S (length bs - 1 - k)) by lia.
  cbn [pow]. ring.
Qed.
Lemma ew_total_nil f : ew_total d f [] = 0.
Proof. reflexivity. Qed.
Lemma ew_weights bs : (1 - d) * ew_total d (fun _ => 1) bs = 1 - d ^ length bs.
Proof.
  induction bs as [|x bs IH] using rev_ind; [rewrite ew_total_nil; cbn; ring|].
  rewrite ew_total_snoc, app_length. cbn [length]. rewrite Nat.add_1_r. cbn [pow].
  replace ((1 - d) * (d * ew_total d (fun _ => 1) bs + 1)) with (d * ((1 - d) * ew_total d (fun _ => 1) bs) + (1 - d)) by ring.
  rewrite IH. ring.
Qed.
Lemma ew_total_lin f g a b bs : ew_total d (fun x => a * f x + b * g x) bs = a * ew_total d f bs + b * ew_total d g bs.
Proof.
  induction bs as [|x bs IH] using rev_ind; [rewrite !ew_total_nil; ring|]. rewrite !ew_total_snoc, IH. ring.
Qed.
Lemma ew_total_ext f g bs : (forall x, In x bs -> f x = g x) -> ew_total d f bs = ew_total d g bs.
Proof.
  induction bs as [|x bs IH] using rev_ind; intros H; [reflexivity|]. rewrite !ew_total_snoc, IH, (H x).
  - reflexivity.
  - apply in_app_iff; right; left; reflexivity.
  - intros y Hy. apply H, in_app_iff. now left.
Qed.
Lemma ew_total_nonneg f bs : 0 <= d -> (forall x, In x bs -> 0 <= f x) -> 0 <= ew_total d f bs.
Proof.
  intros D. induction bs as [|x bs IH] using rev_ind; intros H; [rewrite ew_total_nil; lra|]. rewrite ew_total_snoc.
  assert (0 <= f x) by (apply H, in_app_iff; right; left; reflexivity).
  assert (0 <= ew_total d f bs) by (apply IH; intros y Hy; apply H, in_app_iff; now left).
  apply Rplus_le_le_0_compat; [|assumption]. now apply Rmult_le_pos.
Qed.
Lemma ew_total_pos f bs x : 0 < d -> (forall x, In x bs -> 0 <= f x) -> In x bs -> 0 < f x -> 0 < ew_total d f bs.
Proof.
  intros D. induction bs as [|y bs IH] using rev_ind; intros H I P; [destruct I|]. rewrite ew_total_snoc.
  assert (0 <= f y) by (apply H, in_app_iff; right; left; reflexivity).
  assert (0 <= ew_total d f bs) by (apply ew_total_nonneg; [lra|]; intros z Hz; apply H, in_app_iff; now left).
  apply in_app_iff in I. destruct I as [I|[->|[]]].
  - assert (0 < ew_total d f bs) by (apply IH; auto; intros z Hz; apply H, in_app_iff; now left).
    pose proof (Rmult_lt_0_compat _ _ D H2). lra.
  - pose proof (Rmult_le_pos _ _ (Rlt_le _ _ D) H1). lra.
Qed.
Lemma ew_weights_pos bs : 0 < d -> bs <> [] -> 0 < ew_total d (fun _ => 1) bs.
Proof.
  intros D N. destruct bs as [|x bs]; [congruence|]. apply (ew_total_pos _ _ x); auto; [intros; lra|now left|lra].
Qed.

Definition second_moment (x : list R) : R := mean_of (map (fun v => v ^ 2) x).
Lemma total_centred m x : total (fun v => (v - m) ^ 2) x =
  total (fun v => v ^ 2) x - 2 * m * total (fun v => v) x + INR (length x) * m ^ 2.
Proof.
  induction x as [|a x IH]; cbn [total length].
  - cbn [INR]. ring.
  - rewrite IH, S_INR. ring.
Qed.
Lemma mean_centred m x : x <> [] -> mean_of (map (fun v => (v - m) ^ 2) x) =
  second_moment x - 2 * m * mean_of x + m ^ 2.
Proof.
  intros N. unfold second_moment. rewrite !mean_map, total_centred. unfold mean_of.
  assert (0 < INR (length x)) by (destruct x; [congruence|apply lt_0_INR; cbn; lia]).
  field. lra.
Qed.
Lemma update_mean_eq s x : x <> [] -> let w := (1 - d) / (1 - d ^ S (ew_t s)) in
  ew_mean (ewmv_update d s x) = ew_mean s + w * (mean_of x - ew_mean s).
Proof.
  intros N w. unfold ewmv_update. cbn [ew_mean]. fold w. f_equal. rewrite avg_mean, mean_map. unfold mean_of.
  assert (0 < INR (length x)) by (destruct x; [congruence|apply lt_0_INR; cbn; lia]).
  assert (E : total (fun q => w * (q - ew_mean s)) x = w * (total (fun q => q) x - INR (length x) * ew_mean s)).
  { clear N H. induction x as [|a x IH]; cbn [total length]; [cbn; ring|]. rewrite IH, S_INR. ring. }
  rewrite E. field. lra.
Qed.
Lemma update_var_eq s x : x <> [] -> let w := (1 - d) / (1 - d ^ S (ew_t s)) in
  let m' := ew_mean (ewmv_update d s x) in
  ew_var (ewmv_update d s x) = (1 - w) * ew_var s + w * (second_moment x - (ew_mean s + m') * mean_of x + ew_mean s * m').
Proof.
  intros N w m'. unfold ewmv_update. cbn [ew_var]. fold w.
  change (ew_mean s + avg (map (fun q => w * (q - ew_mean s)) x)) with m'.
  f_equal. rewrite avg_mean.
  assert (E : map (fun iq => fst iq * (snd iq - m')) (combine (map (fun q => w * (q - ew_mean s)) x) x) =
              map (fun q => w * (q - ew_mean s) * (q - m')) x).
  { clearbody m' w. clear N. induction x as [|a x IH]; [reflexivity|]. cbn [map combine fst snd]. now rewrite IH. }
  rewrite E. unfold second_moment. rewrite !mean_map. unfold mean_of.
  assert (0 < INR (length x)) by (destruct x; [congruence|apply lt_0_INR; cbn; lia]).
  assert (T : total (fun q => w * (q - ew_mean s) * (q - m')) x =
    w * (total (fun v => v ^ 2) x - (ew_mean s + m') * total (fun v => v) x + INR (length x) * (ew_mean s * m'))).
  { clearbody m' w. clear N E H. induction x as [|a x IH]; cbn [total length]; [cbn; ring|]. rewrite IH, S_INR. ring. }
  rewrite T. field. lra.
Qed.
(** The invariant of the update. *)
Lemma ewmv_moments bs : 0 < d < 1 -> Forall (fun x => x <> []) bs ->
  let s := fold_left (ewmv_update d) bs ewmv0 in let W := ew_total d (fun _ => 1) bs in
  ew_t s = length bs /\ ew_mean s * W = ew_total d mean_of bs /\
  (ew_var s + ew_mean s ^ 2) * W = ew_total d second_moment bs.
Proof.
  intros D. induction bs as [|x bs IH] using rev_ind; intros F s W.
  - subst s W. rewrite !ew_total_nil. cbn [fold_left ewmv0 ew_t ew_mean ew_var length]. repeat split; ring.
  - apply Forall_app in F. destruct F as [F Fx]. inversion Fx as [|? ? Nx _]. subst.
    destruct (IH F) as [T [M V]]. clear IH. subst s W. rewrite fold_left_app. cbn [fold_left].
    set (s := fold_left (ewmv_update d) bs ewmv0) in *. rewrite !ew_total_snoc.
    set (W := ew_total d (fun _ => 1) bs) in *.
    assert (Wp : 0 < d * W + 1).
    { assert (0 <= W) by (apply ew_total_nonneg; intros; lra). assert (0 <= d * W) by (apply Rmult_le_pos; lra). lra. }
    assert (Ew : (1 - d) / (1 - d ^ S (ew_t s)) = 1 / (d * W + 1)).
    { pose proof (ew_weights (bs ++ [x])) as E. rewrite ew_total_snoc, app_length, Nat.add_1_r in E. fold W in E.
      rewrite T, <- E. field. split; lra. }
    pose proof (update_mean_eq s x Nx) as Em. pose proof (update_var_eq s x Nx) as Ev. cbv zeta in Em, Ev. rewrite Ew in Em, Ev.
    split; [|split].
    + rewrite app_length, Nat.add_1_r, <- T. reflexivity.
    + rewrite Em, <- M. field. lra.
    + rewrite Ev, Em, <- V. field. lra.
Qed.
End EW.

(** ** The search *)
Lemma search_unfold acc target f e l : search acc target (S f) e l true =
  search acc target f (if lessb (acc e) target then e * (1 / (3/2)) else e * (3/2)) (acc e)
    (negb (xorb (lessb l target) (lessb (acc e) target))).
Proof. reflexivity. Qed.
Lemma search_stop acc target f e l : search acc target f e l false = Some e.
Proof. destruct f; reflexivity. Qed.
Lemma search_mono acc target : forall f e l c r, search acc target f e l c = Some r -> search acc target (S f) e l c = Some r.
Proof.
  induction f; intros e l [|] r H; try (rewrite ?search_stop in *; assumption); [discriminate|].
  rewrite search_unfold in *. now apply IHf.
Qed.
Lemma search_det acc target f f' e l c r r' : search acc target f e l c = Some r -> search acc target f' e l c = Some r' -> r = r'.
Proof.
  assert (G : forall k f e l c r, search acc target f e l c = Some r -> search acc target (k + f) e l c = Some r).
  { induction k; intros; [assumption|]. cbn [Nat.add]. apply search_mono. now apply IHk. }
  intros H H'. apply (G f') in H. apply (G f) in H'. rewrite Nat.add_comm in H. congruence.
Qed.
Lemma lessb_true a b : lessb a b = true <-> a < b.
Proof. unfold lessb. destruct Rlt_dec; intuition congruence. Qed.
Lemma lessb_false a b : lessb a b = false <-> b <= a.
Proof. unfold lessb. destruct Rlt_dec; intuition (try congruence; lra). Qed.
