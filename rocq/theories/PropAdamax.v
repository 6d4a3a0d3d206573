(** C74: the Adamax optimizer of the examples. *)
From Coq Require Import List Reals Arith Lra Lia.
From Verif Require Import SpecDist SpecVI ModelExamples SpecExamples.
Import ListNotations.
Local Open Scope R_scope.

Section Adamax.
Variables lr beta1 beta2 eps x0 : R.
Notation run := (optimize lr beta1 beta2 eps x0).
Lemma run_snoc grads g : run (grads ++ [g]) = apply_dense lr beta1 beta2 eps (run grads) g.
Proof. unfold optimize. now rewrite fold_left_app. Qed.
Lemma weighted_snoc b grads g : weighted b (grads ++ [g]) = b * weighted b grads + g.
Proof. induction grads as [|a grads IH]; [cbn; ring|]. cbn [app weighted]. rewrite IH, app_length, Nat.add_1_r. cbn [length pow]. ring. Qed.

(** After any gradients, the numerator is the exponentially weighted sum of all of them and the
    denominator is the largest of the latest gradient and the decayed earlier ones, plus what
    eps has added; it is at least eps, so the division is always defined. *)
Theorem C74_slots grads : a_v (run grads) = (1 - beta1) * weighted beta1 grads.
Proof.
  induction grads as [|g grads IH] using rev_ind; [cbn; ring|]. rewrite run_snoc, weighted_snoc. cbn [apply_dense a_v]. rewrite IH. ring.
Qed.
Hypothesis eps_pos : 0 < eps.
Hypothesis beta2_pos : 0 < beta2.
Lemma m_nonneg grads : 0 <= a_m (run grads).
Proof.
  induction grads as [|g grads IH] using rev_ind; [cbn; lra|]. rewrite run_snoc. cbn [apply_dense a_m]. eapply Rle_trans; [|apply Rmax_l]. assert (0 <= beta2 * a_m (run grads)) by (apply Rmult_le_pos; lra). lra.
Qed.
Theorem C74_denominator grads g : let m := a_m (run (grads ++ [g])) in
  eps <= m /\ Rabs g <= m /\ (forall i, (i < length grads)%nat -> beta2 ^ (length grads - i) * Rabs (nth i grads 0) <= m).
Proof.
  cbv zeta. rewrite run_snoc. cbn [apply_dense a_m]. pose proof (m_nonneg grads) as P. assert (P2 : 0 <= beta2 * a_m (run grads)) by (apply Rmult_le_pos; lra).
  split; [eapply Rle_trans; [|apply Rmax_l]; lra|]. split; [apply Rmax_r|]. intros i Hi. eapply Rle_trans; [|apply Rmax_l].
  assert (X : forall l i, (i < length l)%nat -> beta2 ^ (length l - 1 - i) * Rabs (nth i l 0) <= a_m (run l)).
  { clear - beta2_pos eps_pos. induction l as [|h l IH] using rev_ind; intros i Hi; [cbn in Hi; lia|]. rewrite run_snoc. cbn [apply_dense a_m]. rewrite app_length in *. cbn [length] in *. destruct (Nat.eq_dec i (length l)) as [->|N].
    - rewrite app_nth2 by lia. rewrite Nat.sub_diag. replace (length l + 1 - 1 - length l)%nat with 0%nat by lia. cbn [nth pow]. rewrite Rmult_1_l. apply Rmax_r.
    - rewrite app_nth1 by lia. eapply Rle_trans; [|apply Rmax_l]. replace (length l + 1 - 1 - i)%nat with (S (length l - 1 - i)) by lia. cbn [pow]. rewrite Rmult_assoc. specialize (IH i ltac:(lia)). assert (beta2 * (beta2 ^ (length l - 1 - i) * Rabs (nth i l 0)) <= beta2 * a_m (run l)) by (apply Rmult_le_compat_l; lra). lra. }
  specialize (X grads i Hi). replace (length grads - i)%nat with (S (length grads - 1 - i)) by lia. cbn [pow]. rewrite Rmult_assoc. assert (beta2 * (beta2 ^ (length grads - 1 - i) * Rabs (nth i grads 0)) <= beta2 * a_m (run grads)) by (apply Rmult_le_compat_l; lra). lra.
Qed.

Hypothesis beta1_range : 0 <= beta1 < 1.
Hypothesis betas : beta1 < beta2.
Hypothesis lr_nonneg : 0 <= lr.
Let c := (1 - beta1) * beta2 / (beta2 - beta1).
Lemma c_eq : c * (beta2 - beta1) = (1 - beta1) * beta2.
Proof. unfold c. field. lra. Qed.
Lemma c_pos : 0 < c.
Proof. unfold c. apply Rdiv_lt_0_compat; [apply Rmult_lt_0_compat|]; lra. Qed.
Lemma v_bound grads : Rabs (a_v (run grads)) <= c * a_m (run grads).
Proof.
  induction grads as [|g grads IH] using rev_ind; [cbn; rewrite Rabs_R0; lra|]. pose proof (C74_denominator grads g) as (_ & G & _). pose proof (m_nonneg grads) as P. rewrite run_snoc in *. cbn [apply_dense a_m a_v] in *. set (m := a_m (run grads)) in *. set (m' := Rmax (beta2 * m + eps) (Rabs g)) in *.
  assert (M : beta2 * m <= m') by (apply Rle_trans with (beta2 * m + eps); [lra|apply Rmax_l]).
  pose proof c_eq as Ce. pose proof c_pos as Cp. eapply Rle_trans; [apply Rabs_triang|]. rewrite !Rabs_mult, (Rabs_pos_eq beta1), (Rabs_pos_eq (1 - beta1)) by lra.
  assert (A1 : beta1 * Rabs (a_v (run grads)) <= beta1 * (c * m)) by (apply Rmult_le_compat_l; lra). assert (A2 : (1 - beta1) * Rabs g <= (1 - beta1) * m') by (apply Rmult_le_compat_l; lra).
  apply Rmult_le_reg_l with beta2; [lra|]. assert (A3 : beta2 * (beta1 * (c * m)) <= beta1 * c * m'). { replace (beta2 * (beta1 * (c * m))) with (beta1 * c * (beta2 * m)) by ring. apply Rmult_le_compat_l; [apply Rmult_le_pos; lra|exact M]. }
  assert (A4 : beta2 * (beta1 * Rabs (a_v (run grads))) <= beta2 * (beta1 * (c * m))) by (apply Rmult_le_compat_l; lra). assert (A5 : beta2 * ((1 - beta1) * Rabs g) <= beta2 * ((1 - beta1) * m')) by (apply Rmult_le_compat_l; lra).
  replace (beta2 * (c * m')) with (beta1 * c * m' + (c * (beta2 - beta1)) * m') by ring. rewrite Ce. lra.
Qed.
(** Whatever the gradients, however large: no step is longer than
    lr (1 - beta1) beta2 / (beta2 - beta1), about 1.009 lr for the defaults. *)
Theorem C74_step grads g : Rabs (a_var (run (grads ++ [g])) - a_var (run grads)) <= lr * ((1 - beta1) * beta2 / (beta2 - beta1)).
Proof.
  fold c. pose proof (v_bound (grads ++ [g])) as V. pose proof (C74_denominator grads g) as (E & _ & _). rewrite run_snoc in *. cbn [apply_dense a_var a_m a_v] in *.
  match goal with |- Rabs (?a - lr * (?x / ?y) - ?a) <= _ => replace (a - lr * (x / y) - a) with (- (lr * (x / y))) by ring; set (vt := x) in *; set (mt := y) in * end.
  rewrite Rabs_Ropp, Rabs_mult, (Rabs_pos_eq lr) by lra. apply Rmult_le_compat_l; [lra|]. unfold Rdiv. rewrite Rabs_mult, Rabs_inv, (Rabs_pos_eq mt) by lra. apply Rmult_le_reg_r with mt; [lra|]. rewrite Rmult_assoc, Rinv_l by lra. lra.
Qed.
Theorem C74_distance grads : Rabs (a_var (run grads) - x0) <= INR (length grads) * (lr * ((1 - beta1) * beta2 / (beta2 - beta1))).
Proof.
  induction grads as [|g grads IH] using rev_ind; [cbn; rewrite Rminus_diag_eq, Rabs_R0 by reflexivity; lra|]. pose proof (C74_step grads g) as S. rewrite app_length. cbn [length]. rewrite Nat.add_1_r, S_INR.
  replace (a_var (run (grads ++ [g])) - x0) with ((a_var (run (grads ++ [g])) - a_var (run grads)) + (a_var (run grads) - x0)) by ring. eapply Rle_trans; [apply Rabs_triang|]. lra.
Qed.
(** Each step is against the weighted sum of the gradients: positive gradients only ever lower
    the variable, and without gradients it stays. *)
Lemma weighted_nonneg grads : List.Forall (fun g => 0 <= g) grads -> 0 <= weighted beta1 grads.
Proof. induction 1 as [|g l G _ IH]; cbn; [lra|]. assert (0 <= beta1 ^ length l * g) by (apply Rmult_le_pos; [apply pow_le; lra|exact G]). lra. Qed.
Theorem C74_direction grads g : List.Forall (fun g => 0 <= g) (grads ++ [g]) -> a_var (run (grads ++ [g])) <= a_var (run grads).
Proof.
  intros F. pose proof (C74_denominator grads g) as (E & _ & _). pose proof (C74_slots (grads ++ [g])) as V. pose proof (weighted_nonneg _ F) as W. rewrite run_snoc in *. cbn [apply_dense a_var a_m a_v] in *. rewrite V.
  assert (0 <= lr * ((1 - beta1) * weighted beta1 (grads ++ [g]) / Rmax (beta2 * a_m (run grads) + eps) (Rabs g))); [|lra]. apply Rmult_le_pos; [lra|]. apply Rmult_le_pos; [apply Rmult_le_pos; lra|left; apply Rinv_0_lt_compat; lra].
Qed.
Theorem C74_still k : a_var (run (repeat 0 k)) = x0.
Proof.
  induction k as [|k IH]; [reflexivity|]. replace (repeat 0 (S k)) with (repeat 0 k ++ [0]) by (rewrite <- repeat_cons; reflexivity). rewrite run_snoc. cbn [apply_dense a_var]. rewrite IH, C74_slots.
  replace (weighted beta1 (repeat 0 k)) with 0; [unfold Rdiv; ring|]. clear IH. induction k as [|k IH]; [reflexivity|]. cbn [repeat weighted]. rewrite <- IH. ring.
Qed.
End Adamax.
Print Assumptions C74_slots.
Print Assumptions C74_denominator.
Print Assumptions C74_step.
Print Assumptions C74_distance.
Print Assumptions C74_direction.
Print Assumptions C74_still.

(** The cited algorithm divides step t by 1 - beta1^t; the code does not. Its first step is
    therefore 1 - beta1 of that, a tenth for the default. *)
Theorem C74_bias_refuted lr beta1 beta2 eps x0 g : eps <= Rabs g -> 0 < eps -> beta1 <> 1 ->
  let step := a_var (optimize lr beta1 beta2 eps x0 [g]) - x0 in
  let published := - (lr / (1 - beta1 ^ 1) * ((1 - beta1) * g / Rabs g)) in
  step = (1 - beta1) * published /\ (lr <> 0 -> beta1 <> 0 -> step <> published).
Proof.
  intros E P B step published. assert (G : 0 < Rabs g) by lra.
  assert (S : step = - (lr * ((1 - beta1) * g / Rabs g))). { unfold step, optimize. cbn [fold_left apply_dense a_var a_m a_v]. rewrite !Rmult_0_r, !Rplus_0_l, Rmax_right by exact E. ring. }
  assert (Q : step = (1 - beta1) * published) by (rewrite S; unfold published; rewrite pow_1; field; split; lra).
  split; [exact Q|]. intros L B0. rewrite Q. intros X. assert (published * beta1 = 0) by lra. apply Rmult_integral in H as [H|H]; [|contradiction]. unfold published in H. rewrite pow_1 in H.
  assert (Y : lr / (1 - beta1) * ((1 - beta1) * g / Rabs g) = lr * (g / Rabs g)) by (field; split; lra). rewrite Y in H. assert (lr * (g / Rabs g) = 0) by lra. apply Rmult_integral in H0 as [H0|H0]; [contradiction|]. unfold Rdiv in H0. apply Rmult_integral in H0 as [H0|H0]; [rewrite H0, Rabs_R0 in G; lra|]. apply Rinv_neq_0_compat in H0; [exact H0|lra].
Qed.
Print Assumptions C74_bias_refuted.
(** The defaults, and two large gradients. *)
Example C74_case : let x := a_var (optimize (1 / 1000) (9 / 10) (999 / 1000) (1 / 100000000) 0 [10 ^ 6; - 10 ^ 9]) in Rabs x <= 2 * (1 / 1000 * (111 / 110)).
Proof.
  intros x. pose proof (C74_distance (1 / 1000) (9 / 10) (999 / 1000) (1 / 100000000) 0 ltac:(lra) ltac:(lra) ltac:(lra) ltac:(lra) ltac:(lra) [10 ^ 6; - 10 ^ 9]) as D. fold x in D. rewrite Rminus_0_r in D. cbn [length INR] in D. lra.
Qed.
