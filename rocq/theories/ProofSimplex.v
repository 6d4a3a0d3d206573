(** Integrals over the simplex in terms of the log ratios to the last coordinate, and the
    law of normalised gamma variables. *)
From Coq Require Import List Reals Lra Lia Permutation FunctionalExtensionality.
From Coquelicot Require Import Coquelicot.
From Verif Require Import SpecVolume SpecRange ProofVolume ProofChange ProofBimove ProofPart ProofPhase ModelDist ProofRatio ProofRange.
Import ListNotations.
Local Open Scope R_scope.

Section Logs.
Context {I : Type} (dec : forall i j : I, {i = j} + {i <> j}) (L0 : list I).
Hypothesis L0_once : NoDup L0.
Hypothesis L0_all : forall i, In i L0.
Notation upd := (upd dec).
Notation cont := (@cont I).

Fixpoint breaks (L : list I) (x : I -> R) : I -> R :=
  match L with
  | [] => x
  | i :: L' => breaks L' (affine dec i (fun _ => 1) (fun y : I -> R => - ln (spread L' y)) x)
  end.
Lemma spread_ext (L : list I) (x y : I -> R) : (forall i, In i L -> x i = y i) -> spread L x = spread L y.
Proof. intros H. unfold spread. f_equal. apply sumf_ext. intros i Hi. now rewrite H. Qed.
Lemma cont_ln_spread (L : list I) : cont (fun y : I -> R => - ln (spread L y)).
Proof. apply cont_opp, cont_ln; [apply cont_spread|]. intros x. pose proof (spread_ge L x). lra. Qed.
Lemma bimoves_breaks L : NoDup L -> exists S, bimoves dec L0 (breaks L) (fun _ => 1) S.
Proof.
  induction L as [|i L IH]; intros Nd; [exists (fun x => x); apply bimoves_id|]. inversion Nd as [|? ? N1 N2]; subst.
  destruct (IH N2) as (S & M).
  pose proof (bimoves_affine dec L0 L0_once L0_all i (fun _ => 1) (fun y : I -> R => - ln (spread L y)) (cont_const 1) (cont_ln_spread L) ltac:(intros; lra) ltac:(reflexivity)) as A.
  specialize (A ltac:(intros x t; cbv beta; do 2 f_equal; apply spread_ext; intros j Hj; apply upd_other; intros ->; contradiction)).
  eexists. eapply bimoves_ext; [| | |apply (bimoves_comp dec L0 L0_all _ _ _ _ _ _ A M)]; [reflexivity| |reflexivity].
  intros x. cbv beta. rewrite Rabs_R1. ring.
Qed.
Lemma breaks_kept L : forall x j, ~ In j L -> breaks L x j = x j.
Proof.
  induction L as [|i L IH]; intros x j H; [reflexivity|]. cbn [breaks]. rewrite IH by (intros Q; apply H; now right).
  unfold affine. apply upd_other. intros ->. apply H. now left.
Qed.
Lemma prodf_map {A B} (e : A -> B) l f : prodf (map e l) f = prodf l (fun a => f (e a)).
Proof. unfold prodf. now rewrite map_map. Qed.
Lemma prodf_app {A} (l l' : list A) f : prodf (l ++ l') f = prodf l f * prodf l' f.
Proof. unfold prodf. induction l as [|a l IH]; cbn [app map fold_right]; [ring|]. rewrite IH. ring. Qed.
Lemma stick_breaks L : NoDup L -> forall s x, 0 < s ->
  stick s L (breaks L x) = map (fun i => s * (exp (x i) / spread L x)) L ++ [s * (1 / spread L x)] /\
  stick_weight s L (breaks L x) * s = prodf (stick s L (breaks L x)) (fun t => t).
Proof.
  induction L as [|i L IH]; intros Nd s x Hs.
  - cbn [stick stick_weight breaks map app]. split.
    + unfold spread, sumf. cbn [map fold_right]. f_equal. field.
    + unfold prodf. cbn [map fold_right]. ring.
  - inversion Nd as [|? ? N1 N2]; subst. cbn [stick stick_weight breaks].
    set (x' := affine dec i (fun _ => 1) (fun y : I -> R => - ln (spread L y)) x).
    rewrite (breaks_kept L x' i N1). pose proof (spread_ge L x) as Sp. pose proof (exp_pos (x i)) as Ex.
    assert (Xi : x' i = x i - ln (spread L x)) by (unfold x', affine; rewrite upd_same; ring).
    assert (Lo : logis (x' i) = exp (x i) / (exp (x i) + spread L x)).
    { rewrite Xi. unfold logis. replace (- (x i - ln (spread L x))) with (ln (spread L x) + - x i) by ring.
      rewrite exp_plus, exp_Ropp, exp_ln by lra. field. split; lra. }
    assert (S1 : spread (i :: L) x = exp (x i) + spread L x) by (unfold spread, sumf; cbn [map fold_right]; ring).
    assert (Sx : spread L x' = spread L x) by (apply spread_ext; intros j Hj; unfold x', affine; apply upd_other; intros ->; contradiction).
    set (s' := s - s * logis (x' i)) in *. assert (Hs' : 0 < s') by (apply left_pos; exact Hs).
    assert (Es' : s' = s * (spread L x / (exp (x i) + spread L x))) by (unfold s'; rewrite Lo; field; lra).
    destruct (IH N2 s' x' Hs') as (E1 & E2). split.
    + rewrite E1, Sx. cbn [map app]. rewrite Lo, S1. f_equal. f_equal.
      * apply map_ext_in. intros j Hj. replace (x' j) with (x j) by (unfold x', affine; symmetry; apply upd_other; intros ->; contradiction).
        rewrite Es'. field. lra.
      * rewrite Es'. f_equal. field. lra.
    + unfold prodf at 1. cbn [map fold_right]. change (fold_right Rmult 1 (map (fun t => t) (stick s' L (breaks L x')))) with (prodf (stick s' L (breaks L x')) (fun t => t)).
      rewrite <- E2. unfold dlogis. replace (s * (logis (x' i) * (1 - logis (x' i)))) with (logis (x' i) * s') by (unfold s'; ring). ring.
Qed.
Lemma log_point_eq (L : list I) d : log_point L d = map (fun i => d i - ln (spread L d)) L ++ [0 - ln (spread L d)].
Proof. reflexivity. Qed.
Lemma exp_log_point (L : list I) d : map exp (log_point L d) = map (fun i => 1 * (exp (d i) / spread L d)) L ++ [1 * (1 / spread L d)].
Proof.
  pose proof (spread_ge L d). rewrite log_point_eq, map_app, map_map. cbn [map]. f_equal; [apply map_ext; intros i|f_equal];
    unfold Rminus; rewrite exp_plus, exp_Ropp, exp_ln by lra; [|rewrite exp_0]; field; lra.
Qed.
Lemma prodf_exp_id l : prodf (map exp l) (fun t => t) = exp (sumR l).
Proof. rewrite prodf_map, prodf_exp. unfold sumf. rewrite map_id. reflexivity. Qed.
Lemma sumR_app l l' : sumR (l ++ l') = sumR l + sumR l'.
Proof. unfold sumR. induction l as [|a l IH]; cbn [app fold_right]; [ring|]. rewrite IH. ring. Qed.
Lemma sum_log_point (L : list I) d : sumR (log_point L d) = sumf L (fun i => d i - ln (spread L d)) + (0 - ln (spread L d)).
Proof. rewrite log_point_eq, sumR_app. f_equal. unfold sumR. cbn [fold_right]. ring. Qed.
(** A function of rows that is continuous and nowhere negative. *)
Theorem simplex_logs h v : cont (fun d => h (map exp (log_point L0 d))) -> (forall d, 0 <= h (map exp (log_point L0 d))) ->
  simplex_integral (length L0) h v <-> total dec L0 (fun d => exp (sumR (log_point L0 d)) * h (map exp (log_point L0 d))) v.
Proof.
  intros Ch Ph. destruct (bimoves_breaks L0 L0_once) as (S & Bi).
  set (F := fun z => stick_weight 1 L0 z * h (stick 1 L0 z)).
  assert (EF : forall d, F (breaks L0 d) = exp (sumR (log_point L0 d)) * h (map exp (log_point L0 d))).
  { intros d. unfold F. destruct (stick_breaks L0 L0_once 1 d Rlt_0_1) as (E1 & E2). rewrite <- exp_log_point in E1. rewrite E1 in *.
    rewrite prodf_exp_id, Rmult_1_r in E2. now rewrite E2. }
  assert (Cd : cont (fun d => exp (sumR (log_point L0 d)) * h (map exp (log_point L0 d)))).
  { apply cont_mult; [|exact Ch]. apply cont_exp'.
    apply (cont_ext (fun d => sumf L0 (fun i => d i - ln (spread L0 d)) + (0 - ln (spread L0 d)))); [intros d; symmetry; apply sum_log_point|].
    assert (Cl : cont (fun d => ln (spread L0 d))) by (apply cont_ln; [apply cont_spread|intros d; pose proof (spread_ge L0 d); lra]).
    apply cont_plus; [|apply cont_minus; [apply cont_const|exact Cl]].
    apply (cont_sumf L0 (fun i d => d i - ln (spread L0 d))). intros i _. apply cont_minus; [apply cont_coord|exact Cl]. }
  pose proof Bi as (_ & CS & TS & _).
  assert (CF : cont F).
  { apply (cont_ext (fun z => F (breaks L0 (S z)))); [intros z; now rewrite TS|].
    apply (cont_ext (fun z => exp (sumR (log_point L0 (S z))) * h (map exp (log_point L0 (S z))))); [intros z; now rewrite EF|].
    apply (cont_comp L0 L0_all (fun d => exp (sumR (log_point L0 d)) * h (map exp (log_point L0 d))) S); [exact Cd|exact CS]. }
  assert (PF : forall z, 0 <= F z).
  { intros z. rewrite <- (TS z), EF. apply Rmult_le_pos; [left; apply exp_pos|apply Ph]. }
  rewrite (simplex_stick dec L0 h v L0_once CF). change (total dec L0 F v <-> total dec L0 (fun d => exp (sumR (log_point L0 d)) * h (map exp (log_point L0 d))) v).
  rewrite (total_bimoves dec L0 L0_once L0_all (breaks L0) (fun _ => 1) S F v Bi CF PF).
  replace (fun x => 1 * F (breaks L0 x)) with (fun d => exp (sumR (log_point L0 d)) * h (map exp (log_point L0 d))); [reflexivity|].
  extensionality d. rewrite EF. ring.
Qed.
End Logs.
