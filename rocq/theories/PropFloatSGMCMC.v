(** C62: the stochastic-gradient samplers in floating-point arithmetic. *)
From Coq Require Import List Arith Bool Reals ZArith Lra Lia FunctionalExtensionality.
From Flocq Require Import Core.
From Verif Require Import ModelExt ModelSpecial ModelNum ModelFloat ModelFloatSample ModelFloatTune ModelFloatSGMCMC SpecFloat SpecFloatSGMCMC ProofFloat ProofFloatSample ProofFloatDensity ProofFloatTune ProofFloatSGMCMC.
Import ListNotations.
Local Open Scope R_scope.

Section Formats.
Variables prec top : Z.
Hypothesis A : ample prec top.
Let W : wide prec top := proj1 A.
Notation u := (unit_roundoff prec).
Notation float := (is_float prec top).
Notation near := (nearest prec top).
Notation b e := (bpow radix2 e).
Notation within := (within prec top).
Notation tame := (tame prec top).
Notation about := (about prec top).
(** The number that an entry holds. *)
Notation val a := (real_of a).

(** ** SGLD *)
(** However many iterations are run, with whatever learning rates, minibatches and draws:
    positions stay finite, below 2 ^ e. *)
Theorem C62_sgld_finite k e (q : vec) xs : (0 <= k)%Z -> (k + prec + 1 <= e)%Z -> (e + 1 <= top)%Z -> Forall (tame k) xs -> (forall i, within e (q i)) ->
  forall i, within e (fsgld_run prec top q xs i).
Proof.
  intros K0 K1 E H. revert q. induction H as [|x xs X H IH]; intros q Hq; [exact Hq|]. apply IH. intros i. now apply (sgld_bounded prec top A k).
Qed.
(** One iteration is accurate. *)
Theorem C62_sgld_step k r (q : vec) x : (0 <= k <= r)%Z -> (r + 4 <= top)%Z -> tame k x -> (forall i, within r (q i)) -> forall i,
  within (r + 2) (fsgld prec top q x i) /\
  Rabs (val (fsgld prec top q x i) - (val (q i) + val (s_lr x) / 2 * val (s_grad x q i) + sqrt (val (s_lr x)) * val (s_normal x i))) <= 5 * u * b r.
Proof.
  intros K R X Hq i. pose proof (top_big prec top A) as TB. pose proof A as (_ & p3 & _). assert (U : 0 < u) by apply u_pos. pose proof (bpow_gt_0 radix2 k) as B0. assert (B : u * b k <= u * b r) by (apply Rmult_le_compat_l; [lra|apply bpow_le; lia]).
  destruct (tame_noise prec top A k x ltac:(lia) ltac:(lia) X i) as (lr & z & El & Fl & Hl & Ez & _ & _ & N). destruct (tame_gradient prec top A k x ltac:(lia) ltac:(lia) X q i (within_finite prec top _ q Hq)) as (lr' & g & El' & Eg & _ & _ & G & _).
  assert (lr' = lr) by congruence. subst lr'. destruct (within_about prec top _ _ (Hq i)) as (y & Ey & Fy & Y).
  apply (about_le prec top k r _ (u * b r)) in G; [|lia|lra]. apply (about_le prec top k (r + 1) _ (u * b r)) in N; [|lia|lra].
  pose proof (drift prec top A r _ _ _ _ _ _ ltac:(lia) ltac:(lia) Y G) as S. pose proof (drift prec top A (r + 1) _ _ _ _ _ _ ltac:(lia) ltac:(lia) S N) as T.
  change (about (r + 1 + 1) (0 + u * b r + u * b r + u * b r + u * b (r + 1)) (y + 1 / 2 * lr * g + z * sqrt lr) (fsgld prec top q x i)) in T. replace (r + 1 + 1)%Z with (r + 2)%Z in T by lia.
  destruct T as (w & -> & Fw & Bw & _ & Ew). split; [exists w; auto|]. rewrite El, Eg, Ez, Ey. cbn [real_of]. rewrite (b_1 r) in Ew. 
  replace (y + lr / 2 * g + sqrt lr * z) with (y + 1 / 2 * lr * g + z * sqrt lr) by field. lra.
Qed.
(** Small learning rates: updates below half the spacing of the floats are lost, and the
    chain never moves again. *)
Theorem C62_sgld_frozen k e l (q : vec) xs : (l <= 1)%Z -> (4 - top <= 2 * l + k)%Z -> (4 - top <= 2 * l)%Z -> (0 <= k)%Z -> (k + 3 <= top)%Z -> (l + k < e - prec - 1)%Z ->
  Forall (fun x => tame k x /\ val (s_lr x) <= b (2 * l)) xs -> (forall i, exists y, q i = Fi y /\ float y /\ b e <= Rabs y) ->
  fsgld_run prec top q xs = q.
Proof.
  intros L1 L2 L3 K0 K1 E H Hq. pose proof (top_big prec top A) as TB. pose proof A as (_ & p3 & _). induction H as [|x xs (X & L) H IH]; [reflexivity|]. unfold fsgld_run in *. cbn [fold_left]. replace (fsgld prec top q x) with q; [exact IH|]. symmetry. apply functional_extensionality. intros i.
  destruct X as ((lr & El & Fl & Hl) & G & Z & _). rewrite El in L. cbn [real_of] in L. unfold fsgld. rewrite El.
  assert (Hlr : within (2 * l) (Fi lr)) by (exists lr; repeat split; try apply Fl; rewrite Rabs_pos_eq; lra).
  assert (Hg : within (l + k) (fmul prec top (fmul prec top (Fi (1/2)) (Fi lr)) (s_grad x q i))).
  { apply (within_le prec top (-1 + 2 * l + k)); [lia|]. apply (within_mul prec top A); try lia; [|apply G; intros n; destruct (Hq n) as (w & ? & ? & _); eauto]. apply (within_mul prec top A); try lia; [|exact Hlr]. exact (about_within prec top _ _ _ _ (about_half prec top A)). }
  assert (Hs : within l (fsqrt prec top (Fi lr))).
  { unfold fsqrt. destruct (Rlt_dec lr 0); [lra|]. assert (V : Rabs (sqrt lr) <= b l).
    { rewrite Rabs_pos_eq by apply sqrt_pos. rewrite <- (sqrt_square (b l)) by apply bpow_ge_0. apply sqrt_le_1_alt. rewrite <- bpow_plus. replace (l + l)%Z with (2 * l)%Z by lia. exact L. }
    destruct (float_near prec top A (sqrt lr)) as (-> & Fs); [eapply Rle_trans; [exact V|apply bpow_le; lia]|]. exists (near (sqrt lr)). repeat split; try apply Fs. apply (near_bpow prec top W); [lia|exact V]. }
  assert (Hn : within (l + k) (random_normal prec top (s_normal x i) (fsqrt prec top (Fi lr)))) by (rewrite Z.add_comm; apply (within_mul prec top A); try lia; [apply Z|exact Hs]).
  destruct Hg as (g & -> & _ & Bg). destruct Hn as (n & -> & _ & Bn). destruct (Hq i) as (y & -> & Fy & By). assert (Lt : b (l + k) < b (e - prec - 1)) by (apply bpow_lt; lia).
  rewrite (fadd_absorb prec top A y g e) by (try assumption; lra). apply (fadd_absorb prec top A y n e); [assumption..|lra].
Qed.

(** ** PSGLD *)
Section PSGLD.
Variable libsquare : R -> R.
Hypothesis FS : forall x, float x -> faithful_at prec top libsquare (fun x => x * x) x.
(** decay and 1 - decay as floats; epsilon at least 2 ^ -j. *)
Variables (d d1 eps : R) (j k : Z).
Hypothesis Fd : float d.
Hypothesis Fd1 : float d1.
Hypothesis D0 : 0 <= d.
Hypothesis D1 : 0 <= d1 <= 1.
Hypothesis DD : d + d1 / 2 <= 1.
Hypothesis Fe : float eps.
Hypothesis E0 : b (- j) <= eps <= 1.
Hypothesis J0 : (0 <= j)%Z.
Hypothesis K0 : (0 <= k)%Z.
Hypothesis K2 : (2 * k + 4 <= top)%Z.
Notation run := (fpsgld_run prec top libsquare (Fi d) (Fi d1) (Fi eps)).
Notation step := (fpsgld prec top libsquare (Fi d) (Fi d1) (Fi eps)).
Let K3 : (k + 4 <= top)%Z. Proof. lia. Qed.
(** The average of the squared gradients stays in [0, 2 ^ (2 k + 1)], the positions stay
    finite. *)
Theorem C62_psgld_finite e (q aux : vec) xs : (j + k + prec + 1 <= e)%Z -> (e + 1 <= top)%Z -> Forall (tame k) xs -> (forall i, within e (q i)) ->
  (forall i, exists a, aux i = Fi a /\ float a /\ 0 <= a <= b (2 * k + 1)) ->
  (forall i, within e (fst (run (q, aux) xs) i)) /\ (forall i, exists a, snd (run (q, aux) xs) i = Fi a /\ float a /\ 0 <= a <= b (2 * k + 1)).
Proof.
  intros E1 E2 H. revert q aux. pose proof A as (_ & p3 & _). induction H as [|x xs X H IH]; intros q aux Hq Ha; [split; assumption|].
  destruct (psgld_bounded prec top A libsquare FS d d1 eps j k Fd Fd1 D0 D1 DD Fe E0 J0 K0 ltac:(lia) K3 ltac:(lia) e x q aux E1 E2 X Hq Ha) as (Q & Au).
  unfold fpsgld_run in *. cbn [fold_left]. rewrite (surjective_pairing (step (q, aux) x)). now apply IH.
Qed.
(** After any number of iterations the average is accurate: it differs from the weighted
    sum of the squares of all gradients so far by an error that does not grow. *)
Theorem C62_psgld_average e (q : vec) xs i : (j + k + prec + 1 <= e)%Z -> (e + 1 <= top)%Z -> d < 1 -> Forall (tame k) xs -> (forall i, within e (q i)) ->
  exists gs, length gs = length xs /\
    (forall n x, nth_error xs n = Some x -> s_grad x (fst (run (q, faux0) (firstn n xs))) i = Fi (nth n gs 0)) /\
    Rabs (val (snd (run (q, faux0) xs) i) - weighted_squares d d1 gs) <= 4 * (u / (1 - d)) * b (2 * k).
Proof.
  intros E1 E2 Dl H Hq. pose proof A as (_ & p3 & _). assert (U : 0 < u) by apply u_pos. pose proof (bpow_gt_0 radix2 (2 * k)) as B0. assert (I : 0 < u / (1 - d)) by (apply Rdiv_lt_0_compat; lra).
  induction xs as [|x xs IH] using rev_ind.
  - exists []. split; [reflexivity|]. split; [intros [|n] x; discriminate|]. cbn [fpsgld_run fold_left snd faux0 real_of weighted_squares]. rewrite Rminus_0_r, Rabs_R0. apply Rmult_le_pos; lra.
  - apply Forall_app in H as (H & X). apply Forall_inv in X. destruct (IH H) as (gs & L & G & Er).
    assert (A0 : forall i, exists a, faux0 i = Fi a /\ float a /\ 0 <= a <= b (2 * k + 1)) by (intros n; exists 0; repeat split; try apply (float_0 prec top); try lra; apply bpow_ge_0).
    destruct (C62_psgld_finite e q faux0 xs E1 E2 H Hq A0) as (Q & Au). destruct (Au i) as (a & Ea & Fa & Ra). pose proof X as (_ & XG & _). destruct (XG _ (within_finite prec top e _ Q) i) as (g & Eg & Fg & Bg).
    exists (gs ++ [g]). split; [rewrite !app_length, L; reflexivity|]. split.
    + intros n x' Hx. destruct (Nat.lt_ge_cases n (length xs)) as [Ln|Ln].
      * rewrite nth_error_app1 in Hx by exact Ln. rewrite firstn_app, (proj2 (Nat.sub_0_le n (length xs))) by lia. cbn [firstn]. rewrite app_nil_r, app_nth1 by lia. now apply G.
      * rewrite nth_error_app2 in Hx by exact Ln. destruct (n - length xs)%nat as [|m] eqn:M; [|destruct m; discriminate]. injection Hx as <-. assert (n = length xs) by lia. subst n.
        rewrite firstn_app, Nat.sub_diag, firstn_all. cbn [firstn]. rewrite app_nil_r, app_nth2, L, Nat.sub_diag by lia. exact Eg.
    + unfold fpsgld_run in *. rewrite fold_left_app. cbn [fold_left]. clear IH Q Au. destruct (fold_left step xs (q, faux0)) as (q', aux') eqn:Ef. cbn [fst snd] in Ea, Eg, Er.
      rewrite Ea in Er. cbn [fpsgld snd]. rewrite Ea, Eg. destruct (rms_spec prec top A libsquare FS d d1 k Fd Fd1 D0 D1 DD K0 ltac:(lia) a g Fa Ra Fg Bg) as (a' & -> & _ & _ & Er'). cbn [real_of] in Er |- *.
      assert (WS : weighted_squares d d1 (gs ++ [g]) = d * weighted_squares d d1 gs + d1 * (g * g)).
      { clear. induction gs as [|h gs IH]; cbn [weighted_squares app length pow]; [ring|]. rewrite IH, app_length. cbn [length]. rewrite Nat.add_1_r. cbn [pow]. ring. }
      rewrite WS. replace (a' - (d * weighted_squares d d1 gs + d1 * (g * g))) with ((a' - (d * a + d1 * (g * g))) + d * (a - weighted_squares d d1 gs)) by ring.
      eapply Rle_trans; [apply Rabs_triang|]. rewrite Rabs_mult, (Rabs_pos_eq d) by lra. assert (d * Rabs (a - weighted_squares d d1 gs) <= d * (4 * (u / (1 - d)) * b (2 * k))) by (apply Rmult_le_compat_l; lra).
      replace (4 * (u / (1 - d)) * b (2 * k)) with (4 * u * b (2 * k) + d * (4 * (u / (1 - d)) * b (2 * k))) at 1 by (field; lra). lra.
Qed.
(** One iteration: the preconditioner is 1 / (epsilon + sqrt(average)) within 4 units of
    roundoff, for the new average, and the new position is accurate. *)
Theorem C62_psgld_step r (q aux : vec) x : (j + k <= r)%Z -> (r + 4 <= top)%Z -> tame k x -> (forall i, within r (q i)) ->
  (forall i, exists a, aux i = Fi a /\ float a /\ 0 <= a <= b (2 * k + 1)) -> forall i,
  let s := step (q, aux) x in
  exists g, 0 < g <= b j /\ Rabs (g * (eps + sqrt (val (snd s i))) - 1) <= 4 * u /\ within (r + 2) (fst s i) /\
  Rabs (val (fst s i) - (val (q i) + val (s_lr x) / 2 * g * val (s_grad x q i) + sqrt (val (s_lr x) * g) * val (s_normal x i))) <= 8 * u * b r.
Proof.
  intros R1 R2 X Hq Ha i. pose proof (top_big prec top A) as TB. pose proof A as (_ & p3 & _). assert (U : 0 < u) by apply u_pos. cbn [fpsgld fst snd].
  assert (B : u * b (j + k) <= u * b r) by (apply Rmult_le_compat_l; [lra|apply bpow_le; lia]).
  destruct (Ha i) as (a & -> & Fa & Ra). pose proof X as ((lr & El & Fl & Hl) & XG & XZ & _). destruct (within_about prec top _ _ (XG q (within_finite prec top r q Hq) i)) as (gr & Eg & Fg & Hg). rewrite Eg. assert (Bg : Rabs gr <= b k) by (destruct Hg as (w & Ew & _ & Bw & _); congruence).
  destruct (rms_spec prec top A libsquare FS d d1 k Fd Fd1 D0 D1 DD K0 ltac:(lia) a gr Fa Ra Fg Bg) as (a' & -> & Fa' & Ra' & _).
  destruct (pre_spec prec top A d1 eps j k D1 Fe E0 J0 K0 K3 ltac:(lia) a' Fa' Ra') as (g & -> & Fpg & Hpg & Ag). exists g. cbn [real_of]. split; [exact Hpg|]. split; [exact Ag|].
  rewrite El. cbn [real_of]. assert (Gj : about j 0 g (Fi g)) by (apply about_float; [exact Fpg|rewrite Rabs_pos_eq; lra]). pose proof (bpow_gt_0 radix2 j) as Bj. pose proof (bpow_gt_0 radix2 k) as Bk. assert (J1 : 1 <= b j) by (apply (bpow_le radix2 0); lia).
  pose proof (about_mul prec top A 0 j _ _ _ _ _ _ ltac:(lia) ltac:(lia) (about_half_lr prec top A lr Fl Hl) Gj) as M1. cbn [Z.add] in M1. pose proof (about_mul prec top A j k _ _ _ _ _ _ ltac:(lia) ltac:(lia) M1 Hg) as M2. rewrite Eg in M2, Hg.
  destruct (within_about prec top _ _ (Hq i)) as (y & Ey & Fy & Y). assert (Ubj : u * b (j + k) = u * b j * b k) by (rewrite bpow_plus; ring). 
  apply (about_le prec top (j + k) r _ (3 / 2 * u * b r)) in M2; [|lia|rewrite Ubj in B |- *; lra]. pose proof (drift prec top A r _ _ _ _ _ _ ltac:(lia) ltac:(lia) Y M2) as S.
  assert (L : Rabs (lr * g) <= b j) by (rewrite Rabs_mult, !Rabs_pos_eq by lra; nra). destruct (fmul_near prec top A lr g j ltac:(lia) ltac:(lia) L) as (-> & Fm & Bm).
  assert (L0 : 0 <= lr * g) by (apply Rmult_le_pos; lra). rewrite Rabs_pos_eq in L by exact L0. apply Rabs_le_inv in Bm. pose proof (near_err_half prec top A (lr * g)) as Em. rewrite (Rabs_pos_eq (lr * g)) in Em by exact L0. pose proof (bpow_gt_0 radix2 (3 - top - prec)) as Eta.
  assert (Sq : b j <= b j * b j) by nra.
  pose proof (about_sqrt prec top A 1 j (lr * g) (near (lr * g)) ltac:(lra) J0 ltac:(lia) Fm (near_nonneg prec top W _ L0) L0 ltac:(lra) ltac:(lra) ltac:(lra)) as N1.
  assert (Sl : sqrt (lr * g) <= b j) by (rewrite <- (sqrt_square (b j)) by lra; apply sqrt_le_1_alt; lra). destruct (within_about prec top _ _ (XZ i)) as (z & Ez & Fz & Hz).
  assert (Us : u * sqrt (lr * g) <= u * b j) by (apply Rmult_le_compat_l; lra). assert (Uj : u <= u * b j) by nra.
  apply (about_le prec top j j _ (5 / 2 * u * b j)) in N1; [|lia|lra]. pose proof (about_mul prec top A k j _ _ _ _ _ _ ltac:(lia) ltac:(lia) Hz N1) as N2. replace (k + j)%Z with (j + k)%Z in N2 by lia.
  apply (about_le prec top (j + k) (r + 1) _ (3 * u * b r)) in N2; [|lia|rewrite Ubj in B |- *; lra]. pose proof (drift prec top A (r + 1) _ _ _ _ _ _ ltac:(lia) ltac:(lia) S N2) as T. replace (r + 1 + 1)%Z with (r + 2)%Z in T by lia.
  unfold random_normal. destruct T as (w & -> & Fw & Bw & _ & Ew). split; [exists w; auto|]. rewrite Ez, Ey. cbn [real_of]. rewrite (b_1 r) in Ew.
  assert (UBr : 0 < u * b r) by (apply Rmult_lt_0_compat; [lra|apply bpow_gt_0]).
  replace (y + lr / 2 * g * gr + sqrt (lr * g) * z) with (y + 1 / 2 * lr * g * gr + z * sqrt (lr * g)) by field. lra.
Qed.
End PSGLD.

(** ** SGHMC *)
Section SGHMC.
Variable libexp : R -> R.
Hypothesis FE : faithful_exp prec top libexp.
(** friction at least 2 ^ -j and not below variance_estimate *)
Variables (alpha beta : R) (j k : Z).
Hypothesis Fa : float alpha.
Hypothesis Fb : float beta.
Hypothesis Ha : b (- j) <= alpha <= 1.
Hypothesis Hb : 0 <= beta <= alpha.
Hypothesis J0 : (0 <= j)%Z.
Hypothesis J1 : (j + 5 <= prec)%Z.
Hypothesis K0 : (0 <= k)%Z.
Hypothesis K1 : (k + 3 <= top)%Z.
Notation sghmc := (fsghmc prec top libexp (Fi alpha) (Fi beta)).
(** However many iterations are run, first or second order, with or without resampling:
    momenta stay below 2 ^ (k + j + 6) and positions stay finite. *)
Theorem C62_sghmc_finite second e (q v : vec) xs : (k + j + 6 + prec + 1 <= e)%Z -> (e + 1 <= top)%Z -> Forall (tame k) xs ->
  (forall i, within e (q i)) -> (forall i, within (k + j + 6) (v i)) ->
  let s := fsghmc_run prec top libexp (Fi alpha) (Fi beta) second (q, v) xs in
  (forall i, within e (fst s i)) /\ (forall i, within (k + j + 6) (snd s i)).
Proof.
  intros E1 E2 H. revert q v. induction H as [|x xs X H IH]; intros q v Hq Hv; [split; assumption|].
  destruct (sghmc_bounded prec top A libexp FE alpha beta j k Fa Fb Ha Hb J0 J1 K0 K1 second e x q v E1 E2 X Hq Hv) as (Q & V).
  unfold fsghmc_run in *. cbn [fold_left]. rewrite (surjective_pairing (sghmc second (q, v) x)). now apply IH.
Qed.
(** One iteration without resampling, first order: v' = (1 - alpha) v + lr g + noise,
    q' = q + v'. *)
Lemma noise x : tame k x -> forall i, exists lr z, s_lr x = Fi lr /\ float lr /\ 0 <= lr <= 1 /\ s_normal x i = Fi z /\
  about (k + 1) (7 * u * b k) (z * sqrt (2 * (alpha - beta) * lr)) (random_normal prec top (s_normal x i) (fsqrt prec top (fmul prec top (fmul prec top (Fi 2) (fsub prec top (Fi alpha) (Fi beta))) (s_lr x)))).
Proof.
  intros ((lr & El & Fl & Hl) & _ & XZ & _) i. pose proof (top_big prec top A) as TB. pose proof A as (_ & p3 & _). destruct (within_about prec top _ _ (XZ i)) as (z & Ez & Fz & Hz). exists lr, z. repeat (split; [try assumption; try apply Fl; try lra|]).
  rewrite El. pose proof (about_mul prec top A k 1 _ _ _ _ _ _ ltac:(lia) ltac:(lia) Hz (friction_noise prec top A alpha beta j Fa Fb Ha Hb J0 J1 lr Fl Hl)) as M. revert M. apply about_le; [lia|]. rewrite (b_1 k). pose proof (bpow_gt_0 radix2 k). change (b 1) with 2. lra.
Qed.
Theorem C62_sghmc_step1 r (q v : vec) x : (k <= r)%Z -> (r + 4 <= top)%Z -> tame k x -> s_resample x = None -> (forall i, within r (q i)) -> (forall i, within r (v i)) -> forall i,
  let s := sghmc false (q, v) x in
  let new_v := (1 - alpha) * val (v i) + val (s_lr x) * val (s_grad x q i) + sqrt (2 * (alpha - beta) * val (s_lr x)) * val (s_normal x i) in
  within (r + 2) (snd s i) /\ within (r + 3) (fst s i) /\
  Rabs (val (snd s i) - new_v) <= 12 * u * b r /\ Rabs (val (fst s i) - (val (q i) + new_v)) <= 16 * u * b r.
Proof.
  intros R1 R2 X N Hq Hv i. pose proof (top_big prec top A) as TB. pose proof A as (_ & p3 & _). assert (U : 0 < u) by apply u_pos. cbv zeta. unfold fsghmc, fold_v. rewrite N. cbn [negb fst snd].
  destruct (noise x X i) as (lr & z & El & Fl & Hl & Ez & Nz). destruct (tame_gradient prec top A k x K0 ltac:(lia) X q i (within_finite prec top r q Hq)) as (lr' & g & El' & Eg & _ & _ & _ & G). assert (lr' = lr) by congruence. subst lr'.
  destruct (kept_spec prec top A alpha beta j Ha Hb J0 J1) as (Ek & Fk & Hk & Dk). pose proof (bpow_gt_0 radix2 (- j)) as Bj.
  assert (Kp : about 0 (u / 2) (1 - alpha) (fsub prec top (Fi 1) (Fi alpha))) by (rewrite Ek; exists (kept prec top alpha); change (b 0) with 1; repeat split; try apply Fk; try (rewrite Rabs_pos_eq; lra); exact Dk).
  destruct (within_about prec top _ _ (Hv i)) as (o & Eo & Fo & O). destruct (within_about prec top _ _ (Hq i)) as (y & Ey & Fy & Y).
  pose proof (velocity prec top A r k (u / 2) 7 _ _ _ _ _ _ _ _ ltac:(lia) R2 ltac:(lra) Kp O G Nz ltac:(lra)) as V. apply (about_le prec top r (r + 2) _ 0) in Y; [|lia|lra].
  pose proof (drift prec top A (r + 2) _ _ _ _ _ _ ltac:(lia) ltac:(lia) Y V) as Q. replace (r + 2 + 1)%Z with (r + 3)%Z in Q by lia. rewrite El in V, Q |- *. assert (B4 : b (r + 2) = 4 * b r) by (rewrite bpow_plus; cbn; lra). assert (UB : 0 < u * b r) by (apply Rmult_lt_0_compat; [lra|apply bpow_gt_0]).
  destruct V as (v' & Ev & Fv' & Bv' & _ & Dv). destruct Q as (q' & Eq & Fq' & Bq' & _ & Dq). rewrite Ev in Eq |- *. rewrite Eq. rewrite Eo, Ez, Eg, Ey. cbn [real_of]. split; [exists v'; auto|]. split; [exists q'; auto|].
  rewrite (Rmult_comm (sqrt _) z). rewrite B4 in Dq. split; lra.
Qed.
(** Second order: half a position step, the momentum from the gradient there, the other
    half. *)
Theorem C62_sghmc_step2 r (q v : vec) x : (k <= r)%Z -> (r + 4 <= top)%Z -> tame k x -> s_resample x = None -> (forall i, within r (q i)) -> (forall i, within r (v i)) ->
  let s := sghmc true (q, v) x in
  exists q1 : vec, (forall i, within (r + 1) (q1 i) /\ Rabs (val (q1 i) - (val (q i) + val (v i) / 2)) <= 2 * u * b r) /\ forall i,
  let new_v := exp (- alpha / 2) * (exp (- alpha / 2) * val (v i) + val (s_lr x) * val (s_grad x q1 i) + sqrt (2 * (alpha - beta) * val (s_lr x)) * val (s_normal x i)) in
  within (r + 2) (snd s i) /\ within (r + 2) (fst s i) /\
  Rabs (val (snd s i) - new_v) <= 18 * u * b r /\ Rabs (val (fst s i) - (val (q i) + val (v i) / 2 + new_v / 2)) <= 14 * u * b r.
Proof.
  intros R1 R2 X N Hq Hv. pose proof (top_big prec top A) as TB. pose proof A as (_ & p3 & _). assert (U : 0 < u) by apply u_pos. cbv zeta. unfold fsghmc, fold_v. rewrite N. cbn [negb fst snd].
  set (q1 := fun i => fadd prec top (q i) (fmul prec top (Fi (1 / 2)) (v i))). exists q1. assert (UB : 0 < u * b r) by (apply Rmult_lt_0_compat; [lra|apply bpow_gt_0]). assert (B4 : b (r + 2) = 4 * b r) by (rewrite bpow_plus; cbn; lra). pose proof (b_1 r) as B2.
  assert (H1 : forall i, about (r + 1) (3 / 2 * u * b r) (val (q i) + 1 / 2 * val (v i)) (q1 i)).
  { intros i. destruct (within_about prec top _ _ (Hv i)) as (o & Eo & Fo & O). destruct (within_about prec top _ _ (Hq i)) as (y & Ey & Fy & Y). rewrite Eo, Ey. cbn [real_of].
    apply (about_le prec top r (r + 1) _ 0) in O; [|lia|lra]. pose proof (half_of prec top A r _ _ _ ltac:(lia) ltac:(lia) O) as Hf. pose proof (drift prec top A r _ _ _ _ _ _ ltac:(lia) ltac:(lia) Y Hf) as D. revert D. apply about_le; [lia|lra]. }
  split. { intros i. destruct (H1 i) as (y & E & F & B & _ & D). rewrite E. split; [exists y; auto|]. cbn [real_of]. replace (val (q i) + val (v i) / 2) with (val (q i) + 1 / 2 * val (v i)) by field. lra. }
  intros i. fold q1. destruct (noise x X i) as (lr & z & El & Fl & Hl & Ez & Nz).
  destruct (tame_gradient prec top A k x K0 ltac:(lia) X q1 i) as (lr' & g & El' & Eg & _ & _ & _ & G); [intros n; destruct (H1 n) as (y & ? & ? & _); eauto|]. assert (lr' = lr) by congruence. subst lr'.
  destruct (halved_spec prec top A libexp FE alpha beta j Fa Ha Hb J0 J1) as (Eh & Fh & Hh & Dh). rewrite Eh. pose proof (bpow_gt_0 radix2 (- j)) as Bj. pose proof (bpow_gt_0 radix2 (- j - 2)) as Bj2. pose proof (exp_pos (- alpha / 2)) as P0. assert (P1 : exp (- alpha / 2) <= 1) by (rewrite <- exp_0; apply exp_le; lra).
  assert (Kp : about 0 u (exp (- alpha / 2)) (Fi (halved libexp alpha))) by (exists (halved libexp alpha); change (b 0) with 1; repeat split; try apply Fh; try (rewrite Rabs_pos_eq; lra); exact Dh).
  destruct (within_about prec top _ _ (Hv i)) as (o & Eo & Fo & O).
  pose proof (velocity prec top A r k u 7 _ _ _ _ _ _ _ _ ltac:(lia) R2 ltac:(lra) Kp O G Nz ltac:(lra)) as V0. pose proof (about_mul prec top A 0 (r + 2) _ _ _ _ _ _ ltac:(lia) ltac:(lia) Kp V0) as V. cbn [Z.add] in V.
  apply (about_le prec top (r + 2) (r + 1 + 1) _ (18 * u * b r)) in V; [|lia|rewrite B4; change (b 0) with 1; lra]. pose proof (half_of prec top A (r + 1) _ _ _ ltac:(lia) ltac:(lia) V) as Hf. pose proof (drift prec top A (r + 1) _ _ _ _ _ _ ltac:(lia) ltac:(lia) (H1 i) Hf) as Q.
  replace (r + 1 + 1)%Z with (r + 2)%Z in V, Q by lia. rewrite El in V, Q |- *.
  destruct V as (v' & Ev & Fv' & Bv' & _ & Dv). destruct Q as (q' & Eq & Fq' & Bq' & _ & Dq). rewrite Ev in Eq |- *. change (fadd prec top (fadd prec top (q i) (fmul prec top (Fi (1 / 2)) (v i))) (fmul prec top (Fi (1 / 2)) (Fi v'))) with (fadd prec top (q1 i) (fmul prec top (Fi (1 / 2)) (Fi v'))). rewrite Eq. rewrite Eo, Ez, Eg in *. cbn [real_of] in *. split; [exists v'; auto|]. split; [exists q'; auto|].
  rewrite (Rmult_comm (sqrt _) z). rewrite B2 in Dq. split; [lra|]. eapply Rle_trans; [|eapply Rle_trans; [exact Dq|lra]]. right. f_equal. field.
Qed.
End SGHMC.
(** An iteration that resamples is an iteration without resampling, started from a fresh
    momentum of standard deviation sqrt(lr); so is the first one. *)
Theorem C62_resampled k x z : (0 <= k)%Z -> (k + 3 <= top)%Z -> tame k x -> s_resample x = Some z ->
  exists v' : vec, (forall i, within k (v' i) /\ Rabs (val (v' i) - val (z i) * sqrt (val (s_lr x))) <= u * b k) /\
    let x' := StepInput (s_lr x) (s_grad x) (s_normal x) None in
    forall libexp q v, (forall alpha beta second, fsghmc prec top libexp alpha beta second (q, v) x = fsghmc prec top libexp alpha beta second (q, v') x') /\
      (forall libsquare a tune second alpha, fsgnht prec top libexp libsquare a tune second (q, v, alpha) x = fsgnht prec top libexp libsquare a tune second (q, v', alpha) x').
Proof.
  intros K0 K1 ((lr & El & Fl & Hl) & _ & _ & XR) E. exists (fmomentum0 prec top (s_lr x) z). split.
  - intros i. unfold fmomentum0. rewrite El. destruct (about_random prec top A k _ _ _ _ K0 ltac:(lia) (XR z E i) (lr_root prec top A lr Fl Hl)) as (y & -> & R). destruct R as (w & -> & Fw & Bw & _ & D). split; [exists w; auto|]. cbn [real_of]. pose proof (bpow_gt_0 radix2 k). assert (0 < u) by apply u_pos. nra.
  - cbv zeta. intros libexp q v. unfold fsghmc, fsgnht, fold_v. rewrite E. cbn [s_resample s_lr s_grad s_normal]. auto.
Qed.
(** Friction below half a unit of roundoff has no effect at first order: without gradient
    and noise the momentum never decays. *)
Theorem C62_friction_refuted libexp alpha beta (q v : vec) xs : float alpha -> 0 <= beta <= alpha -> float beta -> alpha < u / 2 ->
  Forall (fun x => (exists lr, s_lr x = Fi lr /\ float lr /\ 0 <= lr <= 1) /\ (forall q i, s_grad x q i = Fi 0) /\ (forall i, s_normal x i = Fi 0) /\ s_resample x = None) xs ->
  (forall i, exists y, v i = Fi y /\ float y) ->
  snd (fsghmc_run prec top libexp (Fi alpha) (Fi beta) false (q, v) xs) = v.
Proof.
  intros Fa Hb Fb Hu H Hv. pose proof (top_big prec top A) as TB. pose proof A as (_ & p3 & _). pose proof (u_eighth prec top A) as U8. revert q. induction H as [|x xs ((lr & El & Fl & Hl) & G & Z & N) H IH]; intros q; [reflexivity|].
  unfold fsghmc_run in *. cbn [fold_left]. rewrite (surjective_pairing (fsghmc prec top libexp (Fi alpha) (Fi beta) false (q, v) x)). replace (snd (fsghmc prec top libexp (Fi alpha) (Fi beta) false (q, v) x)) with v; [apply IH|]. symmetry. apply functional_extensionality. intros i.
  unfold fsghmc, fold_v. rewrite N. cbn [negb snd]. rewrite G, Z, El. destruct (Hv i) as (y & -> & Fy).
  assert (K1 : fsub prec top (Fi 1) (Fi alpha) = Fi 1).
  { change (fadd prec top (Fi 1) (Fi (- alpha)) = Fi 1). apply (fadd_absorb prec top A 1 (- alpha) 0); [apply (float_1 prec top A)|rewrite Rabs_R1; cbn; lra|]. rewrite Rabs_Ropp, Rabs_pos_eq by lra. replace (0 - prec - 1)%Z with (- prec - 1)%Z by lia.
    replace (b (- prec - 1)) with (u / 2); [exact Hu|]. unfold unit_roundoff, Z.sub. rewrite bpow_plus. reflexivity. }
  rewrite K1. assert (M1 : fmul prec top (Fi 1) (Fi y) = Fi y) by (unfold fmul; cbn [emul]; rewrite Rmult_1_l; now apply (rounded_float prec top)).
  assert (M0 : forall w, fmul prec top w (Fi 0) = Fi 0 \/ forall r, w <> Fi r) by (intros [w| | |]; [left; unfold fmul; cbn [emul]; rewrite Rmult_0_r; apply (rounded_float prec top), (float_0 prec top)|right; discriminate..]).
  destruct (M0 (Fi lr)) as [E0|E0]; [|now destruct (E0 lr)]. rewrite M1, E0.
  assert (A0 : fadd prec top (Fi y) (Fi 0) = Fi y) by (unfold fadd; cbn [eadd]; rewrite Rplus_0_r; now apply (rounded_float prec top)). rewrite A0.
  assert (N0 : random_normal prec top (Fi 0) (fsqrt prec top (fmul prec top (fmul prec top (Fi 2) (fsub prec top (Fi alpha) (Fi beta))) (Fi lr))) = Fi 0).
  { destruct (fsub_near prec top A alpha beta 0 ltac:(lia) ltac:(lia)) as (-> & Fw & Bw); [rewrite Rabs_pos_eq; cbn; lra|]. destruct (factor_sub prec top A alpha beta (proj1 Fa) (proj1 Fb)) as (f & E & Hf).
    destruct (noise_root prec top A (alpha - beta) _ lr f ltac:(lra) Fw E Hf) as (w & -> & _ & _); try assumption; [split; [apply (near_nonneg prec top W); lra|apply Rabs_le_inv in Bw; cbn in Bw; lra]|].
    unfold random_normal, fmul. cbn [emul]. rewrite Rmult_0_l. apply (rounded_float prec top), (float_0 prec top). }
  rewrite N0. exact A0.
Qed.
(** variance_estimate above the friction: from the first iteration on, everything is NaN. *)
Theorem C62_variance_refuted libexp alpha beta second s xs : alpha - beta <= - u -> Rabs (alpha - beta) <= 1 -> xs <> [] ->
  Forall (fun x => exists lr, s_lr x = Fi lr /\ float lr /\ u <= lr <= 1) xs ->
  forall i, fst (fsghmc_run prec top libexp (Fi alpha) (Fi beta) second s xs) i = NaN /\ snd (fsghmc_run prec top libexp (Fi alpha) (Fi beta) second s xs) i = NaN.
Proof.
  intros D D1 NE H i. pose proof (top_big prec top A) as TB. pose proof A as (_ & p3 & _). assert (U : 0 < u) by apply u_pos. pose proof (u_eighth prec top A) as U8.
  assert (NaN_add : forall w, fadd prec top w NaN = NaN) by (intros [w| | |]; reflexivity). assert (NaN_mul : forall w, fmul prec top w NaN = NaN) by (intros [w| | |]; reflexivity).
  destruct xs as [|x xs] using rev_ind; [easy|]. apply Forall_app in H as (_ & X). apply Forall_inv in X as (lr & El & Fl & Hl). unfold fsghmc_run. rewrite fold_left_app. cbn [fold_left]. destruct (fold_left _ xs s) as (q, v).
  assert (S : fsqrt prec top (fmul prec top (fmul prec top (Fi 2) (fsub prec top (Fi alpha) (Fi beta))) (Fi lr)) = NaN).
  { destruct (fsub_near prec top A alpha beta 0 ltac:(lia) ltac:(lia) ltac:(change (b 0) with 1; exact D1)) as (-> & Fw & Bw). set (w := near (alpha - beta)) in *. change (b 0) with 1 in Bw.
    assert (Wn : w <= - u) by (unfold w; rewrite <- (near_id prec top (- u)); [apply (near_le prec top W), D|apply fmt_opp; unfold unit_roundoff; apply (fmt_bpow prec top W); lia]).
    apply Rabs_le_inv in Bw. destruct (fmul_near prec top A 2 w 1 ltac:(lia) ltac:(lia)) as (-> & Fd & Bd); [rewrite Rabs_mult, (Rabs_pos_eq 2), Rabs_left by lra; cbn; lra|].
    assert (Ed : near (2 * w) = 2 * w) by (apply near_id, (fmt_twice prec top), Fw). rewrite Ed. destruct (fmul_near prec top A (2 * w) lr 1 ltac:(lia) ltac:(lia)) as (-> & _ & _); [rewrite Rabs_mult, Rabs_left, Rabs_pos_eq by lra; cbn; nra|].
    assert (V : near (2 * w * lr) < 0).
    { apply Rle_lt_trans with (- b (1 - prec - prec)); [|pose proof (bpow_gt_0 radix2 (1 - prec - prec)); lra]. rewrite <- (near_id prec top (- b (1 - prec - prec))); [|apply fmt_opp, (fmt_bpow prec top W); lia]. apply (near_le prec top W).
      assert (b (1 - prec - prec) <= 2 * u * u); [|nra]. unfold unit_roundoff. change 2 with (b 1). rewrite <- !bpow_plus. apply bpow_le. lia. }
    unfold fsqrt. now destruct (Rlt_dec _ 0). }
  unfold fsghmc, random_normal. rewrite El, S. destruct second; cbn [negb fst snd]; rewrite !NaN_mul, !NaN_add, ?NaN_mul, ?NaN_add; auto.
Qed.

(** ** SGNHT with a friction per entry *)
Section SGNHT.
Variables libexp libsquare : R -> R.
Hypothesis FS : forall x, float x -> faithful_at prec top libsquare (fun x => x * x) x.
Variables (tune : R) (r : Z).
Hypothesis Ft : float tune.
Hypothesis T0 : 0 <= tune <= 1.
Hypothesis R0' : (0 <= r)%Z.
Hypothesis R1 : (2 * r + 6 <= top)%Z.
Let excess c (v lr : R) (t : ext) : float v -> Rabs v <= b r -> float lr -> 0 <= lr <= 1 -> about 0 (u / 2) c t ->
  about (2 * r + 1) (4 * u * b (2 * r)) (c * (v * v - lr)) (fmul prec top t (fsub prec top (fsquare top libsquare (Fi v)) (Fi lr))).
Proof.
  intros Fv Hv Fl Hl Hc. pose proof (top_big prec top A) as TB. pose proof A as (_ & p3 & _). assert (U : 0 < u) by apply u_pos. destruct (square_spec prec top A libsquare FS r R0' ltac:(lia) v Fv Hv) as (s & -> & Fs & Hs & Es).
  assert (B0 : 1 <= b (2 * r)) by (change 1 with (b 0); apply bpow_le; lia). assert (S : about (2 * r) (u * b (2 * r)) (v * v) (Fi s)).
  { exists s. split; [reflexivity|]. split; [exact Fs|]. split; [rewrite Rabs_pos_eq; lra|]. split; [|exact Es]. rewrite Rabs_mult. replace (2 * r)%Z with (r + r)%Z by lia. rewrite bpow_plus. apply Rmult_le_compat; auto using Rabs_pos. }
  assert (L : about (2 * r) 0 lr (Fi lr)) by (apply about_float; [exact Fl|rewrite Rabs_pos_eq; lra]). pose proof (about_sub prec top A (2 * r) _ _ _ _ _ _ ltac:(lia) ltac:(lia) S L) as D. pose proof (about_mul prec top A 0 (2 * r + 1) _ _ _ _ _ _ ltac:(lia) ltac:(lia) Hc D) as M. cbn [Z.add] in M.
  revert M. apply about_le; [lia|]. rewrite (b_1 (2 * r)). change (b 0) with 1. lra.
Qed.
Let moved e c (al v lr : R) (a t : ext) m : about m e al a -> (0 <= m <= 2 * r + 2)%Z -> float v -> Rabs v <= b r -> float lr -> 0 <= lr <= 1 -> about 0 (u / 2) c t ->
  about (Z.max m (2 * r + 1) + 1) (e + 4 * u * b (2 * r) + u * b (Z.max m (2 * r + 1))) (al + c * (v * v - lr)) (fadd prec top a (fmul prec top t (fsub prec top (fsquare top libsquare (Fi v)) (Fi lr)))).
Proof.
  intros Ha Hm Fv Hv Fl Hl Hc. apply (drift prec top A); try lia.
  - revert Ha. apply about_le; [lia|lra].
  - pose proof (excess c v lr t Fv Hv Fl Hl Hc) as X. revert X. apply about_le; [lia|lra].
Qed.
(** The friction of an entry moves by tune_rate times the excess of the squared momentum
    over the learning rate: the new momentum at first order, the mean of old and new at
    second order. *)
Theorem C62_sgnht_friction a second (q v al : vec) x i : (exists lr, s_lr x = Fi lr /\ float lr /\ 0 <= lr <= 1) -> s_resample x = None -> within r (v i) -> within 0 (al i) ->
  let s := fsgnht prec top libexp libsquare a (Fi tune) second (q, v, al) x in within r (snd (fst s) i) ->
  let ex w := val w ^ 2 - val (s_lr x) in
  within (2 * r + 3) (snd s i) /\
  Rabs (val (snd s i) - (val (al i) + tune * (if second then (ex (v i) + ex (snd (fst s) i)) / 2 else ex (snd (fst s) i)))) <= 14 * u * b (2 * r).
Proof.
  intros (lr & El & Fl & Hl) N (o & Eo & Fo & Ho) Hal s (n & En & Fn & Hn) ex. assert (U : 0 < u) by apply u_pos. destruct (within_about prec top _ _ Hal) as (y & Ey & Fy & Y). unfold ex. rewrite En, El, Eo, Ey. cbn [real_of].
  assert (UB : 0 < u * b (2 * r)) by (apply Rmult_lt_0_compat; [lra|apply bpow_gt_0]).
  subst s. unfold fsgnht, fold_v in *. rewrite N, El in *. destruct second; cbn [negb fst snd] in *; rewrite En.
  - rewrite Eo, Ey in *. pose proof (moved 0 _ _ o lr _ _ 0 Y ltac:(lia) Fo Ho Fl Hl (about_half_lr prec top A tune Ft T0)) as M. rewrite Z.max_r in M by lia.
    pose proof (moved _ _ _ n lr _ _ _ M ltac:(lia) Fn Hn Fl Hl (about_half_lr prec top A tune Ft T0)) as M2. rewrite Z.max_l in M2 by lia.
    destruct M2 as (w & E & Fw & Bw & _ & Dw). rewrite E. replace (2 * r + 1 + 1 + 1)%Z with (2 * r + 3)%Z in Bw by lia. split; [exists w; auto|]. cbn [real_of]. rewrite !(b_1 (2 * r + 1)), !(b_1 (2 * r)) in Dw. eapply Rle_trans; [|eapply Rle_trans; [exact Dw|lra]]. right. f_equal. field.
  - rewrite Ey in *. assert (T1 : about 0 (u / 2) tune (Fi tune)) by (apply (about_le prec top 0 0 0); [lia|lra|]; apply about_float; [exact Ft|rewrite Rabs_pos_eq; cbn; lra]).
    pose proof (moved 0 _ _ n lr _ _ 0 Y ltac:(lia) Fn Hn Fl Hl T1) as M. rewrite Z.max_r in M by lia. destruct M as (w & E & Fw & Bw & _ & Dw). rewrite E. split; [exists w; split; [reflexivity|]; split; [exact Fw|]; eapply Rle_trans; [exact Bw|apply bpow_le; lia]|]. cbn [real_of]. rewrite !(b_1 (2 * r)) in Dw. eapply Rle_trans; [|eapply Rle_trans; [exact Dw|lra]]. right. f_equal. field.
Qed.
(** With a = 0 position and momentum of an entry are those of SGHMC, bit for bit, with
    friction and variance_estimate equal to that entry's friction: the stored one at first
    order, the one half a step later at second order. *)
Theorem C62_sgnht_momentum second (q v al : vec) x i : (exists lr, s_lr x = Fi lr /\ float lr /\ 0 <= lr <= 1) -> s_resample x = None -> within r (v i) -> within 0 (al i) ->
  exists f, within (2 * r + 2) (Fi f) /\ (second = false -> al i = Fi f) /\
  (second = true -> Rabs (f - (val (al i) + tune * (val (v i) ^ 2 - val (s_lr x)) / 2)) <= 6 * u * b (2 * r)) /\
  let s := fsgnht prec top libexp libsquare (Fi 0) (Fi tune) second (q, v, al) x in
  let t := fsghmc prec top libexp (Fi f) (Fi f) second (q, v) x in
  fst (fst s) i = fst t i /\ snd (fst s) i = snd t i.
Proof.
  intros (lr & El & Fl & Hl) N (o & Eo & Fo & Ho) Hal. assert (U : 0 < u) by apply u_pos. destruct (within_about prec top _ _ Hal) as (y & Ey & Fy & Y).
  assert (Z0 : forall f, fsub prec top (Fi f) (Fi f) = Fi 0) by (intros f; unfold fsub, esub, fadd; cbn [eadd eneg]; rewrite Rplus_opp_r; apply (rounded_float prec top), (float_0 prec top)).
  assert (UB : 0 < u * b (2 * r)) by (apply Rmult_lt_0_compat; [lra|apply bpow_gt_0]).
  destruct second.
  - pose proof (moved 0 _ _ o lr _ _ 0 Y ltac:(lia) Fo Ho Fl Hl (about_half_lr prec top A tune Ft T0)) as M. rewrite Z.max_r in M by lia. destruct M as (f & E & Ff & Bf & _ & Df). exists f. replace (2 * r + 1 + 1)%Z with (2 * r + 2)%Z in Bf by lia.
    split; [exists f; auto|]. split; [discriminate|]. split.
    + intros _. rewrite El, Eo, Ey. cbn [real_of]. rewrite (b_1 (2 * r)) in Df. eapply Rle_trans; [|eapply Rle_trans; [exact Df|lra]]. right. f_equal. field.
    + cbv zeta. unfold fsgnht, fsghmc, fold_v. rewrite N. cbn [negb fst snd]. rewrite Z0. rewrite El, Eo, E. auto.
  - destruct Hal as (f & E & Ff & Bf). exists f. split; [exists f; repeat split; try apply Ff; eapply Rle_trans; [exact Bf|apply bpow_le; lia]|]. split; [auto|]. split; [discriminate|].
    cbv zeta. unfold fsgnht, fsghmc, fold_v. rewrite N. cbn [negb fst snd]. rewrite Z0, E. auto.
Qed.
End SGNHT.
(** tune_rate 0: SGNHT is SGHMC with friction a and variance_estimate 0, bit for bit, after
    any number of iterations; the friction never changes. *)
Theorem C62_sgnht_untuned libexp libsquare a j k second e (q v : vec) xs :
  faithful_exp prec top libexp -> (forall x, float x -> faithful_at prec top libsquare (fun x => x * x) x) ->
  float a -> b (- j) <= a <= 1 -> (0 <= j)%Z -> (j + 5 <= prec)%Z -> (0 <= k)%Z -> (2 * (k + j + 6) + 4 <= top)%Z -> (k + j + 6 + prec + 1 <= e)%Z -> (e + 1 <= top)%Z -> Forall (tame k) xs ->
  (forall i, within e (q i)) -> (forall i, within (k + j + 6) (v i)) ->
  let t := fsghmc_run prec top libexp (Fi a) (Fi 0) second (q, v) xs in
  fsgnht_run prec top libexp libsquare (Fi a) (Fi 0) second (q, v, fun _ => Fi a) xs = (fst t, snd t, fun _ => Fi a).
Proof.
  intros FE FS Fa Ha J0 J1 K0 R E1 E2 H. revert q v. pose proof (top_big prec top A) as TB. pose proof (bpow_gt_0 radix2 (- j)) as Bj. set (m := (k + j + 6)%Z) in *.
  induction H as [|x xs X H IH]; intros q v Hq Hv; [reflexivity|].
  destruct (sghmc_bounded prec top A libexp FE a 0 j k Fa (float_0 prec top) Ha ltac:(lra) J0 J1 K0 ltac:(lia) second e x q v E1 E2 X Hq Hv) as (Q & V).
  assert (Ho := old_bounded prec top A k K0 ltac:(lia) m x v ltac:(lia) X Hv).
  assert (Same : forall w, within m w -> forall c, fadd prec top (Fi a) (fmul prec top (fmul prec top (Fi c) (Fi 0)) (fsub prec top (fsquare top libsquare w) (s_lr x))) = Fi a /\ fadd prec top (Fi a) (fmul prec top (Fi 0) (fsub prec top (fsquare top libsquare w) (s_lr x))) = Fi a).
  { intros w (y & -> & Fy & By) c. destruct X as ((lr & -> & Fl & Hl) & _). destruct (square_spec prec top A libsquare FS m ltac:(lia) ltac:(lia) y Fy By) as (s & -> & Fs & Hs & _).
    assert (B0 : 1 <= b (2 * m)) by (change 1 with (b 0); apply bpow_le; lia).
    destruct (fsub_near prec top A s lr (2 * m) ltac:(lia) ltac:(lia)) as (-> & _ & _); [apply Rabs_le; lra|].
    assert (M0 : forall z, fmul prec top (Fi 0) (Fi z) = Fi 0) by (intros z; unfold fmul; cbn [emul]; rewrite Rmult_0_l; apply (rounded_float prec top), (float_0 prec top)).
    assert (M1 : fmul prec top (Fi c) (Fi 0) = Fi 0) by (unfold fmul; cbn [emul]; rewrite Rmult_0_r; apply (rounded_float prec top), (float_0 prec top)).
    rewrite M1, M0. assert (fadd prec top (Fi a) (Fi 0) = Fi a) by (unfold fadd; cbn [eadd]; rewrite Rplus_0_r; now apply (rounded_float prec top)). auto. }
  assert (A0 : fsub prec top (Fi a) (Fi 0) = Fi a) by (unfold fsub, esub; cbn [eneg eadd]; rewrite Ropp_0, Rplus_0_r; now apply (rounded_float prec top)).
  cbv zeta. unfold fsgnht_run, fsghmc_run in *. cbn [fold_left].
  assert (S : fsgnht prec top libexp libsquare (Fi a) (Fi 0) second (q, v, fun _ => Fi a) x = (fst (fsghmc prec top libexp (Fi a) (Fi 0) second (q, v) x), snd (fsghmc prec top libexp (Fi a) (Fi 0) second (q, v) x), fun _ => Fi a)).
  { revert V. unfold fsgnht, fsghmc. rewrite A0. destruct second; cbn [negb fst snd]; intros V; apply f_equal2; [apply f_equal2| |apply f_equal2|]; apply functional_extensionality; intros i.
    - now rewrite (proj1 (Same _ (Ho i) (1/2))).
    - now rewrite (proj1 (Same _ (Ho i) (1/2))).
    - rewrite (proj1 (Same _ (Ho i) (1/2))). apply (Same _ (V i) (1/2)).
    - reflexivity.
    - reflexivity.
    - apply (Same _ (V i) 0). }
  rewrite S. assert (Q' : forall i, within e (fst (fsghmc prec top libexp (Fi a) (Fi 0) second (q, v) x) i)) by exact Q. assert (V' : forall i, within m (snd (fsghmc prec top libexp (Fi a) (Fi 0) second (q, v) x) i)) by exact V. clear - IH Q' V'.
  destruct (fsghmc prec top libexp (Fi a) (Fi 0) second (q, v) x) as (q', v'). exact (IH q' v' Q' V').
Qed.
End Formats.

(** The hypotheses are met: float32, gradient of the Laplace log density. *)
Definition c62_input : step_input := StepInput (Fi (1/4)) (fun q i => match q i with Fi x => if Rlt_dec 0 x then Fi (-1) else Fi 1 | _ => Fi 0 end) (fun _ => Fi 1) None.
Example C62_case : ample 24 128 /\ tame 24 128 0 c62_input /\ real_of (s_lr c62_input) <= bpow radix2 (2 * -1) /\
  (forall i : nat, within 24 128 0 (Fi 1)) /\ is_float 24 128 (1/2) /\ is_float 24 128 (/ 1024) /\ bpow radix2 (- 10) <= / 1024 /\ is_float 24 128 (bpow radix2 25) /\
  (forall x, is_float 24 128 x -> faithful_at 24 128 (fun x => nearest 24 128 (x * x)) (fun x => x * x) x) /\ faithful_exp 24 128 (fun x => nearest 24 128 (exp x)).
Proof.
  assert (A : ample 24 128) by (unfold ample, wide; repeat split; try lia; cbn; reflexivity || discriminate).
  assert (F2 : forall e, (-20 <= e <= 30)%Z -> is_float 24 128 (bpow radix2 e)).
  { intros e He. split; [apply (fmt_bpow 24 128 (proj1 A)); lia|]. rewrite Rabs_pos_eq by apply bpow_ge_0. apply bpow_lt. lia. }
  assert (F1 : is_float 24 128 1) by exact (F2 0%Z ltac:(lia)). assert (I1 : within 24 128 0 (Fi 1)) by (exists 1; repeat split; try apply F1; rewrite Rabs_R1; cbn; lra).
  assert (I2 : within 24 128 0 (Fi (-1))) by (exists (-1); split; [reflexivity|]; split; [now apply float_opp in F1|rewrite Rabs_left; cbn; lra]).
  split; [exact A|]. split.
  { split; [exists (1/4); split; [reflexivity|]; split; [replace (1/4) with (bpow radix2 (-2)) by (cbn; lra); apply F2; lia|lra]|]. split; [|split; [intros i; exact I1|discriminate]].
    intros q H i. cbn. destruct (H i) as (x & -> & _). destruct (Rlt_dec 0 x); assumption. }
  split; [cbn; lra|]. split; [auto|]. split; [replace (1/2) with (bpow radix2 (-1)) by (cbn; lra); apply F2; lia|]. split; [replace (/ 1024) with (bpow radix2 (-10)) by (cbn; lra); apply F2; lia|]. split; [cbn; lra|]. split; [apply F2; lia|].
  split; intros x _; apply round_DN_or_UP; apply valid_rnd_N.
Qed.
(** Any number of iterations of it: SGLD and SGHMC stay finite, and SGLD from 2 ^ 25 never
    moves. *)
Example C62_runs_case n : let xs := repeat c62_input n in
  (forall i, within 24 128 64 (fsgld_run 24 128 (fun _ => Fi 1) xs i)) /\
  fsgld_run 24 128 (fun _ => Fi (bpow radix2 25)) xs = (fun _ => Fi (bpow radix2 25)) /\
  (forall i, within 24 128 64 (fst (fsghmc_run 24 128 (fun x => nearest 24 128 (exp x)) (Fi (1/2)) (Fi 0) true (fun _ => Fi 1, fun _ => Fi 1) xs) i)).
Proof.
  destruct C62_case as (A & X & L & I & Fh & _ & _ & F25 & _ & FE). cbv zeta. assert (XS : Forall (tame 24 128 0) (repeat c62_input n)) by (apply Forall_forall; intros x Hx; apply repeat_spec in Hx; now subst).
  split; [|split].
  - apply (C62_sgld_finite 24 128 A 0 64); try lia; [exact XS|]. intros i. apply (within_le 24 128 0); [lia|apply I, i].
  - apply (C62_sgld_frozen 24 128 A 0 25 (-1)); try lia; [apply Forall_forall; intros x Hx; apply repeat_spec in Hx; subst; split; [exact X|exact L]|]. intros i. exists (bpow radix2 25). split; [reflexivity|]. split; [exact F25|]. rewrite Rabs_pos_eq by apply bpow_ge_0. apply Rle_refl.
  - apply (C62_sghmc_finite 24 128 A _ FE (1/2) 0 1 0 Fh (float_0 24 128) ltac:(cbn; lra) ltac:(lra) ltac:(lia) ltac:(lia) ltac:(lia) ltac:(lia) true 64); try lia; [exact XS|..]; intros i; apply (within_le 24 128 0); try lia; apply (I i).
Qed.
(** friction 1/4 below variance_estimate 1/2, and friction 2 ^ -26. *)
Example C62_refuted_case n : (forall i, fst (fsghmc_run 24 128 (fun x => nearest 24 128 (exp x)) (Fi (1/4)) (Fi (1/2)) false (fun _ => Fi 1, fun _ => Fi 1) (repeat c62_input (S n))) i = NaN) /\
  snd (fsghmc_run 24 128 (fun x => nearest 24 128 (exp x)) (Fi (bpow radix2 (-26))) (Fi 0) false (fun _ => Fi 1, fun _ => Fi 1) (repeat (StepInput (Fi (1/4)) (fun _ _ => Fi 0) (fun _ => Fi 0) None) n)) = (fun _ => Fi 1).
Proof.
  destruct C62_case as (A & X & _ & I & _). destruct X as ((lr & El & Fl & Hl) & _). assert (Q : lr = 1/4) by now injection El. subst lr. split.
  - intros i. apply (C62_variance_refuted 24 128 A); [unfold unit_roundoff; cbn; lra|rewrite Rabs_left; lra|discriminate|]. apply Forall_forall. intros x Hx. apply repeat_spec in Hx. subst. exists (1/4). split; [exact El|]. split; [exact Fl|]. unfold unit_roundoff. cbn. lra.
  - apply (C62_friction_refuted 24 128 A).
    + split; [apply (fmt_bpow 24 128 (proj1 A)); lia|]. rewrite Rabs_pos_eq by apply bpow_ge_0. apply bpow_lt. lia.
    + split; [lra|apply bpow_ge_0].
    + apply (float_0 24 128).
    + unfold unit_roundoff. cbn. lra.
    + apply Forall_forall. intros x Hx. apply repeat_spec in Hx. subst. split; [exists (1/4); auto|]. auto.
    + intros i. destruct (I i) as (y & E & F & _). eauto.
Qed.

Print Assumptions C62_sgld_finite.
Print Assumptions C62_sgld_step.
Print Assumptions C62_sgld_frozen.
Print Assumptions C62_psgld_finite.
Print Assumptions C62_psgld_average.
Print Assumptions C62_psgld_step.
Print Assumptions C62_sghmc_finite.
Print Assumptions C62_sghmc_step1.
Print Assumptions C62_sghmc_step2.
Print Assumptions C62_resampled.
Print Assumptions C62_friction_refuted.
Print Assumptions C62_variance_refuted.
Print Assumptions C62_sgnht_friction.
Print Assumptions C62_sgnht_momentum.
Print Assumptions C62_sgnht_untuned.
