(** Proofs for C71. *)
From Coq Require Import List Arith Bool Reals ZArith Lra Lia Permutation FunctionalExtensionality.
From Flocq Require Import Core.
From Verif Require Import ModelExt ModelSpecial ModelNum ModelHMC ModelFloat ModelFloatSample ModelFloatTune ModelFloatMass SpecFloat SpecFloatImportance SpecFloatLeapfrog ProofFloat ProofFloatSample ProofFloatDensity ProofFloatTune ProofFloatImportance.
Import ListNotations.
Local Open Scope R_scope.

(** ** Stages of the two loops *)
Lemma loop_snoc {I} (grad : (I -> R) -> I -> R) mass n eps k : forall i s, (i + Z.of_nat k <= n)%Z ->
  leapfrog_loop grad mass (S k) n eps i s = let s' := leapfrog_loop grad mass k n eps i s in leapfrog_body grad mass n eps (i + Z.of_nat k) (fst s') (snd s').
Proof.
  induction k as [|k IH]; intros i s H.
  - cbn [leapfrog_loop]. destruct (Z.ltb_spec i (n + 1)); [|lia]. cbv zeta. now rewrite Z.add_0_r.
  - change (leapfrog_loop grad mass (S (S k)) n eps i s) with (if (i <? n + 1)%Z then leapfrog_loop grad mass (S k) n eps (i + 1) (leapfrog_body grad mass n eps i (fst s) (snd s)) else s).
    cbn [leapfrog_loop] in IH |- *. destruct (Z.ltb_spec i (n + 1)); [|lia]. rewrite IH by lia. cbv zeta. f_equal. lia.
Qed.

Section Proofs.
Variables prec top : Z.
Hypothesis A : ample prec top.
Let W : wide prec top := proj1 A.
Notation u := (unit_roundoff prec).
Notation b e := (bpow radix2 e).
Notation near := (nearest prec top).
Notation float := (is_float prec top).
Variables (g : vec -> vec) (fg : fstate -> fstate) (mass : nat -> R) (n : nat) (eps K delta : R) (r s : Z).
Hypothesis R1 : (prec + 3 - top <= r)%Z. Hypothesis S0 : (0 <= s)%Z. Hypothesis RS : (r + s + 2 <= top)%Z.
Hypothesis Feps : float eps. Hypothesis E0 : b (3 - top) <= eps <= 1.
Hypothesis K0 : 0 <= K. Hypothesis D0 : 0 <= delta.
Hypothesis Fm : forall i, float (mass i) /\ b (- s) <= mass i.
Hypothesis SG : smooth (b r) K g.
Hypothesis CG : computes prec top (b r) delta fg g.
Notation fmass := (fun i => Fi (mass i)).
Notation emass := (fun j : nat * nat => mass (snd j)).
Notation G := (error_growth eps K (b s)).
Notation w := (step_error prec (b r) eps K (b s) delta).

Lemma b_twice e : b (e + 1) = 2 * b e.
Proof. rewrite bpow_plus. change (b 1) with 2. ring. Qed.
Lemma inverse_mass i : 0 < / mass i <= b s.
Proof.
  destruct (Fm i) as (_ & H). pose proof (bpow_gt_0 radix2 (- s)). split; [apply Rinv_0_lt_compat; lra|]. replace s with (- - s)%Z by lia. rewrite (bpow_opp radix2 (- s)). apply Rinv_le; lra.
Qed.
(** One entry: x + s1 * (p / m) and p + s2 * grad. *)
Lemma entry_position x p i s1 : float x -> float p -> Rabs x <= b r -> Rabs p <= b r -> 0 <= s1 <= eps ->
  exists y, fadd prec top (Fi x) (fmul prec top (Fi s1) (fdiv prec top (Fi p) (Fi (mass i)))) = Fi y /\ float y /\ Rabs (y - (x + s1 * (p / mass i))) <= 2 * u * b r * b s.
Proof.
  intros Fx Fp X P S1. pose proof (top_big prec top A) as TB. pose proof A as (_ & p3 & _). pose proof (u_pos prec) as U. pose proof (inverse_mass i) as I. pose proof (bpow_gt_0 radix2 r) as Br. pose proof (bpow_gt_0 radix2 s) as Bs.
  assert (BS : 1 <= b s) by (apply (bpow_le radix2 0); lia). assert (BRS : b (r + s) = b r * b s) by apply bpow_plus.
  assert (Q : Rabs (p / mass i) <= b (r + s)). { unfold Rdiv. rewrite Rabs_mult, (Rabs_pos_eq (/ _)) by lra. rewrite BRS. apply Rmult_le_compat; try lra. apply Rabs_pos. }
  rewrite fdiv_fi by (destruct (Fm i) as (_ & H); pose proof (bpow_gt_0 radix2 (- s)); lra). rewrite (rounded_finite prec top W) by (eapply Rle_trans; [exact Q|apply bpow_le; lia]).
  set (v := near (p / mass i)). assert (V : Rabs v <= b (r + s)) by (apply (near_bpow prec top W); [lia|exact Q]). pose proof (near_binade prec top A (p / mass i) (r + s) ltac:(lia) Q) as D1. fold v in D1.
  assert (SV : Rabs (s1 * v) <= b (r + s)). { rewrite Rabs_mult, (Rabs_pos_eq s1) by lra. apply Rle_trans with (1 * b (r + s)); [apply Rmult_le_compat; try lra; apply Rabs_pos|lra]. }
  destruct (fmul_near prec top A s1 v (r + s) ltac:(lia) ltac:(lia) SV) as (E2 & F2 & B2). rewrite E2. pose proof (near_binade prec top A (s1 * v) (r + s) ltac:(lia) SV) as D2. set (t := near (s1 * v)) in *.
  assert (SX : Rabs (x + t) <= b (r + s + 1)). { rewrite b_twice, BRS. eapply Rle_trans; [apply Rabs_triang|]. assert (b r * 1 <= b r * b s) by (apply Rmult_le_compat_l; lra). lra. }
  destruct (fadd_near prec top A x t (r + s + 1) ltac:(lia) ltac:(lia) SX) as (E3 & F3 & B3). pose proof (near_binade prec top A (x + t) (r + s + 1) ltac:(lia) SX) as D3. rewrite b_twice in D3. exists (near (x + t)). split; [exact E3|]. split; [exact F3|].
  replace (near (x + t) - (x + s1 * (p / mass i))) with ((near (x + t) - (x + t)) + ((t - s1 * v) + s1 * (v - p / mass i))) by ring. eapply Rle_trans; [apply Rabs_triang|]. eapply Rle_trans; [apply Rplus_le_compat_l, Rabs_triang|]. rewrite (Rabs_mult s1), (Rabs_pos_eq s1) by lra.
  assert (s1 * Rabs (v - p / mass i) <= 1 * (u * b (r + s) / 2)) by (apply Rmult_le_compat; try lra; apply Rabs_pos). rewrite Rmult_assoc, <- BRS. lra.
Qed.
Lemma entry_momentum p y s2 : float p -> Rabs p <= b r -> Rabs y <= b r -> 0 <= s2 <= eps ->
  exists z, fadd prec top (Fi p) (fmul prec top (Fi s2) (Fi y)) = Fi z /\ float z /\ Rabs (z - (p + s2 * y)) <= 2 * u * b r * b s.
Proof.
  intros Fp P Y S2. pose proof (top_big prec top A) as TB. pose proof A as (_ & p3 & _). pose proof (u_pos prec) as U. pose proof (bpow_gt_0 radix2 r) as Br. assert (BS : 1 <= b s) by (apply (bpow_le radix2 0); lia).
  assert (SV : Rabs (s2 * y) <= b r). { rewrite Rabs_mult, (Rabs_pos_eq s2) by lra. apply Rle_trans with (1 * b r); [apply Rmult_le_compat; try lra; apply Rabs_pos|lra]. }
  destruct (fmul_near prec top A s2 y r ltac:(lia) ltac:(lia) SV) as (E2 & F2 & B2). rewrite E2. pose proof (near_binade prec top A (s2 * y) r ltac:(lia) SV) as D2. set (t := near (s2 * y)) in *.
  assert (SX : Rabs (p + t) <= b (r + 1)). { rewrite b_twice. eapply Rle_trans; [apply Rabs_triang|]. lra. }
  destruct (fadd_near prec top A p t (r + 1) ltac:(lia) ltac:(lia) SX) as (E3 & F3 & B3). pose proof (near_binade prec top A (p + t) (r + 1) ltac:(lia) SX) as D3. rewrite b_twice in D3. exists (near (p + t)). split; [exact E3|]. split; [exact F3|].
  replace (near (p + t) - (p + s2 * y)) with ((near (p + t) - (p + t)) + (t - s2 * y)) by ring. eapply Rle_trans; [apply Rabs_triang|]. assert (0 < u * b r) by (apply Rmult_lt_0_compat; lra). assert (u * b r * 1 <= u * b r * b s) by (apply Rmult_le_compat_l; lra). lra.
Qed.
Lemma G_1 : 1 <= G.
Proof.
  unfold error_growth. pose proof (bpow_gt_0 radix2 s). pose proof (bpow_gt_0 radix2 (3 - top)). assert (0 <= eps * b s) by (apply Rmult_le_pos; lra). assert (0 <= K * (1 + eps * b s)) by (apply Rmult_le_pos; lra).
  assert (0 <= eps * (b s + K * (1 + eps * b s))) by (apply Rmult_le_pos; lra). lra.
Qed.
Lemma w_0 : 0 <= w.
Proof.
  unfold step_error. pose proof (bpow_gt_0 radix2 s). pose proof (bpow_gt_0 radix2 r). pose proof (bpow_gt_0 radix2 (3 - top)). pose proof (u_pos prec). assert (0 <= eps * K) by (apply Rmult_le_pos; lra). assert (0 <= eps * delta) by (apply Rmult_le_pos; lra).
  assert (0 <= 2 * u * b r * b s * (1 + eps * K)) by (repeat apply Rmult_le_pos; lra). lra.
Qed.
(** One stage. *)
Lemma stage_step f h x p q v d s1 s2 : holds prec top f x -> holds prec top h p -> close d x q -> close d p v -> 0 <= d -> within (b r) x -> within (b r) p ->
  0 <= s1 <= eps -> 0 <= s2 <= eps ->
  let e := leapfrog_integrator g emass s1 s2 q v in
  within (b r / 2) (fst e) -> G * d + w <= b r / 2 ->
  exists x' p', holds prec top (fst (fleapfrog_integrator prec top fg fmass (Fi s1) (Fi s2) f h)) x' /\ holds prec top (snd (fleapfrog_integrator prec top fg fmass (Fi s1) (Fi s2) f h)) p' /\
    close (G * d + w) x' (fst e) /\ close (G * d + w) p' (snd e).
Proof.
  intros Hf Hh Cx Cp Pd Wx Wp S1 S2 e We Hb. unfold fleapfrog_integrator. cbn [fst snd]. pose proof (bpow_gt_0 radix2 s) as Bs. pose proof (bpow_gt_0 radix2 r) as Br. pose proof (u_pos prec) as U. pose proof (bpow_gt_0 radix2 (3 - top)) as B3.
  set (tau := 2 * u * b r * b s). assert (T0 : 0 <= tau) by (unfold tau; repeat apply Rmult_le_pos; lra). set (f' := fun c i => fadd prec top (f c i) (fmul prec top (Fi s1) (fdiv prec top (h c i) (Fi (mass i))))).
  assert (HX : forall c i, exists y, f' c i = Fi y /\ float y /\ Rabs (y - (x (c, i) + s1 * (p (c, i) / mass i))) <= tau).
  { intros c i. destruct (Hf c i) as (E1 & F1), (Hh c i) as (E2 & F2). unfold f'. rewrite E1, E2. apply entry_position; auto. }
  set (x' := fun j : nat * nat => match f' (fst j) (snd j) with Fi y => y | _ => 0 end).
  assert (Hx' : holds prec top f' x' /\ forall j, Rabs (x' j - (x j + s1 * (p j / mass (snd j)))) <= tau).
  { split; [intros c i|intros (c & i)]; destruct (HX c i) as (y & E & F & D); unfold x'; cbn [fst snd]; rewrite E; auto. }
  destruct Hx' as (Hx' & Dx'). set (e1 := eps * b s) in *.
  assert (e1_0 : 0 <= e1) by (apply Rmult_le_pos; lra).
  assert (Ca : close (d * (1 + e1) + tau) x' (fst e)).
  { intros j. unfold e, leapfrog_integrator, velocity. cbn [fst snd]. replace (x' j - (q j + s1 * (v j / mass (snd j)))) with ((x' j - (x j + s1 * (p j / mass (snd j)))) + ((x j - q j) + s1 * / mass (snd j) * (p j - v j))) by (unfold Rdiv; ring).
    eapply Rle_trans; [apply Rabs_triang|]. eapply Rle_trans; [apply Rplus_le_compat_l, Rabs_triang|]. rewrite Rabs_mult. pose proof (inverse_mass (snd j)) as I. rewrite (Rabs_pos_eq (s1 * _)) by (apply Rmult_le_pos; lra).
    assert (s1 * / mass (snd j) * Rabs (p j - v j) <= e1 * d). { apply Rmult_le_compat; [apply Rmult_le_pos; lra|apply Rabs_pos|apply Rmult_le_compat; lra|apply Cp]. } pose proof (Dx' j). pose proof (Cx j). lra. }
  assert (KE : 0 <= eps * K) by (apply Rmult_le_pos; lra). assert (GD : d * (1 + e1) + tau <= G * d + w).
  { unfold error_growth, step_error. fold tau. fold e1. assert (0 <= eps * delta) by (apply Rmult_le_pos; lra). assert (0 <= tau * (eps * K)) by (apply Rmult_le_pos; lra). assert (0 <= eps * (K * (1 + e1)) * d) by (repeat apply Rmult_le_pos; lra).
    replace ((1 + eps * (b s + K * (1 + e1))) * d) with (d * (1 + e1) + eps * (K * (1 + e1)) * d) by (unfold e1; ring). lra. }
  assert (Wx' : within (b r) x').
  { intros j. replace (x' j) with (fst e j + (x' j - fst e j)) by ring. eapply Rle_trans; [apply Rabs_triang|]. pose proof (We j). pose proof (Ca j). lra. }
  destruct (CG f' x' Hx' Wx') as (y & Hy & Cy & Wy). 
  set (h' := fun c i => fadd prec top (h c i) (fmul prec top (Fi s2) (fg f' c i))).
  assert (HP : forall c i, exists z, h' c i = Fi z /\ float z /\ Rabs (z - (p (c, i) + s2 * y (c, i))) <= tau).
  { intros c i. destruct (Hh c i) as (E2 & F2), (Hy c i) as (E3 & F3). unfold h'. rewrite E2, E3. apply entry_momentum; auto. }
  set (p' := fun j : nat * nat => match h' (fst j) (snd j) with Fi y => y | _ => 0 end).
  assert (Hp' : holds prec top h' p' /\ forall j, Rabs (p' j - (p j + s2 * y j)) <= tau).
  { split; [intros c i|intros (c & i)]; destruct (HP c i) as (z & E & F & D); unfold p'; cbn [fst snd]; rewrite E; auto. }
  destruct Hp' as (Hp' & Dp'). exists x', p'. split; [exact Hx'|]. split; [exact Hp'|]. split; [intros j; eapply Rle_trans; [apply Ca|exact GD]|].
  assert (Cg : close (K * (d * (1 + e1) + tau)) (g x') (g (fst e))). { apply SG; [exact Wx'| |exact Ca]. intros j. pose proof (We j). lra. }
  intros j. unfold e, leapfrog_integrator. cbn [snd]. change (g (fun i : nat * nat => q i + s1 * velocity emass v i) j) with (g (fst e) j).
  replace (p' j - (v j + s2 * g (fst e) j)) with ((p' j - (p j + s2 * y j)) + ((p j - v j) + s2 * ((y j - g x' j) + (g x' j - g (fst e) j)))) by ring.
  eapply Rle_trans; [apply Rabs_triang|]. eapply Rle_trans; [apply Rplus_le_compat_l, Rabs_triang|]. rewrite (Rabs_mult s2), (Rabs_pos_eq s2) by lra.
  assert (X : Rabs (y j - g x' j + (g x' j - g (fst e) j)) <= delta + K * (d * (1 + e1) + tau)) by (eapply Rle_trans; [apply Rabs_triang|]; apply Rplus_le_compat; [apply Cy|apply Cg]).
  assert (Y : s2 * Rabs (y j - g x' j + (g x' j - g (fst e) j)) <= eps * (delta + K * (d * (1 + e1) + tau))) by (apply Rmult_le_compat; try lra; apply Rabs_pos).
  pose proof (Dp' j). pose proof (Cp j). unfold error_growth, step_error. fold tau. fold e1. assert (0 <= e1 * d) by (apply Rmult_le_pos; lra).
  replace ((1 + eps * (b s + K * (1 + e1))) * d) with (d + e1 * d + eps * K * (d * (1 + e1))) by (unfold e1; ring). lra.
Qed.
(** ** All stages *)
Definition fstage k (q p : fstate) : fstate * fstate :=
  fold_left (fun s i =>
    let step_size1 := if (0 <? i)%nat then Fi eps else Fi 0 in
    let step_size2 := if (i <? n)%nat && (0 <? i)%nat then Fi eps else fdiv prec top (Fi eps) (Fi 2) in
    fleapfrog_integrator prec top fg fmass step_size1 step_size2 (fst s) (snd s)) (seq 0 k) (q, p).
Lemma half_step : fdiv prec top (Fi eps) (Fi 2) = Fi (eps / 2) /\ float (eps / 2).
Proof.
  assert (F : float (eps / 2)).
  { destruct Feps as (F & H). pose proof (bpow_gt_0 radix2 (3 - top)). split; [replace (eps / 2) with (1 / 2 * eps) by field; apply (fmt_half prec top); [exact F|lra]|]. rewrite Rabs_pos_eq in H |- *; lra. }
  split; [|exact F]. rewrite fdiv_fi by lra. apply rounded_float. exact F.
Qed.
Lemma stages f h x p q v d k : holds prec top f x -> holds prec top h p -> close d x q -> close d p v -> 0 <= d ->
  (k <= S n)%nat -> (forall i, (i <= k)%nat -> let e := leapfrog_loop g emass i (Z.of_nat n) eps 0 (q, v) in within (b r / 2) (fst e) /\ within (b r / 2) (snd e)) ->
  G ^ k * (d + INR k * w) <= b r / 2 ->
  exists x' p', holds prec top (fst (fstage k f h)) x' /\ holds prec top (snd (fstage k f h)) p' /\
    let e := leapfrog_loop g emass k (Z.of_nat n) eps 0 (q, v) in
    close (G ^ k * (d + INR k * w)) x' (fst e) /\ close (G ^ k * (d + INR k * w)) p' (snd e).
Proof.
  intros Hf Hh Cx Cp Pd. pose proof G_1 as G1. pose proof w_0 as w0. pose proof (bpow_gt_0 radix2 r) as Br. induction k as [|k IH]; intros Hk St Hb.
  - exists x, p. cbn [fstage seq fold_left leapfrog_loop fst snd pow INR]. replace (1 * (d + 0 * w)) with d by ring. repeat split; try apply Hf; try apply Hh; assumption.
  - assert (GK : 1 <= G ^ k) by (apply pow_R1_Rle; exact G1). pose proof (pos_INR k) as Ik. assert (Ew : 0 <= INR k * w) by (apply Rmult_le_pos; lra).
    set (E := G ^ k * (d + INR k * w)) in *. assert (E_0 : 0 <= E) by (apply Rmult_le_pos; lra).
    assert (ES : G * E + w <= G ^ S k * (d + INR (S k) * w)).
    { rewrite S_INR. cbn [pow]. unfold E. assert (GKS : 1 <= G * G ^ k) by (apply Rle_trans with (1 * 1); [lra|apply Rmult_le_compat; lra]). assert (1 * w <= G * G ^ k * w) by (apply Rmult_le_compat_r; lra). lra. }
    assert (EE : E <= b r / 2). { assert (1 * E <= G * E) by (apply Rmult_le_compat_r; lra). lra. }
    destruct IH as (x1 & p1 & Hx1 & Hp1 & Cx1 & Cp1); [lia|intros i Hi; apply St; lia|exact EE|]. 
    destruct (St k ltac:(lia)) as (Sx & Sp). pose proof (St (S k) ltac:(lia)) as (Sx' & _). cbv zeta in Sx'.
    rewrite loop_snoc in Sx' |- * by lia. cbv zeta in Sx' |- *. unfold fstage. rewrite seq_S, fold_left_app. cbn [fold_left]. fold (fstage k f h). cbv zeta. rewrite !Nat.add_0_l. rewrite Z.add_0_l in Sx' |- *.
    set (e1 := leapfrog_loop g emass k (Z.of_nat n) eps 0 (q, v)) in *. unfold leapfrog_body in Sx' |- *.
    replace (0 <? Z.of_nat k)%Z with (0 <? k)%nat in * by (destruct (Nat.ltb_spec 0 k), (Z.ltb_spec 0 (Z.of_nat k)); try reflexivity; lia).
    replace (Z.of_nat k <? Z.of_nat n)%Z with (k <? n)%nat in * by (destruct (Nat.ltb_spec k n), (Z.ltb_spec (Z.of_nat k) (Z.of_nat n)); try reflexivity; lia).
    pose proof (bpow_gt_0 radix2 (3 - top)) as B3. destruct half_step as (HS & _).
    assert (X1 : (if (0 <? k)%nat then Fi eps else Fi 0) = Fi (if (0 <? k)%nat then eps else 0)) by (destruct (0 <? k)%nat; reflexivity).
    assert (X2 : (if (k <? n)%nat && (0 <? k)%nat then Fi eps else fdiv prec top (Fi eps) (Fi 2)) = Fi (if (k <? n)%nat && (0 <? k)%nat then eps else eps / 2)) by (rewrite HS; destruct ((k <? n)%nat && (0 <? k)%nat); reflexivity).
    rewrite X1, X2. set (s1 := if (0 <? k)%nat then eps else 0) in *. set (s2 := if (k <? n)%nat && (0 <? k)%nat then eps else eps / 2) in *.
    assert (S1 : 0 <= s1 <= eps) by (unfold s1; destruct (0 <? k)%nat; lra). assert (S2 : 0 <= s2 <= eps) by (unfold s2; destruct ((k <? n)%nat && (0 <? k)%nat); lra).
    assert (Wi : forall z t, within (b r / 2) t -> close E z t -> within (b r) z). { intros z t Wt Cz j. replace (z j) with (t j + (z j - t j)) by ring. eapply Rle_trans; [apply Rabs_triang|]. pose proof (Wt j). pose proof (Cz j). lra. }
    destruct (stage_step (fst (fstage k f h)) (snd (fstage k f h)) x1 p1 (fst e1) (snd e1) E s1 s2) as (x2 & p2 & H1 & H2 & H3 & H4); auto.
    { now apply (Wi x1 (fst e1)). } { now apply (Wi p1 (snd e1)). } { lra. }
    exists x2, p2. split; [exact H1|]. split; [exact H2|]. split; intros j; (eapply Rle_trans; [first [apply H3|apply H4]|exact ES]).
Qed.
End Proofs.

Lemma holds_flipped prec top f x : holds prec top f x -> holds prec top (flipped f) (fun j => - x j).
Proof. intros H c i. destruct (H c i) as (E & F). unfold flipped. rewrite E. split; [reflexivity|]. apply float_opp. exact F. Qed.

(** ** Energies *)
Lemma Rabs_le_7 a1 a2 a3 a4 a5 a6 a7 b1 b2 b3 b4 b5 b6 b7 c : Rabs a1 <= b1 -> Rabs a2 <= b2 -> Rabs a3 <= b3 -> Rabs a4 <= b4 -> Rabs a5 <= b5 -> Rabs a6 <= b6 -> Rabs a7 <= b7 -> b1 + b2 + b3 + b4 + b5 + b6 + b7 <= c ->
  Rabs (a1 + a2 + a3 + a4 + a5 + a6 + a7) <= c.
Proof. intros H1 H2 H3 H4 H5 H6 H7 H. repeat match goal with X : Rabs _ <= _ |- _ => apply Rabs_le_inv in X; destruct X end. apply Rabs_le. split; lra. Qed.
Lemma rsum_close (f h : nat -> R) d l : (forall i, In i l -> Rabs (f i - h i) <= d) -> Rabs (rsum (map f l) - rsum (map h l)) <= INR (length l) * d.
Proof.
  induction l as [|i l IH]; intros H; [cbn; rewrite Rminus_0_r, Rabs_R0; lra|]. cbn [map length]. change (rsum (f i :: map f l)) with (f i + rsum (map f l)). change (rsum (h i :: map h l)) with (h i + rsum (map h l)). rewrite S_INR.
  replace (f i + rsum (map f l) - (h i + rsum (map h l))) with ((f i - h i) + (rsum (map f l) - rsum (map h l))) by ring. eapply Rle_trans; [apply Rabs_triang|]. pose proof (H i (or_introl eq_refl)). specialize (IH (fun j Hj => H j (or_intror Hj))). lra.
Qed.
Lemma metropolis_close x y x' y' d e : Rabs (x - x') <= d -> Rabs (y - y') <= e -> Rabs (metropolis x y - metropolis x' y') <= d + e.
Proof.
  assert (M : forall s t, s <= t -> 0 <= Rmin 1 (exp t) - Rmin 1 (exp s) <= t - s).
  { intros s t H. pose proof (exp_pos s) as Ps. destruct H as [H|<-]; [|lra]. pose proof (exp_increasing s t H). unfold Rmin. destruct (Rle_dec 1 (exp t)), (Rle_dec 1 (exp s)); try lra.
    - split; [lra|]. assert (s < 0) by (apply exp_lt_inv; rewrite exp_0; lra). assert (0 <= t) by (destruct (Rle_or_lt 0 t); [assumption|]; pose proof (exp_increasing t 0); rewrite exp_0 in *; lra). pose proof (exp_ineq1_le s). lra.
    - split; [lra|]. assert (t < 0) by (apply exp_lt_inv; rewrite exp_0; lra). pose proof (exp_ineq1_le (s - t)) as Q. assert (exp s = exp t * exp (s - t)) by (rewrite <- exp_plus; f_equal; ring). pose proof (exp_pos t). pose proof (exp_pos (s - t)).
      replace (exp t - exp s) with (exp t * (1 - exp (s - t))) by lra. apply Rle_trans with (1 * (1 - exp (s - t))); [apply Rmult_le_compat_r; [|lra]|lra]. assert (exp (s - t) <= 1); [|lra]. rewrite <- exp_0. left. apply exp_increasing. lra. }
  intros D E. unfold metropolis. apply Rabs_le_inv in D, E. set (s := x - y) in *. set (t := x' - y') in *. assert (Rabs (s - t) <= d + e) by (apply Rabs_le; unfold s, t; lra).
  destruct (Rle_or_lt s t) as [H1|H1]; [pose proof (M s t H1)|pose proof (M t s ltac:(lra))]; (eapply Rle_trans; [|eassumption]); unfold Rabs at 1; destruct Rcase_abs; unfold Rabs; destruct Rcase_abs; lra.
Qed.
Section Energy.
Variables prec top : Z.
Hypothesis A : ample prec top.
Let W : wide prec top := proj1 A.
Notation u := (unit_roundoff prec).
Notation b e := (bpow radix2 e).
Notation near := (nearest prec top).
Notation float := (is_float prec top).
Variables (L : vec -> nat -> R) (fl : fstate -> nat -> ext) (mass : nat -> R) (N : nat) (ps : nat -> plan) (lambda Lip : R) (r s v : Z).
Hypothesis R0 : (0 <= r)%Z. Hypothesis S0 : (0 <= s)%Z. Hypothesis V0 : (0 <= v <= prec)%Z. Hypothesis RS : (2 * r + s + prec + 6 <= top)%Z.
Hypothesis NV : INR N <= b v.
Hypothesis PL : forall c, adds_up (ps c) N.
Hypothesis Fm : forall i, float (mass i) /\ b (- s) <= mass i.
Hypothesis SL : steady (b r) Lip L. Hypothesis EL : evaluates prec top (b r) lambda fl L.
Hypothesis Lip0 : 0 <= Lip.
Notation fmass := (fun i => Fi (mass i)).
Notation T := (2 * r + s)%Z.

Lemma inverse i : 0 < / mass i <= b s.
Proof.
  destruct (Fm i) as (_ & H). pose proof (bpow_gt_0 radix2 (- s)). split; [apply Rinv_0_lt_compat; lra|]. replace s with (- - s)%Z by lia. rewrite (bpow_opp radix2 (- s)). apply Rinv_le; lra.
Qed.
Lemma kinetic_term p i : float p -> Rabs p <= b r -> exists t, fdiv prec top (fmul prec top (Fi p) (Fi p)) (Fi (mass i)) = Fi t /\ float t /\ Rabs t <= b T /\ Rabs (t - p * p / mass i) <= u * b T.
Proof.
  intros Fp P. pose proof (top_big prec top A) as TB. pose proof A as (_ & p3 & _). pose proof (u_pos prec) as U. pose proof (inverse i) as I. pose proof (bpow_gt_0 radix2 s) as Bs. pose proof (bpow_gt_0 radix2 (2 * r)) as B2.
  assert (BT : b T = b (2 * r) * b s) by apply bpow_plus.
  assert (P2 : Rabs (p * p) <= b (2 * r)). { rewrite Rabs_mult. replace (2 * r)%Z with (r + r)%Z by lia. rewrite bpow_plus. apply Rmult_le_compat; auto using Rabs_pos. }
  destruct (fmul_near prec top A p p (2 * r) ltac:(lia) ltac:(lia) P2) as (E & F & B). rewrite E. pose proof (near_binade prec top A (p * p) (2 * r) ltac:(lia) P2) as D. set (t := near (p * p)) in *.
  assert (Q : Rabs (t / mass i) <= b T). { unfold Rdiv. rewrite Rabs_mult, (Rabs_pos_eq (/ _)) by lra. rewrite BT. apply Rmult_le_compat; try lra. apply Rabs_pos. }
  rewrite fdiv_fi by (destruct (Fm i) as (_ & H); pose proof (bpow_gt_0 radix2 (- s)); lra). destruct (float_near prec top A (t / mass i)) as (E2 & F2); [eapply Rle_trans; [exact Q|apply bpow_le; lia]|]. rewrite E2. exists (near (t / mass i)). split; [reflexivity|]. split; [exact F2|].
  split; [apply (near_bpow prec top W); [lia|exact Q]|]. pose proof (near_binade prec top A (t / mass i) T ltac:(lia) Q) as D2.
  replace (near (t / mass i) - p * p / mass i) with ((near (t / mass i) - t / mass i) + (t - p * p) * / mass i) by (unfold Rdiv; ring). eapply Rle_trans; [apply Rabs_triang|]. rewrite Rabs_mult, (Rabs_pos_eq (/ _)) by lra.
  assert (Rabs (t - p * p) * / mass i <= u * b (2 * r) / 2 * b s) by (apply Rmult_le_compat; try lra; apply Rabs_pos). rewrite BT in *. lra.
Qed.
Lemma hamiltonian_near f h x p q w d c : holds prec top f x -> holds prec top h p -> within (b r) x -> within (b r) p -> within (b r) q -> within (b r) w -> 0 <= d -> close d x q -> close d p w ->
  exists H l, fhamiltonian prec top N fl fmass ps f h c = (Fi H, Fi l) /\ float H /\
    Rabs (H - energy L N mass q w c) <= energy_error prec (b r) (b s) (b v) lambda Lip d.
Proof.
  intros Hf Hh Wx Wp Wq Ww Pd Cx Cp. pose proof (top_big prec top A) as TB. pose proof A as (_ & p3 & _). pose proof (u_pos prec) as U. pose proof (bpow_gt_0 radix2 T) as BT0. pose proof (bpow_gt_0 radix2 s) as Bs. pose proof (bpow_gt_0 radix2 r) as Br. pose proof (pos_INR N) as N0.
  assert (V1 : 1 <= b v) by (apply (bpow_le radix2 0); lia). assert (BT : b T = b r * b r * b s) by (rewrite <- !bpow_plus; f_equal; lia).
  destruct (EL f x Hf Wx c) as (l & El & Fl & Dl & Bl). pose proof (SL x q d Wx Wq Cx c) as DL.
  set (term := fun i => match fdiv prec top (fmul prec top (h c i) (h c i)) (Fi (mass i)) with Fi t => t | _ => 0 end).
  assert (HT : forall i, fdiv prec top (fmul prec top (h c i) (h c i)) (Fi (mass i)) = Fi (term i) /\ float (term i) /\ Rabs (term i) <= b T /\ Rabs (term i - p (c, i) * p (c, i) / mass i) <= u * b T).
  { intros i. unfold term. destruct (Hh c i) as (E & F). rewrite E. destruct (kinetic_term (p (c, i)) i F (Wp _)) as (t & Et & Ft & Bt & Dt). rewrite Et. auto. }
  set (ts := map term (seq 0 N)). assert (Lt : length ts = N) by (unfold ts; now rewrite map_length, seq_length).
  assert (NP : (Z.of_nat N <= 2 ^ prec)%Z). { apply le_IZR. rewrite <- INR_IZR_INZ. eapply Rle_trans; [exact NV|]. change (2 ^ prec)%Z with (Zpower radix2 prec). rewrite (IZR_Zpower radix2) by lia. apply bpow_le. lia. }
  destruct (list_sum prec top A ts (ps c) T) as (S & ES & FS & DS); [apply Forall_map, Forall_forall; intros i _; apply HT|apply Forall_map, Forall_forall; intros i _; apply HT|now rewrite Lt|now rewrite Lt|lia|]. rewrite Lt in DS.
  assert (K1 : Rabs (rsum ts - rsum (map (fun i => p (c, i) * p (c, i) / mass i) (seq 0 N))) <= INR N * (u * b T)).
  { unfold ts. rewrite <- (seq_length N 0) at 3. apply rsum_close. intros i _. apply HT. }
  assert (K2 : Rabs (rsum (map (fun i => p (c, i) * p (c, i) / mass i) (seq 0 N)) - rsum (map (fun i => w (c, i) * w (c, i) / mass i) (seq 0 N))) <= INR N * (2 * b r * d * b s)).
  { rewrite <- (seq_length N 0) at 3. apply rsum_close. intros i _. replace (p (c, i) * p (c, i) / mass i - w (c, i) * w (c, i) / mass i) with ((p (c, i) + w (c, i)) * (p (c, i) - w (c, i)) * / mass i) by (unfold Rdiv; ring).
    pose proof (inverse i) as I. rewrite !Rabs_mult, (Rabs_pos_eq (/ _)) by lra. apply Rmult_le_compat; [apply Rmult_le_pos; apply Rabs_pos|lra| |lra]. apply Rmult_le_compat; try apply Rabs_pos; [|apply Cp]. eapply Rle_trans; [apply Rabs_triang|]. pose proof (Wp (c, i)). pose proof (Ww (c, i)). lra. }
  assert (Sz : Rabs (rsum ts) <= INR N * b T). { rewrite <- Lt. apply rsum_bounded. apply Forall_map, Forall_forall. intros i _. apply HT. }
  assert (NU : INR N * u <= 1) by (apply (nu_1 prec top A), NP).
  set (NB := INR N * b T) in *. assert (NB0 : 0 <= NB) by (apply Rmult_le_pos; lra). assert (NBV : NB <= b (T + v)). { unfold NB. rewrite (bpow_plus radix2 T v), Rmult_comm. apply Rmult_le_compat_l; lra. }
  assert (S3 : Rabs S <= 3 * NB). { replace S with (rsum ts + (S - rsum ts)) by ring. eapply Rle_trans; [apply Rabs_triang|]. assert (2 * INR N * INR N * u * b T <= 2 * NB); [|lra]. replace (2 * INR N * INR N * u * b T) with (2 * NB * (INR N * u)) by (unfold NB; ring). apply Rle_trans with (2 * NB * 1); [apply Rmult_le_compat_l; lra|lra]. }
  assert (SH : Rabs (1 / 2 * S) <= b (T + v + 1)). { rewrite Rabs_mult, (Rabs_pos_eq (1 / 2)) by lra. rewrite b_twice. lra. }
  destruct (fmul_near prec top A (1 / 2) S (T + v + 1) ltac:(lia) ltac:(lia) SH) as (EK & FK & BK). pose proof (near_binade prec top A (1 / 2 * S) (T + v + 1) ltac:(lia) SH) as DK. set (k := near (1 / 2 * S)) in *.
  assert (BRT : b r * b r <= b (T + v + 1)) by (rewrite <- bpow_plus; apply bpow_le; lia).
  assert (SA : Rabs (- l + k) <= b (T + v + 2)). { replace (T + v + 2)%Z with (T + v + 1 + 1)%Z by lia. rewrite b_twice. eapply Rle_trans; [apply Rabs_triang|]. rewrite Rabs_Ropp. lra. }
  destruct (fadd_near prec top A (- l) k (T + v + 2) ltac:(lia) ltac:(lia) SA) as (EH & FH & BH). pose proof (near_binade prec top A (- l + k) (T + v + 2) ltac:(lia) SA) as DH.
  exists (near (- l + k)), (- - l). split; [|split; [exact FH|]].
  - unfold fhamiltonian. rewrite El. cbn [eneg]. rewrite (map_ext _ (fun i => Fi (term i)) (fun i => proj1 (HT i))). rewrite <- (map_map term Fi). fold ts. rewrite ES, EK, EH. reflexivity.
  - unfold energy, energy_error. rewrite <- BT. replace (T + v + 2)%Z with (T + v + 1 + 1)%Z in DH by lia. rewrite (b_twice (T + v + 1)), (b_twice (T + v)), (bpow_plus radix2 T v) in DH. rewrite (b_twice (T + v)), (bpow_plus radix2 T v) in DK. set (R1 := rsum (map (fun i => w (c, i) * w (c, i) / mass i) (seq 0 N))) in *. set (R2 := rsum (map (fun i => p (c, i) * p (c, i) / mass i) (seq 0 N))) in *.
    replace (near (- l + k) - (- L q c + / 2 * R1)) with ((near (- l + k) - (- l + k)) + (- (l - L x c)) + (- (L x c - L q c)) + (k - 1 / 2 * S) + / 2 * (S - rsum ts) + / 2 * (rsum ts - R2) + / 2 * (R2 - R1)) by field.
    apply Rabs_le_7 with (u * (2 * (2 * (b T * b v))) / 2) lambda (Lip * d) (u * (2 * (b T * b v)) / 2) (/ 2 * (2 * INR N * INR N * u * b T)) (/ 2 * (INR N * (u * b T))) (/ 2 * (INR N * (2 * b r * d * b s))); try rewrite Rabs_Ropp; try (rewrite Rabs_mult, (Rabs_pos_eq (/ 2)) by lra; apply Rmult_le_compat_l; [lra|assumption]); try assumption.
    assert (BV : b v <= b v * b v) by (apply Rle_trans with (b v * 1); [lra|apply Rmult_le_compat_l; lra]). assert (NN : INR N * INR N <= b v * b v) by (apply Rmult_le_compat; lra).
    assert (UT : 0 < u * b T) by (apply Rmult_lt_0_compat; lra). set (ut := u * b T) in *.
    assert (X1 : ut * b v <= ut * (b v * b v)) by (apply Rmult_le_compat_l; lra). assert (X2 : ut * (INR N * INR N) <= ut * (b v * b v)) by (apply Rmult_le_compat_l; lra). assert (X3 : ut * INR N <= ut * b v) by (apply Rmult_le_compat_l; lra).
    assert (X4 : INR N * (b r * d * b s) <= b v * (b r * d * b s)) by (apply Rmult_le_compat_r; [repeat apply Rmult_le_pos; lra|lra]).
    assert (X5 : 0 <= ut * (b v * b v)) by (repeat apply Rmult_le_pos; lra).
    replace (u * (2 * (2 * (b T * b v))) / 2) with (2 * (ut * b v)) by (unfold ut; field). replace (u * (2 * (b T * b v)) / 2) with (ut * b v) by (unfold ut; field). replace (/ 2 * (2 * INR N * INR N * u * b T)) with (ut * (INR N * INR N)) by (unfold ut; field). replace (/ 2 * (INR N * ut)) with (ut * INR N / 2) by field.
    replace (5 * b v * b v * u * b T) with (5 * (ut * (b v * b v))) by (unfold ut; ring). replace ((Lip + b v * b s * b r) * d) with (Lip * d + b v * (b r * d * b s)) by ring. lra.
Qed.

(** ** The momentum *)
Lemma momentum_near z i : float z -> Rabs (z * sqrt (mass i)) <= b r / 2 ->
  exists p, fmul prec top (Fi z) (fsqrt prec top (Fi (mass i))) = Fi p /\ float p /\ Rabs (p - z * sqrt (mass i)) <= u * b r.
Proof.
  intros Fz H. pose proof (top_big prec top A) as TB. pose proof A as (_ & p3 & _). pose proof (u_pos prec) as U. pose proof (bpow_gt_0 radix2 r) as Br. destruct (Fm i) as ((_ & Mt) & Mm). pose proof (bpow_gt_0 radix2 (- s)) as Bm. rewrite Rabs_pos_eq in Mt by lra.
  assert (SU : sqrt (mass i) <= b (top - 1)). { rewrite <- (sqrt_square (b (top - 1))) by apply bpow_ge_0. apply sqrt_le_1_alt. rewrite <- bpow_plus. apply Rlt_le, Rlt_le_trans with (1 := Mt). apply bpow_le. lia. }
  assert (SLo : b (- s) <= sqrt (mass i)). { rewrite <- (sqrt_square (b (- s))) by lra. apply sqrt_le_1_alt. apply Rle_trans with (b (- s) * 1); [apply Rmult_le_compat_l; [lra|]; apply (bpow_le radix2 _ 0); lia|lra]. }
  unfold fsqrt. destruct (Rlt_dec (mass i) 0) as [X|_]; [lra|]. destruct (float_near prec top A (sqrt (mass i))) as (E & F); [rewrite Rabs_pos_eq; [exact SU|apply sqrt_pos]|]. rewrite E.
  destruct (factor_normal prec top A (sqrt (mass i))) as (g & Eg & Bg). { rewrite Rabs_pos_eq by apply sqrt_pos. eapply Rle_trans; [|exact SLo]. apply bpow_le. lia. }
  rewrite Eg. set (y := z * sqrt (mass i)) in *. replace (z * (sqrt (mass i) * g)) with (y * g) by (unfold y; ring). assert (u8 : u <= 1 / 8) by apply (u_eighth prec top A).
  assert (G : Rabs (y * g - y) <= u * b r / 2). { replace (y * g - y) with (y * (g - 1)) by ring. rewrite Rabs_mult. apply Rle_trans with (b r / 2 * (1 * u)); [apply Rmult_le_compat; auto using Rabs_pos|lra]. }
  assert (YG : Rabs (z * (sqrt (mass i) * g)) <= b r). { replace (z * (sqrt (mass i) * g)) with (y + (y * g - y)) by (unfold y; ring). eapply Rle_trans; [apply Rabs_triang|]. assert (u * b r <= 1 / 8 * b r) by (apply Rmult_le_compat_r; lra). lra. }
  destruct (fmul_near prec top A z (sqrt (mass i) * g) r ltac:(lia) ltac:(lia) YG) as (E2 & F2 & _). pose proof (near_binade prec top A _ r ltac:(lia) YG) as D2. exists (near (z * (sqrt (mass i) * g))). split; [exact E2|]. split; [exact F2|].
  match goal with |- Rabs (?n - _) <= _ => replace (n - y) with ((n - z * (sqrt (mass i) * g)) + (y * g - y)) by (unfold y; ring) end. eapply Rle_trans; [apply Rabs_triang|]. lra.
Qed.
End Energy.
