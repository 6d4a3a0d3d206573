(** C71: the leapfrog integrator and a whole HMC iteration in floating-point arithmetic. *)
From Coq Require Import List Arith Bool Reals ZArith Lra Lia Permutation FunctionalExtensionality.
From Flocq Require Import Core.
From Verif Require Import ModelExt ModelSpecial ModelNum ModelHMC ModelFloat ModelFloatSample ModelFloatTune ModelFloatMass SpecFloat SpecFloatImportance SpecFloatLeapfrog ProofFloat ProofFloatSample ProofFloatDensity ProofFloatTune ProofFloatImportance ProofFloatLeapfrog PropFloat PropHMC.
Import ListNotations.
Local Open Scope R_scope.

Section Format.
Variables prec top : Z.
Hypothesis A : ample prec top.
Let W : wide prec top := proj1 A.
Notation u := (unit_roundoff prec).
Notation b e := (bpow radix2 e).
Notation near := (nearest prec top).
Notation float := (is_float prec top).

Section Trajectory.
(** States of size at most 2 ^ r, masses of at least 2 ^ (- s); the gradient [g] of the log
    posterior has Lipschitz constant [K] and [fg] computes it up to [delta]. *)
Variables (g : vec -> vec) (fg : fstate -> fstate) (mass : nat -> R) (n : nat) (eps K delta : R) (r s : Z).
Hypothesis R1 : (prec + 3 - top <= r)%Z. Hypothesis S0 : (0 <= s)%Z. Hypothesis RS : (r + s + 2 <= top)%Z.
Hypothesis Feps : float eps. Hypothesis E0 : b (3 - top) <= eps <= 1.
Hypothesis K0 : 0 <= K. Hypothesis D0 : 0 <= delta.
Hypothesis Fm : forall i, float (mass i) /\ b (- s) <= mass i.
Hypothesis SG : smooth (b r) K g.
Hypothesis CG : computes prec top (b r) delta fg g.
Notation G := (error_growth eps K (b s)).
Notation w := (step_error prec (b r) eps K (b s) delta).
Notation device f h := (fleapfrog prec top fg (fun i => Fi (mass i)) n (Fi eps) f h).
Notation exact q p := (exact_leapfrog g mass n eps q p).
(** The error after n leapfrog steps from a state known up to [d]. *)
Notation error d := (G ^ S n * (d + INR (S n) * w)).

Lemma from_near f h x p q v d : holds prec top f x -> holds prec top h p -> close d x q -> close d p v -> 0 <= d -> stays (b r) g mass n eps q v -> error d <= b r / 2 ->
  exists x' p', holds prec top (fst (device f h)) x' /\ holds prec top (snd (device f h)) p' /\ close (error d) x' (fst (exact q v)) /\ close (error d) p' (snd (exact q v)).
Proof.
  intros Hf Hh Cx Cp Pd St Hb. unfold exact_leapfrog, leapfrog. replace (Z.to_nat (Z.of_nat n + 1)) with (S n) by lia.
  apply (stages prec top A g fg mass n eps K delta r s R1 S0 RS Feps E0 K0 D0 Fm SG CG f h x p q v d (S n)); auto.
Qed.
(** Accuracy of the integrator: started at floats whose exact trajectory stays within half
    of the range, it returns floats close to the end of the exact trajectory. *)
Theorem C71_leapfrog f h q p : holds prec top f q -> holds prec top h p -> stays (b r) g mass n eps q p -> error 0 <= b r / 2 ->
  exists q' p', holds prec top (fst (device f h)) q' /\ holds prec top (snd (device f h)) p' /\
    close (error 0) q' (fst (exact q p)) /\ close (error 0) p' (snd (exact q p)).
Proof.
  intros Hf Hh St Hb. apply (from_near f h q p q p 0); auto; try lra; intros j; rewrite Rminus_eq_0, Rabs_R0; lra.
Qed.
(** Approximate reversibility: integrating, flipping the momentum and integrating again
    returns near the start. *)
Theorem C71_reversible f h q p : holds prec top f q -> holds prec top h p -> stays (b r) g mass n eps q p ->
  stays (b r) g mass n eps (fst (exact q p)) (fun j => - snd (exact q p) j) -> error (error 0) <= b r / 2 ->
  let f' := fst (device f h) in let h' := snd (device f h) in
  exists q'' p'', holds prec top (fst (device f' (flipped h'))) q'' /\ holds prec top (snd (device f' (flipped h'))) p'' /\
    close (error (error 0)) q'' q /\ close (error (error 0)) p'' (fun j => - p j).
Proof.
  intros Hf Hh St St' Hb f' h'. pose proof (G_1 top eps K s E0 K0) as G1. pose proof (w_0 prec top eps K delta r s E0 K0 D0) as w0. pose proof (pos_INR (S n)) as Sn. assert (0 <= INR (S n) * w) by (apply Rmult_le_pos; lra).
  assert (GK : 1 <= G ^ S n) by (apply pow_R1_Rle; exact G1). assert (E00 : 0 <= error 0) by (apply Rmult_le_pos; lra). assert (X : error 0 <= error (error 0)) by (apply Rmult_le_compat_l; lra).
  destruct (C71_leapfrog f h q p Hf Hh St ltac:(lra)) as (q' & p' & Hq' & Hp' & Cq' & Cp'). apply holds_flipped in Hp'.
  destruct (from_near f' (flipped h') q' (fun j => - p' j) (fst (exact q p)) (fun j => - snd (exact q p) j) (error 0) Hq' Hp' Cq') as (q'' & p'' & H1 & H2 & C1 & C2); auto.
  { intros j. replace (- p' j - - snd (exact q p) j) with (- (p' j - snd (exact q p) j)) by ring. rewrite Rabs_Ropp. apply Cp'. }
  exists q'', p''. split; [exact H1|]. split; [exact H2|]. assert (Rv : exact (fst (exact q p)) (fun j => - snd (exact q p) j) = (q, fun j => - p j)) by (unfold exact_leapfrog; apply C24_reversible; [lia|apply surjective_pairing]).
  rewrite Rv in C1, C2. auto.
Qed.
End Trajectory.

Section Iteration.
Variables (libexp : R -> R) (libpow : R -> R -> R).
Hypothesis FE : faithful_exp prec top libexp.
Variables (g : vec -> vec) (fg : fstate -> fstate) (L : vec -> nat -> R) (fl : fstate -> nat -> ext) (mass : nat -> R) (n : nat) (eps K delta lambda Lip : R) (N : nat) (ps : nat -> plan) (r s v : Z).
Hypothesis R0 : (0 <= r)%Z. Hypothesis S0 : (0 <= s)%Z. Hypothesis V0 : (0 <= v <= prec)%Z. Hypothesis RS : (2 * r + s + prec + 6 <= top)%Z.
Hypothesis NV : INR N <= b v.
Hypothesis PL : forall c, adds_up (ps c) N.
Hypothesis Feps : float eps. Hypothesis E0 : b (3 - top) <= eps <= 1.
Hypothesis K0 : 0 <= K. Hypothesis D0 : 0 <= delta. Hypothesis L0 : 0 <= Lip.
Hypothesis Fm : forall i, float (mass i) /\ b (- s) <= mass i.
Hypothesis SG : smooth (b r) K g.
Hypothesis CG : computes prec top (b r) delta fg g.
Hypothesis SL : steady (b r) Lip L.
Hypothesis EL : evaluates prec top (b r) lambda fl L.
Notation G := (error_growth eps K (b s)).
Notation w := (step_error prec (b r) eps K (b s) delta).
Notation exact q p := (exact_leapfrog g mass n eps q p).
Notation E := (G ^ S n * (u * b r + INR (S n) * w)).
Notation rate_error := (2 * energy_error prec (b r) (b s) (b v) lambda Lip E + 2 * u).
(** The acceptance probability of the exact sampler. *)
Notation rate q p c := (metropolis (energy L N mass q p c) (energy L N mass (fst (exact q p)) (snd (exact q p)) c)).

(** A whole iteration with the mass [mass]: in each chain the position either stays or moves
    close to the end of the exact trajectory, and the decision is that of the exact sampler
    unless the uniform number is within [rate_error] of the exact acceptance probability. *)
Theorem C71_iteration chains pm pv decay mass_collect_iters st st' f t x q z : holds prec top f q ->
  fadapt_mass prec top libpow chains pm pv decay mass_collect_iters st (in_adapt x) t f = (st', fun i => Fi (mass i)) ->
  in_leapfrogs x = n -> in_step_size x = Fi eps -> holds prec top (in_normal x) z ->
  let p : vec := fun j => z j * sqrt (mass (snd j)) in
  stays (b r) g mass n eps q p -> E <= b r / 2 ->
  exists f', fiteration prec top libexp libpow chains N fg fl ps pm pv decay mass_collect_iters st f t x = Some (st', f') /\
    forall c, ((forall i, f' c i = f c i) \/ exists y, (forall i, f' c i = Fi (y i) /\ float (y i) /\ Rabs (y i - fst (exact q p) (c, i)) <= E)) /\
      forall U, in_uniform x c = Fi U ->
        (U < rate q p c - rate_error -> exists y, (forall i, f' c i = Fi (y i) /\ float (y i) /\ Rabs (y i - fst (exact q p) (c, i)) <= E)) /\
        (rate q p c + rate_error <= U -> forall i, f' c i = f c i).
Proof.
  intros Hf Hm Hn He Hz p St Hb. pose proof A as (_ & p3 & _). pose proof (u_pos prec) as U0. pose proof (bpow_gt_0 radix2 r) as Br. assert (u8 : u <= 1 / 8) by apply (u_eighth prec top A).
  pose proof (G_1 top eps K s E0 K0) as G1. pose proof (w_0 prec top eps K delta r s E0 K0 D0) as w0. pose proof (pos_INR (S n)) as Sn. assert (W0 : 0 <= INR (S n) * w) by (apply Rmult_le_pos; lra).
  assert (GK : 1 <= G ^ S n) by (apply pow_R1_Rle; exact G1). assert (UB : 0 <= u * b r) by (apply Rmult_le_pos; lra).
  assert (DE : u * b r <= E) by (apply Rle_trans with (1 * (u * b r + INR (S n) * w)); [lra|apply Rmult_le_compat_r; lra]).
  destruct (St 0%nat ltac:(lia)) as (Wq & Wp). cbn [leapfrog_loop fst snd] in Wq, Wp.
  pose proof (St (S n) ltac:(lia)) as We. replace (leapfrog_loop g (fun j => mass (snd j)) (S n) (Z.of_nat n) eps 0 (q, p)) with (exact q p) in We by (unfold exact_leapfrog, leapfrog; replace (Z.to_nat (Z.of_nat n + 1)) with (S n) by lia; reflexivity). destruct We as (We1 & We2).
  set (h := fun c i => fmul prec top (in_normal x c i) (fsqrt prec top (Fi (mass i)))).
  set (p0 := fun j : nat * nat => match h (fst j) (snd j) with Fi y => y | _ => 0 end).
  assert (Hp : holds prec top h p0 /\ close (u * b r) p0 p).
  { assert (X : forall c i, exists y, h c i = Fi y /\ float y /\ Rabs (y - z (c, i) * sqrt (mass i)) <= u * b r). { intros c i. unfold h. destruct (Hz c i) as (-> & Fz). apply (momentum_near prec top A mass r s); auto; try lia. apply (Wp (c, i)). }
    split; [intros c i|intros (c & i)]; destruct (X c i) as (y & Ey & Fy & Dy); unfold p0; cbn [fst snd]; rewrite Ey; auto. }
  destruct Hp as (Hp & Cp). assert (Cq : forall d, 0 <= d -> close d q q) by (intros d Hd j; now rewrite Rminus_eq_0, Rabs_R0).
  assert (Wi : forall (a c : vec) d, within (b r / 2) c -> close d a c -> d <= b r / 2 -> within (b r) a). { intros a c d Wt Cz Hd j. replace (a j) with (c j + (a j - c j)) by ring. eapply Rle_trans; [apply Rabs_triang|]. pose proof (Wt j). pose proof (Cz j). lra. }
  assert (Wh : forall c : vec, within (b r / 2) c -> within (b r) c) by (intros c Hc j; pose proof (Hc j); lra).
  destruct (from_near g fg mass n eps K delta r s ltac:(lia) S0 ltac:(lia) Feps E0 K0 D0 Fm SG CG f h q p0 q p (u * b r) Hf Hp (Cq _ UB) Cp UB St Hb) as (q1 & p1 & Hq1 & Hp1 & Cq1 & Cp1).
  set (res := fleapfrog prec top fg (fun i => Fi (mass i)) n (Fi eps) f h) in *.
  assert (HE : 0 <= E) by lra.
  assert (Mo : forall d, 0 <= d <= E -> energy_error prec (b r) (b s) (b v) lambda Lip d <= energy_error prec (b r) (b s) (b v) lambda Lip E).
  { intros d Hd. unfold energy_error. pose proof (bpow_gt_0 radix2 s). pose proof (bpow_gt_0 radix2 v). assert (0 <= b v * b s * b r) by (repeat apply Rmult_le_pos; lra). assert ((Lip + b v * b s * b r) * d <= (Lip + b v * b s * b r) * E) by (apply Rmult_le_compat_l; lra). lra. }
  assert (Old : forall c, exists H l, fhamiltonian prec top N fl (fun i => Fi (mass i)) ps f h c = (Fi H, Fi l) /\ float H /\ Rabs (H - energy L N mass q p c) <= energy_error prec (b r) (b s) (b v) lambda Lip E).
  { intros c. destruct (hamiltonian_near prec top A L fl mass N ps lambda Lip r s v R0 S0 V0 RS NV PL Fm SL EL f h q p0 q p (u * b r) c) as (H & l & H1 & H2 & H3); auto; [apply (Wi p0 p (u * b r)); auto; nra|]. exists H, l. split; [exact H1|]. split; [exact H2|]. eapply Rle_trans; [exact H3|]. apply Mo. lra. }
  assert (New : forall c, exists H l, fhamiltonian prec top N fl (fun i => Fi (mass i)) ps (fst res) (snd res) c = (Fi H, Fi l) /\ float H /\ Rabs (H - energy L N mass (fst (exact q p)) (snd (exact q p)) c) <= energy_error prec (b r) (b s) (b v) lambda Lip E).
  { intros c. apply (hamiltonian_near prec top A L fl mass N ps lambda Lip r s v R0 S0 V0 RS NV PL Fm SL EL) with q1 p1; auto; [apply (Wi q1 (fst (exact q p)) E); auto|apply (Wi p1 (snd (exact q p)) E); auto]. }
  unfold fiteration. rewrite Hm, Hn, He. fold h. fold res. rewrite (surjective_pairing res). cbv zeta.
  assert (Fin : forallb (fun c => is_finite (snd (fhamiltonian prec top N fl (fun i => Fi (mass i)) ps f h c))) (seq 0 chains) = true). { apply forallb_forall. intros c _. destruct (Old c) as (H & l & -> & _). reflexivity. }
  rewrite Fin. eexists. split; [reflexivity|]. intros c. cbv beta.
  destruct (Old c) as (H0 & l0 & EO & FO & DO), (New c) as (H1 & l1 & EN & FN & DN). rewrite EO, EN. cbn [fst snd].
  destruct (C55_acceptance prec top libexp (proj1 A) FE (Fi H0) (Fi H1) (Fi l1)) as (_ & Ac); [intros h0 [-> | ->]; assumption|]. destruct (Ac H0 H1 l1 eq_refl eq_refl eq_refl) as (a & Ea & _ & Da). rewrite Ea.
  assert (RA : Rabs (a - rate q p c) <= rate_error).
  { pose proof (metropolis_close H0 H1 _ _ _ _ DO DN) as M. replace (a - rate q p c) with ((a - metropolis H0 H1) + (metropolis H0 H1 - rate q p c)) by ring. eapply Rle_trans; [apply Rabs_triang|]. unfold metropolis at 1. lra. }
  apply Rabs_le_inv in RA. assert (Mv : exists y, forall i, fst res c i = Fi (y i) /\ float (y i) /\ Rabs (y i - fst (exact q p) (c, i)) <= E). { exists (fun i => q1 (c, i)). intros i. destruct (Hq1 c i). auto. }
  split; [destruct (ModelNum.eltb (in_uniform x c) (Fi a)); auto|]. intros U ->. unfold ModelNum.eltb. destruct (Rlt_dec U a); split; intros HU; auto; lra.
Qed.
End Iteration.
End Format.
Print Assumptions C71_leapfrog.
Print Assumptions C71_reversible.
Print Assumptions C71_iteration.

(** ** Cases *)
(** A standard normal target, one data entry, mass 1, one step of size 1/2 from position 1/8
    with the momentum 1/8. *)
Section Case.
Variables prec top : Z.
Hypothesis A : ample prec top. Hypothesis P : (10 <= prec)%Z. Hypothesis PT : (prec + 6 <= top)%Z.
Notation u := (unit_roundoff prec).
Definition case_grad (x : vec) : vec := fun j => - x j.
Definition case_log (x : vec) (c : nat) : R := - (1 / 2 * (x (c, 0%nat) * x (c, 0%nat))).
Definition case_flog (f : fstate) (c : nat) : ext := eneg (fmul prec top (Fi (1 / 2)) (fmul prec top (f c 0%nat) (f c 0%nat))).
Definition case_start : vec := fun _ => 1 / 8.
Notation exact q p := (exact_leapfrog case_grad (fun _ => 1) 1 (1 / 2) q p).
Notation error d := (error_growth (1 / 2) 1 (bpow radix2 0) ^ 2 * (d + INR 2 * step_error prec (bpow radix2 0) (1 / 2) 1 (bpow radix2 0) 0)).
Lemma case_u : u <= 1 / 1024.
Proof. unfold unit_roundoff. apply Rle_trans with (bpow radix2 (-10)); [apply bpow_le; lia|cbn; lra]. Qed.
Lemma case_stages q p : (forall j, Rabs (q j) <= 1 / 4) -> (forall j, Rabs (p j) <= 1 / 4) -> stays (bpow radix2 0) case_grad (fun _ => 1) 1 (1 / 2) q p.
Proof.
  intros Q Pp k Hk. destruct k as [|[|[|k]]]; [| | |lia]; cbn [leapfrog_loop Z.ltb Z.compare Z.add Z.of_nat Pos.of_succ_nat Pos.add Pos.succ fst snd Pos.compare Pos.compare_cont leapfrog_body leapfrog_integrator velocity andb]; unfold leapfrog_body, leapfrog_integrator, velocity, case_grad, within;
    cbn [fst snd Z.ltb Z.compare andb Pos.compare Pos.compare_cont bpow]; split; intros j; pose proof (Rabs_le_inv _ _ (Q j)); pose proof (Rabs_le_inv _ _ (Pp j)); apply Rabs_le; lra.
Qed.
Example C71_case : smooth (bpow radix2 0) 1 case_grad /\ computes prec top (bpow radix2 0) 0 flipped case_grad /\ steady (bpow radix2 0) 1 case_log /\ evaluates prec top (bpow radix2 0) u case_flog case_log /\
  stays (bpow radix2 0) case_grad (fun _ => 1) 1 (1 / 2) case_start case_start /\ stays (bpow radix2 0) case_grad (fun _ => 1) 1 (1 / 2) (fst (exact case_start case_start)) (fun j => - snd (exact case_start case_start) j) /\
  error (error 0) <= bpow radix2 0 / 2 /\ error (u * bpow radix2 0) <= bpow radix2 0 / 2.
Proof.
  pose proof (u_pos prec) as U. pose proof case_u as U1. change (bpow radix2 0) with 1. pose proof (top_big prec top A) as TB.
  split; [|split; [|split; [|split; [|split; [|split; [|split]]]]]].
  - intros x y d _ _ C j. unfold case_grad. replace (- x j - - y j) with (- (x j - y j)) by ring. rewrite Rabs_Ropp, Rmult_1_l. apply C.
  - intros f x H Wx. exists (fun j => - x j). split; [now apply holds_flipped|]. split; intros j; [unfold case_grad; rewrite Rminus_eq_0, Rabs_R0; lra|rewrite Rabs_Ropp; apply Wx].
  - intros x y d Wx Wy C c. unfold case_log. set (j := (c, 0%nat)). replace (- (1 / 2 * (x j * x j)) - - (1 / 2 * (y j * y j))) with ((- (1 / 2) * (x j + y j)) * (x j - y j)) by field. rewrite Rabs_mult. apply Rmult_le_compat; try apply Rabs_pos; [|apply C].
    pose proof (Rabs_le_inv _ _ (Wx j)). pose proof (Rabs_le_inv _ _ (Wy j)). apply Rabs_le. lra.
  - intros f x H Wx c. unfold case_flog, case_log. destruct (H c 0%nat) as (-> & F). set (j := (c, 0%nat)) in *. pose proof (Wx j) as B. change 1 with (bpow radix2 0) in B.
    assert (Q : Rabs (x j * x j) <= bpow radix2 0). { rewrite Rabs_mult. replace (bpow radix2 0) with (bpow radix2 0 * bpow radix2 0) by (cbn; ring). apply Rmult_le_compat; auto using Rabs_pos. }
    destruct (fmul_near prec top A (x j) (x j) 0 ltac:(lia) ltac:(lia) Q) as (E1 & F1 & B1). rewrite E1. pose proof (near_binade prec top A (x j * x j) 0 ltac:(lia) Q) as D1. set (t := nearest prec top (x j * x j)) in *.
    assert (Q2 : Rabs (1 / 2 * t) <= bpow radix2 0) by (rewrite Rabs_mult, (Rabs_pos_eq (1 / 2)) by lra; pose proof (Rabs_pos t); lra).
    destruct (fmul_near prec top A (1 / 2) t 0 ltac:(lia) ltac:(lia) Q2) as (E2 & F2 & B2). rewrite E2. pose proof (near_binade prec top A (1 / 2 * t) 0 ltac:(lia) Q2) as D2. set (y := nearest prec top (1 / 2 * t)) in *.
    exists (- y). cbn [eneg]. split; [reflexivity|]. split; [now apply float_opp|]. change (bpow radix2 0) with 1 in *. apply Rabs_le_inv in D1, D2. split; [apply Rabs_le; lra|rewrite Rabs_Ropp; lra].
  - change 1 with (bpow radix2 0). apply case_stages; intros j; unfold case_start; rewrite Rabs_pos_eq; lra.
  - change (stays (bpow radix2 0) case_grad (fun _ => 1) 1 (1 / 2) (fst (exact case_start case_start)) (fun j => - snd (exact case_start case_start) j)).
    apply case_stages; intros j; unfold exact_leapfrog, leapfrog; change (Z.to_nat (Z.of_nat 1 + 1)) with 2%nat;
      cbn [leapfrog_loop Z.ltb Z.compare Z.add Z.of_nat Pos.of_succ_nat Pos.add Pos.succ fst snd Pos.compare Pos.compare_cont]; unfold leapfrog_body, leapfrog_integrator, velocity, case_grad, case_start; cbn [fst snd Z.ltb Z.compare andb Pos.compare Pos.compare_cont]; apply Rabs_le; lra.
  - unfold error_growth, step_error. cbn [INR]. lra.
  - unfold error_growth, step_error. cbn [INR]. lra.
Qed.
End Case.

(** ** Exact reversibility fails *)
(** A flat posterior, mass 1 and one step of size 1: from position 2 ^ prec with momentum 1
    the integrator returns to the same state, and from there with the momentum flipped it
    moves to 2 ^ prec - 1. In real arithmetic (C24_reversible) it would be back at the start. *)
Theorem C71_reversible_refuted prec top : ample prec top ->
  let flat : fstate -> fstate := fun _ _ _ => Fi 0 in
  let move f h := fleapfrog prec top flat (fun _ => Fi 1) 1 (Fi 1) f h in
  let f : fstate := fun _ _ => Fi (bpow radix2 prec) in let h : fstate := fun _ _ => Fi 1 in
  forall c i, fst (move f h) c i = Fi (bpow radix2 prec) /\ snd (move f h) c i = Fi 1 /\
    fst (move (fst (move f h)) (flipped (snd (move f h)))) c i = Fi (bpow radix2 prec - 1).
Proof.
  intros A. pose proof (proj1 A) as W. pose proof A as (_ & p3 & _). pose proof (top_big prec top A) as TB. cbv zeta.
  assert (F1 : is_float prec top 1) by apply (float_1 prec top A). assert (Fm1 : is_float prec top (- (1))) by now apply float_opp. assert (F0 : is_float prec top 0) by apply float_0.
  assert (Q : 1 <= bpow radix2 prec) by (apply (bpow_le radix2 0); lia). assert (pp : (0 < 2 ^ prec)%Z) by (apply Z.pow_pos_nonneg; lia).
  assert (Fb : is_float prec top (bpow radix2 prec)) by (rewrite <- (pow_prec prec top A); apply (float_count prec top A); lia).
  assert (Fc : is_float prec top (bpow radix2 prec - 1)) by (rewrite <- (pow_prec prec top A), <- minus_IZR; apply (float_count prec top A); lia).
  assert (Half : fdiv prec top (Fi 1) (Fi 2) = Fi (1 / 2)) by (apply (half_step prec top 1 F1); split; [apply (bpow_le radix2 _ 0); lia|lra]).
  assert (Fh : is_float prec top (1 / 2)) by (apply (half_step prec top 1 F1); split; [apply (bpow_le radix2 _ 0); lia|lra]).
  assert (D1 : forall x, is_float prec top x -> fdiv prec top (Fi x) (Fi 1) = Fi x) by (intros x Fx; rewrite fdiv_fi by lra; replace (x / 1) with x by field; now apply rounded_float).
  assert (Z0 : forall x, is_float prec top x -> fadd prec top (Fi x) (Fi 0) = Fi x) by (intros x Fx; unfold fadd; cbn [eadd]; rewrite Rplus_0_r; now apply rounded_float).
  assert (H0 : fmul prec top (Fi (1 / 2)) (Fi 0) = Fi 0) by (unfold fmul; cbn [emul]; rewrite Rmult_0_r; now apply rounded_float).
  assert (Go : forall x p y, is_float prec top x -> is_float prec top p -> fadd prec top (Fi x) (Fi p) = Fi y -> forall f h : fstate, (forall c i, f c i = Fi x) -> (forall c i, h c i = Fi p) ->
    forall c i, fst (fleapfrog prec top (fun _ _ _ => Fi 0) (fun _ => Fi 1) 1 (Fi 1) f h) c i = Fi y /\ snd (fleapfrog prec top (fun _ _ _ => Fi 0) (fun _ => Fi 1) 1 (Fi 1) f h) c i = Fi p).
  { intros x p y Fx Fp Ey f h Hf Hh c i. unfold fleapfrog. cbn [seq fold_left Nat.ltb Nat.leb andb]. unfold fleapfrog_integrator. cbn [fst snd]. rewrite Half, Hf, Hh. rewrite H0, (D1 p Fp), (fmul_0_l prec top p Fp), (Z0 x Fx), (Z0 p Fp), (D1 p Fp), (fmul_1_l prec top p Fp), (Z0 p Fp). auto. }
  assert (Up : fadd prec top (Fi (bpow radix2 prec)) (Fi 1) = Fi (bpow radix2 prec)).
  { unfold fadd. cbn [eadd rounded]. rewrite (near_stuck prec top A). apply overflow_small. apply Fb. }
  assert (Down : fadd prec top (Fi (bpow radix2 prec)) (Fi (- (1))) = Fi (bpow radix2 prec - 1)) by (unfold fadd; cbn [eadd]; change (bpow radix2 prec + - (1)) with (bpow radix2 prec - 1); now apply rounded_float).
  pose proof (Go _ _ _ Fb F1 Up (fun _ _ => Fi (bpow radix2 prec)) (fun _ _ => Fi 1) (fun _ _ => eq_refl) (fun _ _ => eq_refl)) as There.
  intros c i. split; [apply There|]. split; [apply There|]. eapply (Go _ _ _ Fb Fm1 Down); [intros; apply There|]. intros c' i'. unfold flipped. rewrite (proj2 (There c' i')). reflexivity.
Qed.
Print Assumptions C71_reversible_refuted.
