(** C64: annealed importance sampling in floating-point arithmetic. *)
From Coq Require Import List Arith Bool Reals ZArith Lra Lia Permutation.
From Flocq Require Import Core.
From Verif Require Import ModelExt ModelSpecial ModelNum ModelFloat ModelFloatSample ModelAIS ModelFloatAIS SpecFloat SpecFloatImportance SpecFloatAIS ProofFloat ProofFloatSample ProofFloatDensity ProofFloatTune ProofFloatSGMCMC ProofFloatMass ProofFloatImportance ProofFloatAIS PropFloat PropFloatSample PropFloatImportance.
Import ListNotations.
Local Open Scope R_scope.

(** ** The schedule: computed in a host format, rounded to the format of the device *)
Section Schedule.
Variables hprec htop prec top : Z.
Hypothesis H : ample hprec htop.
Hypothesis A : ample prec top.
Hypothesis P : (12 <= hprec)%Z.
Variable libexp : R -> R.
Hypothesis FE : faithful_exp hprec htop libexp.
Notation schedule := (fschedule_t hprec htop libexp).
Notation uh := (unit_roundoff hprec).
Notation u := (unit_roundoff prec).

(** It starts at exactly 0 and ends at exactly 1. *)
Theorem C64_schedule_ends n : (0 < n)%nat -> schedule n 0 = Fi 0 /\ schedule n n = Fi 1 /\ fed prec top (schedule n 0) = Fi 0 /\ fed prec top (schedule n n) = Fi 1.
Proof.
  intros N. destruct (temper_spec hprec htop H libexp FE P n N 0 ltac:(lia)) as (E0 & _). destruct (temper_spec hprec htop H libexp FE P n N n ltac:(lia)) as (E1 & _). destruct (temper_ends hprec htop H libexp FE P n N) as (T0 & T1).
  rewrite E0, E1, T0, T1. repeat split; apply (rounded_float prec top); [apply float_0|exact (float_1 prec top A)].
Qed.
(** Every temperature is close to the exact one, as computed and as fed. *)
Theorem C64_schedule_accurate n t : (t <= n)%nat -> (0 < n)%nat ->
  exists x y, schedule n t = Fi x /\ is_float hprec htop x /\ Rabs (x - schedule_t n (INR t)) <= 128 * uh /\
    fed prec top (schedule n t) = Fi y /\ is_float prec top y /\ Rabs (y - schedule_t n (INR t)) <= u + 128 * uh.
Proof.
  intros T N. pose proof (top_big prec top A) as TB. pose proof A as (_ & p3 & _). assert (U : 0 < u) by apply u_pos. destruct (temper_spec hprec htop H libexp FE P n N t T) as (E & F & D). set (x := temper hprec htop libexp n t) in *.
  pose proof (u_small hprec P) as US. assert (S : 0 <= schedule_t n (INR t) <= 1).
  { assert (n0 : 0 < / INR n) by (apply Rinv_0_lt_compat, lt_0_INR; lia). assert (MM : forall a c, a <= c -> map_t n a <= map_t n c). { intros a c L. unfold map_t, Rdiv. rewrite !Rmult_1_l. pose proof (exp_pos (-4 * (2 * c * / INR n - 1))). apply Rinv_le; [lra|]. assert (a * / INR n <= c * / INR n) by (apply Rmult_le_compat_r; lra). apply Rplus_le_compat_l, exp_le. lra. }
    pose proof (MM 0 (INR t) ltac:(apply pos_INR)). pose proof (MM (INR t) (INR n) ltac:(apply le_INR; lia)). destruct (span_big n N) as (S1 & _). change (INR 0) with 0 in S1. unfold schedule_t. set (a := map_t n (INR t) - map_t n 0) in *. set (c := map_t n (INR n) - map_t n 0) in *. assert (0 < / c) by (apply Rinv_0_lt_compat; lra).
    split; [apply Rmult_le_pos; unfold a; lra|]. apply (Rmult_le_reg_r c); [lra|]. unfold Rdiv. rewrite Rmult_assoc, Rinv_l by lra. unfold a, c. lra. }
  assert (B : Rabs x <= bpow radix2 1) by (apply Rabs_le_inv in D; change (bpow radix2 1) with 2; apply Rabs_le; lra). pose proof (near_binade prec top A x 1 ltac:(lia) B) as D1. pose proof (near_bpow prec top (proj1 A) x 1 ltac:(lia) B) as B1. change (bpow radix2 1) with 2 in D1.
  assert (OV : Rabs (nearest prec top x) < bpow radix2 top) by (eapply Rle_lt_trans; [exact B1|]; apply bpow_lt; lia).
  exists x, (nearest prec top x). split; [exact E|]. split; [exact F|]. split; [exact D|]. split; [rewrite E; unfold fed; cbn [rounded]; now apply (overflow_small top)|]. split; [split; [apply (near_fmt prec top (proj1 A))|exact OV]|].
  replace (nearest prec top x - schedule_t n (INR t)) with ((nearest prec top x - x) + (x - schedule_t n (INR t))) by ring. eapply Rle_trans; [apply Rabs_triang|]. lra.
Qed.
(** If the library's exp preserves order, the temperatures never decrease and lie in [0, 1]. *)
Theorem C64_schedule_ordered n t t' : order_preserving hprec htop libexp -> (t <= t')%nat -> (t' <= n)%nat -> (0 < n)%nat ->
  exists y y', fed prec top (schedule n t) = Fi y /\ fed prec top (schedule n t') = Fi y' /\ is_float prec top y /\ 0 <= y <= y' /\ y' <= 1.
Proof.
  intros O L T N. destruct (C64_schedule_accurate n t ltac:(lia) N) as (x & y & Ex & _ & _ & Ey & Fy & _). destruct (C64_schedule_accurate n t' T N) as (x' & y' & Ex' & _ & _ & Ey' & _ & _).
  destruct (temper_spec hprec htop H libexp FE P n N t ltac:(lia)) as (E & _). destruct (temper_spec hprec htop H libexp FE P n N t' T) as (E' & _). destruct (temper_ends hprec htop H libexp FE P n N) as (T0 & T1).
  pose proof (temper_order hprec htop H libexp FE P n N 0 t O ltac:(lia) ltac:(lia)) as O0. pose proof (temper_order hprec htop H libexp FE P n N t t' O L T) as O1. pose proof (temper_order hprec htop H libexp FE P n N t' n O T (le_n n)) as O2. rewrite T0 in O0. rewrite T1 in O2.
  set (a := temper hprec htop libexp n t) in *. set (c := temper hprec htop libexp n t') in *. pose proof (proj1 (float_1 prec top A)) as F1. pose proof (proj1 A) as W.
  assert (Ya : y = nearest prec top a). { rewrite E in Ey. unfold fed in Ey. cbn [rounded] in Ey. unfold overflow in Ey. destruct (Rlt_dec _ _); [congruence|]. destruct (Rlt_dec _ _); discriminate. }
  assert (Yc : y' = nearest prec top c). { rewrite E' in Ey'. unfold fed in Ey'. cbn [rounded] in Ey'. unfold overflow in Ey'. destruct (Rlt_dec _ _); [congruence|]. destruct (Rlt_dec _ _); discriminate. }
  exists y, y'. split; [exact Ey|]. split; [exact Ey'|]. split; [exact Fy|]. subst y y'. split; [split; [apply (near_ge_fmt prec top W); [apply generic_format_0|exact O0]|now apply (near_le prec top W)]|]. apply (near_le_fmt prec top W); assumption.
Qed.
End Schedule.

(** ** Densities, weights and the estimate, on the device *)
Section Weights.
Variables prec top : Z.
Hypothesis A : ample prec top.
Variables libexp liblog : R -> R.
Hypothesis FE : faithful_exp prec top libexp.
Hypothesis FL : faithful_log prec top liblog.
Notation u := (unit_roundoff prec).
Notation float := (is_float prec top).
Notation b e := (bpow radix2 e).

(** The tempered log density: accurate, and exact at both ends. *)
Theorem C64_log_fn lp lj T r : float lp -> float lj -> float T -> 0 <= T <= 1 -> Rabs lp <= b r -> Rabs lj <= b r -> (0 <= r)%Z -> (r + 2 <= top)%Z ->
  exists v, flog_fn prec top (Fi lp) (Fi lj) (Fi T) = Fi v /\ float v /\ Rabs (v - (lp * (1 - T) + lj * T)) <= 5 / 2 * u * b r.
Proof. exact (log_fn_spec prec top A lp lj T r). Qed.
Theorem C64_log_fn_ends lp lj : float lp -> float lj ->
  flog_fn prec top (Fi lp) (Fi lj) (Fi 0) = Fi lp /\ flog_fn prec top (Fi lp) (Fi lj) (Fi 1) = Fi lj.
Proof.
  intros Fp Fj. pose proof (float_1 prec top A) as F1. pose proof (float_0 prec top) as F0. unfold flog_fn, fmul, fsub, fadd, esub. cbn [eneg eadd].
  replace (1 + - 0) with 1 by ring. replace (1 + - (1)) with 0 by ring. rewrite (rounded_float prec top 1 F1), (rounded_float prec top 0 F0). cbn [emul]. rewrite !Rmult_1_r, !Rmult_0_r. rewrite (rounded_float prec top 0 F0), (rounded_float prec top lp Fp), (rounded_float prec top lj Fj). cbn [eadd]. rewrite Rplus_0_r, Rplus_0_l. split; now apply rounded_float.
Qed.
(** The log weight of a chain after any number of temperatures. *)
Theorem C64_log_weight prior steps r : let m := length steps in
  float prior -> Rabs prior <= b r -> Forall (fun q => float (fst q) /\ float (snd q) /\ Rabs (fst q) <= b r /\ Rabs (snd q) <= b r) steps ->
  (0 <= r)%Z -> (r + prec + 1 <= top)%Z -> (8 * Z.of_nat m <= 2 ^ prec)%Z ->
  exists w, flog_weight prec top (Fi prior) (map (fun q => (Fi (fst q), Fi (snd q))) steps) = Fi w /\ float w /\ Rabs w <= (4 * INR m + 1) * b r /\
    Rabs (w - chain_weight prior steps) <= 4 * INR m * INR m * u * b r.
Proof.
  intros m Fp Bp S R0' R1 M. destruct (anneal_spec prec top A r steps R0' R1 S (- prior) 0) as (w & E & F & B & D); [now apply float_opp|rewrite Rabs_Ropp; cbn; lra|exact M|].
  exists w. split; [exact E|]. split; [exact F|]. split; [exact B|]. rewrite Ropp_involutive in D. exact D.
Qed.
(** The estimate for one value of the data axes, from K chains and m temperatures. *)
Theorem C64_estimate p chains r m : let K := length chains in
  Forall (fun c => length (snd c) = m /\ float (fst c) /\ Rabs (fst c) <= b r /\ Forall (fun q => float (fst q) /\ float (snd q) /\ Rabs (fst q) <= b r /\ Rabs (snd q) <= b r) (snd c)) chains ->
  (0 < K)%nat -> (0 < m)%nat -> (Z.of_nat K <= 2 ^ prec)%Z -> (8 * Z.of_nat m <= 2 ^ prec)%Z -> adds_up p K -> (0 <= r)%Z -> (r + prec + 1 <= top)%Z ->
  exists v, flower_bound prec top libexp liblog p (map (fun c => flog_weight prec top (Fi (fst c)) (map (fun q => (Fi (fst q), Fi (snd q))) (snd c))) chains) = Fi v /\ float v /\
    Rabs (v - log_mean (map (fun c => chain_weight (fst c) (snd c)) chains)) <= (20 * INR m * INR m + 5 * INR K) * u * b r.
Proof.
  intros K C K0 M0 K1 M1 Pk R0' R1. pose proof (bpow_gt_0 radix2 r) as Br. assert (U : 0 < u) by apply u_pos. assert (m1 : 1 <= INR m) by (apply (le_INR 1); lia).
  assert (exists ws, map (fun c => flog_weight prec top (Fi (fst c)) (map (fun q => (Fi (fst q), Fi (snd q))) (snd c))) chains = map Fi ws /\ length ws = K /\ Forall float ws /\ Forall (fun w => Rabs w <= (4 * INR m + 1) * b r) ws /\ Forall2 (fun x y => Rabs (x - y) <= 4 * INR m * INR m * u * b r) ws (map (fun c => chain_weight (fst c) (snd c)) chains)) as (ws & Ew & Lw & Fw & Bw & Dw).
  { unfold K. clear - C A R0' R1 M1. induction C as [|c chains (L & Fp & Bp & S) C IH]; [exists []; repeat split; constructor|]. destruct IH as (ws & Ew & Lw & Fw & Bw & Dw). destruct (C64_log_weight (fst c) (snd c) r Fp Bp S R0' R1 ltac:(rewrite L; exact M1)) as (w & E & F & B & D). rewrite L in B, D. exists (w :: ws). cbn [map length]. rewrite E, Ew, Lw. repeat split; now constructor. }
  assert (N : ws <> []) by (intros ->; cbn in Lw; lia).
  destruct (mean_exp_spec prec top A libexp liblog FE FL p (Entry 0) true ws r (4 * INR m + 1)) as (v & Ev & Fv & _ & Dv); rewrite ?Lw; auto; [lra|apply Permutation_refl|].
  exists v. split; [rewrite Ew; unfold flog_mean_exp, fshifted in Ev; rewrite map_map in Ev; exact Ev|]. split; [exact Fv|]. rewrite Lw in Dv. pose proof (log_mean_close _ _ _ N Dw) as D2. set (x := log_mean ws) in *. set (y := log_mean (map _ chains)) in *. replace (v - y) with ((v - x) + (x - y)) by ring. eapply Rle_trans; [apply Rabs_triang|].
  assert (UB : 0 < u * b r) by (apply Rmult_lt_0_compat; lra). assert (1 * (u * b r) <= INR m * (u * b r)) by (apply Rmult_le_compat_r; lra). assert (1 * (INR m * (u * b r)) <= INR m * (INR m * (u * b r))) by (apply Rmult_le_compat_r; [apply Rmult_le_pos; lra|lra]). lra.
Qed.
End Weights.

(** ** Impossible data *)
Section Impossible.
Variables prec top : Z.
Variables libexp liblog : R -> R.
Lemma zero_times : fmul prec top MInf (Fi 0) = NaN.
Proof. unfold fmul. cbn [emul]. destruct (Rlt_dec 0 0); [lra|]. reflexivity. Qed.
Lemma nan_fadd a c : a = NaN \/ c = NaN -> fadd prec top a c = NaN.
Proof. intros [-> | ->]; [reflexivity|]. unfold fadd. now destruct a. Qed.
Lemma nan_anneal steps : fanneal prec top NaN steps = NaN.
Proof. induction steps as [|[old new] [|q steps] IH]; cbn [fanneal]; rewrite ?nan_fadd by auto; auto. Qed.
(** A state of zero joint density has no tempered density at temperature 0, nor one of zero
    prior density at temperature 1: both are NaN. *)
Theorem C64_ends_refuted lp lj : flog_fn prec top lp MInf (Fi 0) = NaN /\
  (ample prec top -> flog_fn prec top MInf lj (Fi 1) = NaN).
Proof.
  split; [unfold flog_fn; apply nan_fadd; right; apply zero_times|]. intros A. unfold flog_fn. apply nan_fadd. left. unfold fsub, esub. cbn [eneg eadd]. replace (1 + - (1)) with 0 by ring. rewrite (rounded_float prec top 0 (float_0 prec top)). apply zero_times.
Qed.
(** So one chain whose draw from the prior has zero joint density makes the estimate NaN,
    whatever the transitions, the other chains and the other data. *)
Theorem C64_impossible_refuted p pd data i weights c lp steps :
  nth_error data i = Some weights -> nth_error weights c = Some (flog_weight prec top (flog_fn prec top lp MInf (Fi 0)) steps) ->
  adds_up p (length weights) -> adds_up pd (length data) ->
  festimate prec top libexp liblog p pd data = NaN.
Proof.
  intros D C P Pd. rewrite (proj1 (C64_ends_refuted lp MInf)) in C. unfold flog_weight in C. cbn [eneg] in C. rewrite nan_anneal in C. assert (all : forall p j m, adds_up p m -> (j < m)%nat -> In j (entries p)) by (intros p' j m P' I; apply (Permutation_in _ (Permutation_sym P')), in_seq; lia).
  assert (Ic : (c < length weights)%nat) by (apply nth_error_Some; congruence). assert (Ii : (i < length data)%nat) by (apply nth_error_Some; congruence).
  assert (E : flower_bound prec top libexp liblog p weights = NaN). { pose proof (nan_log_mean_exp prec top libexp liblog p (Entry 0) true weights c C (all _ _ _ P Ic) (or_introl eq_refl)) as X. unfold flog_mean_exp, fshifted in X. rewrite map_map in X. exact X. }
  unfold festimate. rewrite (nan_sum prec top _ i); [reflexivity| |exact (all _ _ _ Pd Ii)]. apply nth_error_nth. rewrite nth_error_map, D. cbn [option_map]. now rewrite E.
Qed.
End Impossible.

(** The hypotheses are met: float64 on the host and float32 on the device, correctly rounded
    exp (which preserves order) and log, two chains and two temperatures. *)
Example C64_case : let near64 := nearest 53 1024 in let near := nearest 24 128 in let f := is_float 24 128 in
  ample 53 1024 /\ ample 24 128 /\ faithful_exp 53 1024 (fun x => near64 (exp x)) /\ order_preserving 53 1024 (fun x => near64 (exp x)) /\
  faithful_exp 24 128 (fun x => near (exp x)) /\ faithful_log 24 128 (fun x => near (ln x)) /\
  Forall (fun c => length (snd c) = 2%nat /\ f (fst c) /\ Rabs (fst c) <= bpow radix2 0 /\ Forall (fun q => f (fst q) /\ f (snd q) /\ Rabs (fst q) <= bpow radix2 0 /\ Rabs (snd q) <= bpow radix2 0) (snd c)) [(1, [(0, 1); (1, 1)]); (0, [(1, 0); (0, 0)])] /\
  adds_up (Plus (Entry 1) (Entry 0)) 2.
Proof.
  destruct C58_formats as (A & A' & _). destruct (C55_library 24 128 (proj1 A)) as (FE & FL). destruct (C55_library 53 1024 (proj1 A')) as (FE' & _). assert (F1 : is_float 24 128 1) by exact (float_1 24 128 A). assert (F0 : is_float 24 128 0) by exact (float_0 24 128).
  cbn zeta. split; [exact A'|]. split; [exact A|]. split; [exact FE'|]. split; [intros x y _ _ L; apply (near_le 53 1024 (proj1 A')), exp_le, L|]. split; [exact FE|]. split; [exact FL|]. change (bpow radix2 0) with 1.
  split; [|apply perm_swap]. repeat (first [apply Forall_cons | apply Forall_nil | split | exact F1 | exact F0]); cbn [fst snd]; try apply F1; try apply F0; rewrite ?Rabs_R0, ?Rabs_R1; try lra; reflexivity.
Qed.
(** One chain with zero joint density at its draw beside one with joint density 1. *)
Example C64_impossible_case near liblog : let p := Plus (Entry 0) (Entry 1) in
  festimate 24 128 near liblog p (Entry 0) [[flog_weight 24 128 (flog_fn 24 128 (Fi 0) MInf (Fi 0)) [(Fi 0, Fi 0)]; Fi 0]] = NaN.
Proof. intros p. eapply (C64_impossible_refuted 24 128 near liblog p (Entry 0) _ 0 _ 0 (Fi 0) [(Fi 0, Fi 0)]); [reflexivity|reflexivity|apply Permutation_refl|apply Permutation_refl]. Qed.

Print Assumptions C64_schedule_ends.
Print Assumptions C64_schedule_accurate.
Print Assumptions C64_schedule_ordered.
Print Assumptions C64_log_fn.
Print Assumptions C64_log_fn_ends.
Print Assumptions C64_log_weight.
Print Assumptions C64_estimate.
Print Assumptions C64_ends_refuted.
Print Assumptions C64_impossible_refuted.
Print Assumptions C64_case.
Print Assumptions C64_impossible_case.
