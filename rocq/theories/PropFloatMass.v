(** C61: the mass adaptation of HMC in floating-point arithmetic. *)
From Coq Require Import List Arith Bool Reals ZArith Lra Lia Permutation.
From Flocq Require Import Core.
From Verif Require Import ModelExt ModelSpecial ModelNum ModelFloat ModelFloatSample ModelFloatTune ModelFloatMass ModelHMC SpecFloat SpecAdapt
  ProofFloat ProofFloatSample ProofFloatDensity ProofFloatTune ProofFloatMass PropAdapt.
Import ListNotations.
Local Open Scope R_scope.

(** The format, the library's pow, the decay (not closer than 16 roundoffs to 0 and 1),
    and one data entry [i] of a single chain. *)
Section Mass.
Variables prec top : Z.
Hypothesis A : ample prec top.
Notation u := (unit_roundoff prec).
Notation b e := (bpow radix2 e).
Notation float := (is_float prec top).
Variables (libexp : R -> R) (libpow : R -> R -> R).
Hypothesis FP : faithful_pow prec top libpow.
Variable decay : R.
Hypothesis Fdecay : float decay.
Hypothesis Hdecay : 16 * u <= decay <= 1 - 16 * u.
Variables pm pv : nat -> plan.
Variable i : nat.
Hypothesis Pm : adds_up (pm i) 1.
Hypothesis Pv : adds_up (pv i) 1.
(** The positions seen are finite and at most 2^k, whose square is in range. *)
Variable k : Z.
Hypothesis Hk : (0 <= k /\ 2 * k + 4 <= top)%Z.
Definition seen (xs : list fstate) : Prop := forall x, In x xs -> exists q, x O i = Fi q /\ float q /\ Rabs q <= b k.
Definition value (x : fstate) : R := real_of (x O i).
(** The variables after updates with the positions [xs]. *)
Definition moving (xs : list fstate) : fmoving := fold_left (fun s x => fupdate prec top libpow 1 pm pv (Fi decay) s x) xs fmoving0.

Lemma tracked_moving xs : seen xs ->
  tracked prec top decay k i (moving xs) (fold_left (ewmv_update decay) (map (fun q => [q]) (map value xs)) ewmv0) (map value xs).
Proof.
  intros S. apply tracked_all; try assumption; try lia. induction xs as [|x xs IH]; cbn; constructor; [|apply IH; intros y Hy; apply S; now right].
  destruct (S x (or_introl eq_refl)) as (q & E & F & B). unfold position, value. rewrite E. auto.
Qed.

(** The weight of the n-th update is a float of (0, 1], 1 for the first, and close to the
    exact (1 - decay) / (1 - decay^n). *)
Theorem C61_weight n : (1 <= n <= 2 ^ prec)%Z -> exists w, fweight prec top libpow (Fi decay) (Fi (IZR n)) = Fi w /\ float w /\ 0 < w <= 1 /\ (n = 1%Z -> w = 1) /\
  let exact := (1 - decay) / (1 - decay ^ Z.to_nat n) in Rabs (w - exact) <= 6 * (u / (1 - decay)) * exact.
Proof.
  intros N. destruct (weight_spec prec top A libpow FP decay Fdecay Hdecay n N) as (E & F & H & H1 & _ & _ & Ac). eexists. split; [exact E|]. split; [exact F|]. split; [exact H|]. split; [exact H1|exact Ac].
Qed.

(** After any number of updates the counter is exact up to 2^prec, the mean lies between
    the smallest and the largest position seen, and the variance is not negative. *)
Theorem C61_range xs : xs <> [] -> seen xs ->
  fv_t (moving xs) = Fi (IZR (Z.min (Z.of_nat (length xs)) (2 ^ prec))) /\
  exists m v, fv_mean (moving xs) i = Fi m /\ float m /\ fv_var (moving xs) i = Fi v /\ float v /\
    (forall lo hi, (forall x, In x xs -> lo <= value x <= hi) -> lo <= m <= hi) /\ 0 <= v <= b (2 * k + 2).
Proof.
  intros N S. destruct (tracked_moving xs S) as (Et & _ & m & v & Em & Ev & Fm & Fv & _ & Hv & _ & _ & HR & _). rewrite map_length in Et. split; [exact Et|]. exists m, v. repeat (split; [assumption|]). split; [|exact Hv].
  intros lo hi H. apply HR; [destruct xs; [contradiction|discriminate]|]. intros q Hq. apply in_map_iff in Hq as (x & <- & Hx). now apply H.
Qed.

(** The error of mean and variance does not grow with the number of updates. *)
Theorem C61_accuracy xs : xs <> [] -> seen xs -> (Z.of_nat (length xs) <= 2 ^ prec)%Z ->
  let positions := map (fun x => [value x]) xs in
  exists m v, fv_mean (moving xs) i = Fi m /\ fv_var (moving xs) i = Fi v /\
    Rabs (m - ew_mean_ref decay positions) <= 15 * (u / (1 - decay)) * b k /\
    Rabs (v - ew_var_ref decay positions) <= 124 * (u / (1 - decay)) * (b k * b k).
Proof.
  intros N S L positions. destruct (tracked_moving xs S) as (_ & _ & m & v & Em & Ev & _ & _ & _ & _ & _ & _ & _ & HA). rewrite map_length in HA. destruct (HA L) as (_ & A1 & A2). rewrite map_map in A1, A2.
  pose proof (u_pos prec). destruct (C28_exact_moments decay ltac:(lra) positions) as (E1 & E2); [destruct xs; [contradiction|discriminate]|apply Forall_forall; intros y Hy; apply in_map_iff in Hy as (x & <- & _); discriminate|].
  change (map (fun x => [value x]) xs) with positions in A1, A2. rewrite E1 in A1. rewrite E2 in A2. exists m, v. auto.
Qed.

(** The mass is positive, possibly infinite, never NaN; after one update it is infinite. *)
Theorem C61_precision xs : xs <> [] -> seen xs ->
  (fprecision prec top (moving xs) i = PInf \/ exists r, fprecision prec top (moving xs) i = Fi r /\ float r /\ 0 < r) /\
  (length xs = 1%nat -> fprecision prec top (moving xs) i = PInf).
Proof.
  intros N S. pose proof (proj1 A) as W. destruct (tracked_moving xs S) as (_ & _ & m & v & Em & Ev & _ & Fv & _ & Hv & _ & H1 & _). rewrite map_length in H1.
  split; [|intros L; apply (precision_0 prec top); rewrite Ev, (H1 L); reflexivity].
  destruct (Req_dec v 0) as [->|Nv]; [left; apply (precision_0 prec top); exact Ev|]. unfold fprecision. rewrite Ev, (fdiv_fi prec top) by exact Nv. cbn [rounded].
  assert (P : 0 < nearest prec top (1 / v)).
  { apply Rlt_le_trans with (b (- (2 * k + 2))); [apply bpow_gt_0|]. apply near_ge_fmt; [exact W|apply (fmt_bpow prec top W); destruct W; lia|]. rewrite bpow_opp. unfold Rdiv. rewrite Rmult_1_l. apply Rinv_le; lra. }
  unfold overflow. destruct (Rlt_dec (Rabs (nearest prec top (1 / v))) (b top)) as [B|B].
  - right. eexists. split; [reflexivity|]. split; [split; [apply (near_fmt prec top W)|exact B]|exact P].
  - left. destruct (Rlt_dec 0 (nearest prec top (1 / v))); [reflexivity|contradiction].
Qed.
End Mass.

(** ** A chain that does not move until the mass is used never moves *)
Section Frozen.
Variables prec top : Z.
Hypothesis A : ample prec top.
Notation u := (unit_roundoff prec).
Notation float := (is_float prec top).
Variables (libexp : R -> R) (libpow : R -> R -> R).
Hypothesis FP : faithful_pow prec top libpow.
Variable decay : R.
Hypothesis Fdecay : float decay.
Hypothesis Hdecay : 16 * u <= decay <= 1 - 16 * u.
(** Any model, any number of data entries, any orders of summation. *)
Variables (n : nat) (grad : fstate -> fstate) (log_posterior : fstate -> nat -> ext) (ps pm pv : nat -> plan) (mass_collect_iters : Z).
Variable i : nat.
Hypothesis Hi : (i < n)%nat.
Hypothesis Pm : adds_up (pm i) 1.
Hypothesis Pv : adds_up (pv i) 1.
Hypothesis Ps : adds_up (ps O) n.
Notation run := (frun prec top libexp libpow 1 n grad log_posterior ps pm pv (Fi decay) mass_collect_iters).
(** The uniform number of the chain is not negative. *)
Definition drawn (x : input) : Prop := exists r, in_uniform x O = Fi r /\ 0 <= r.
(** The chain has one position: either nothing was updated, or mean and position agree. *)
Definition resting (s : fmoving) (q : fstate) : Prop :=
  exists v, q O i = Fi v /\ float v /\ fv_var s i = Fi 0 /\
    ((fv_t s = Fi 0 /\ fv_mean s i = Fi 0) \/ exists m, (1 <= m <= 2 ^ prec)%Z /\ fv_t s = Fi (IZR m) /\ fv_mean s i = Fi v).
Lemma resting_update s q (adapt : bool) : resting s q -> resting (if adapt then fupdate prec top libpow 1 pm pv (Fi decay) s q else s) q.
Proof.
  intros (v & Eq & Fv & Ev & H). exists v. split; [exact Eq|]. split; [exact Fv|]. destruct adapt; [|now split]. pose proof (pow_pos prec top A) as PP. destruct H as [(Et & Em)|(m & M & Et & Em)].
  - destruct (first_update prec top A libpow FP decay Fdecay Hdecay pm pv i Pm Pv s q v Et Em Ev Eq Fv) as (T & Mn & Va). split; [exact Va|]. right. exists 1%Z. split; [lia|]. auto.
  - destruct (fixed_update prec top A libpow FP decay Fdecay Hdecay pm pv i Pm Pv s q m v ltac:(lia) Et Em Ev Eq Fv) as (T & Mn & Va). split; [exact Va|]. right. exists (count prec m). split; [unfold count; lia|]. auto.
Qed.
Lemma iteration_update s q t x s' q' : fiteration prec top libexp libpow 1 n grad log_posterior ps pm pv (Fi decay) mass_collect_iters s q t x = Some (s', q') ->
  s' = if in_adapt x then fupdate prec top libpow 1 pm pv (Fi decay) s q else s.
Proof. unfold fiteration, fadapt_mass. destruct fleapfrog as [cq cp]. destruct forallb; [|discriminate]. intros H. now apply some_pair in H as (<- & _). Qed.
Lemma resting_run ys : forall s q t s' q', resting s q -> (mass_collect_iters <= Z.of_nat (S t))%Z -> Forall drawn ys -> run s q t ys = Some (s', q') -> forall e, q' O e = q O e.
Proof.
  induction ys as [|x ys IH]; intros s q t s' q' R T D; cbn [frun]; [intros [= <- <-]; reflexivity|].
  destruct fiteration as [(s1 & q1)|] eqn:E; [|discriminate]. intros H e. inversion D as [|? ? D1 D2]; subst. pose proof (resting_update s q (in_adapt x) R) as R1.
  destruct (infinite_mass prec top libexp libpow 1 n grad log_posterior ps pm pv (Fi decay) mass_collect_iters s q (S t) x s1 q1 O i Hi) as (Es & Eq).
  - apply (Permutation_in i (Permutation_sym Ps)). apply in_seq. lia.
  - unfold fadapt_mass. cbn [snd]. replace (Z.of_nat (S t) <? mass_collect_iters)%Z with false by (symmetry; apply Z.ltb_ge; exact T). apply (precision_0 prec top). destruct R1 as (v & _ & _ & V & _). exact V.
  - exact D1.
  - exact E.
  - rewrite <- Es in R1. assert (R2 : resting s1 q1) by (destruct R1 as (v & Q & Rest); exists v; split; [rewrite Eq; exact Q|exact Rest]).
    rewrite (IH s1 q1 (S t) s' q' R2) by (try assumption; lia). apply Eq.
Qed.
Lemma run_app xs : forall ys s q t, run s q t (xs ++ ys) = match run s q t xs with Some (s', q') => run s' q' (t + length xs)%nat ys | None => None end.
Proof.
  induction xs as [|x xs IH]; intros ys s q t; cbn [app frun length]; [now rewrite Nat.add_0_r|]. destruct fiteration as [(s1 & q1)|]; [|reflexivity]. rewrite IH. now rewrite Nat.add_succ_r.
Qed.
Lemma resting_prefix xs v : forall s q t s' q', resting s q -> q O i = Fi v ->
  (forall j sj qj, run s q t (firstn j xs) = Some (sj, qj) -> qj O i = Fi v) -> run s q t xs = Some (s', q') -> resting s' q'.
Proof.
  induction xs as [|x xs IH]; intros s q t s' q' R Q H; cbn [frun]; [intros [= <- <-]; exact R|]. destruct fiteration as [(s1 & q1)|] eqn:E; [|discriminate]. intros G.
  pose proof (resting_update s q (in_adapt x) R) as R1. rewrite <- (iteration_update _ _ _ _ _ _ E) in R1.
  assert (Q1 : q1 O i = Fi v) by (apply (H 1%nat s1 q1); cbn [firstn frun]; rewrite E; reflexivity).
  apply (IH s1 q1 (S t)); [|exact Q1| |exact G].
  - destruct R1 as (w & Qw & Rest). exists w. split; [congruence|exact Rest].
  - intros j sj qj Hj. apply (H (S j) sj qj). cbn [firstn frun]. rewrite E. exact Hj.
Qed.

(** With one chain: if some entry of the position did not change in the iterations before
    the adapted mass is first used (mass_collect_iters - 1 of them), every later iteration
    is rejected. *)
Theorem C61_frozen q0 v xs ys s q s' q' : q0 O i = Fi v -> float v -> Forall drawn (xs ++ ys) ->
  (mass_collect_iters - 1 <= Z.of_nat (length xs))%Z ->
  (forall j sj qj, run fmoving0 q0 0%nat (firstn j xs) = Some (sj, qj) -> qj O i = Fi v) ->
  run fmoving0 q0 0%nat xs = Some (s, q) -> run fmoving0 q0 0%nat (xs ++ ys) = Some (s', q') -> forall e, q' O e = q O e.
Proof.
  intros Q F D L H E E' e. assert (R0 : resting fmoving0 q0) by (exists v; repeat (split; [assumption || reflexivity|]); left; split; reflexivity).
  pose proof (resting_prefix xs v _ _ _ _ _ R0 Q H E) as R. rewrite run_app, E in E'. cbn [Nat.add] in E'. apply Forall_app in D as (_ & D). apply (resting_run ys s q (length xs) s' q'); try assumption. lia.
Qed.
(** In particular a single chain never moves when mass_collect_iters is at most 1. *)
Theorem C61_moves_refuted q0 v xs s q : (mass_collect_iters <= 1)%Z -> q0 O i = Fi v -> float v -> Forall drawn xs ->
  run fmoving0 q0 0%nat xs = Some (s, q) -> forall e, q O e = q0 O e.
Proof.
  intros L Q F D E. apply (C61_frozen q0 v [] xs fmoving0 q0 s q); try assumption; try reflexivity; [cbn [length]; lia|].
  intros j sj qj. rewrite firstn_nil. cbn. intros [= <- <-]. exact Q.
Qed.
End Frozen.

(** ** Several chains *)
(** Six chains that start at the same point of float32 and are added up from left to
    right: the variance of the first update is negative, and the momentum is NaN. *)
Theorem C61_negative_refuted libpow : faithful_pow 24 128 libpow ->
  let q := 12000006 * bpow radix2 (-23) in
  let s := fupdate 24 128 libpow 6 (fun _ => in_turn) (fun _ => in_turn) (Fi (3 / 4)) fmoving0 (fun _ _ => Fi q) in
  is_float 24 128 q /\ adds_up in_turn 6 /\
  (exists v, fv_var s O = Fi v /\ v < 0) /\ forall z, fmul 24 128 z (fsqrt 24 128 (fprecision 24 128 s O)) = NaN.
Proof.
  intros FP q s. pose proof wide32 as W. assert (A : ample 24 128) by (split; [exact W|lia]).
  assert (Fd : is_float 24 128 (3 / 4)).
  { split; [|apply (below_top 24 128 W); rewrite Rabs_pos_eq; lra]. replace (3 / 4) with (IZR 3 * bpow radix2 (-2)) by (cbn; lra). apply (fmt_grid 24 128 W); lia. }
  assert (Hd : 16 * unit_roundoff 24 <= 3 / 4 <= 1 - 16 * unit_roundoff 24) by (unfold unit_roundoff; cbn; lra).
  destruct (weight_spec 24 128 A libpow FP (3 / 4) Fd Hd 1 ltac:(lia)) as (Ew & _ & _ & W1 & _). rewrite W1 in Ew by reflexivity.
  assert (Fl : forall j e, (Z.abs j <= 2 ^ 24)%Z -> (-100 <= e <= 50)%Z -> is_float 24 128 (IZR j * bpow radix2 e)).
  { intros j e J E. split; [apply (fmt_grid 24 128 W); lia|]. rewrite Rabs_mult, (Rabs_pos_eq (bpow radix2 e)) by apply bpow_ge_0. rewrite <- abs_IZR. apply Rle_lt_trans with (bpow radix2 24 * bpow radix2 e); [apply Rmult_le_compat_r; [apply bpow_ge_0|]; change (bpow radix2 24) with (IZR (2 ^ 24)); now apply IZR_le|].
    rewrite <- bpow_plus. apply bpow_lt. lia. }
  assert (Fq : is_float 24 128 q) by (apply (Fl 12000006%Z (-23)%Z); lia). assert (R : forall x, is_float 24 128 x -> rounded 24 128 (Fi x) = Fi x) by (intros; now apply rounded_float).
  split; [exact Fq|]. split; [apply Permutation_refl|].
  assert (S1 : fadd 24 128 (Fi 0) (Fi 1) = Fi (IZR 1)). { pose proof (count_up 24 128 A 0 ltac:(lia)) as C. rewrite Z.min_l in C by lia. exact C. }
  assert (D : fsub 24 128 (Fi q) (Fi 0) = Fi q) by (unfold fsub, esub; cbn [eadd eneg]; rewrite Ropp_0, Rplus_0_r; now apply R).
  assert (I : fmul 24 128 (Fi 1) (Fi q) = Fi q) by (unfold fmul, emul; rewrite Rmult_1_l; now apply R).
  set (m := 12000007 * bpow radix2 (-23)). assert (Fm : is_float 24 128 m) by (apply (Fl 12000007%Z (-23)%Z); lia).
  destruct (six_sum (-23) ltac:(lia)) as (Su & Di). assert (Me : fmean 24 128 6 in_turn (fun _ => Fi q) = Fi m) by (unfold fmean; cbn [map seq]; unfold q; rewrite Su; exact Di).
  assert (M : fadd 24 128 (Fi 0) (fmean 24 128 6 in_turn (fun _ => Fi q)) = Fi m) by (rewrite Me; unfold fadd; cbn [eadd]; rewrite Rplus_0_l; now apply R).
  assert (G : fsub 24 128 (Fi q) (Fi m) = Fi (- bpow radix2 (-23))).
  { unfold fsub, esub. cbn [eadd eneg]. replace (q + - m) with (IZR (-1) * bpow radix2 (-23)) by (unfold q, m; ring). rewrite R by (apply Fl; lia). f_equal. ring. }
  assert (P : fmul 24 128 (Fi q) (Fi (- bpow radix2 (-23))) = Fi (- (12000006 * bpow radix2 (-46)))).
  { unfold fmul, emul. replace (q * - bpow radix2 (-23)) with (IZR (-12000006) * bpow radix2 (-46)); [rewrite R by (apply Fl; lia); f_equal; ring|]. unfold q. change (-46)%Z with (-23 + -23)%Z. rewrite bpow_plus. ring. }
  destruct (six_sum (-46) ltac:(lia)) as (Su2 & Di2).
  assert (V : fv_var s O = Fi (- (12000007 * bpow radix2 (-46)))).
  { unfold s, fupdate. cbn [fv_var fmoving0 fv_t fv_mean]. rewrite S1, Ew, D, I, M, G, P. unfold fmean. cbn [map seq]. set (y := Fi (12000006 * bpow radix2 (-46))) in *.
    change [Fi (- (12000006 * bpow radix2 (-46))); Fi (- (12000006 * bpow radix2 (-46))); Fi (- (12000006 * bpow radix2 (-46))); Fi (- (12000006 * bpow radix2 (-46))); Fi (- (12000006 * bpow radix2 (-46))); Fi (- (12000006 * bpow radix2 (-46)))]
      with (map eneg [y; y; y; y; y; y]). rewrite fsum_opp, Su2. assert (N : fdivn 24 128 (eneg (Fi (72000040 * bpow radix2 (-46)))) 6 = Fi (- (12000007 * bpow radix2 (-46)))).
    { unfold fdivn in *. cbn [eneg ediv rounded] in *. destruct (Req_EM_T (INR 6) 0) as [Z|_]; [exfalso; cbn in Z; lra|]. cbn [rounded] in *. replace (- (72000040 * bpow radix2 (-46)) / INR 6) with (- (72000040 * bpow radix2 (-46) / INR 6)) by (field; cbn; lra).
      rewrite (near_opp 24 128), <- eneg_overflow, Di2. reflexivity. }
    rewrite N. unfold fsub, esub. cbn [eadd eneg]. rewrite Rplus_opp_r, R by apply (float_0 24 128). unfold fmul, emul. rewrite Rmult_0_r, R by apply (float_0 24 128). unfold fadd. cbn [eadd]. rewrite Rplus_0_l.
    replace (- (12000007 * bpow radix2 (-46))) with (IZR (-12000007) * bpow radix2 (-46)) by ring. apply R, Fl; lia. }
  pose proof (bpow_gt_0 radix2 (-46)) as B. split; [exists (- (12000007 * bpow radix2 (-46))); split; [exact V|lra]|].
  set (w := - (12000007 * bpow radix2 (-46))) in *. assert (w < 0) by (unfold w; lra).
  assert (Nw : nearest 24 128 (1 / w) < 0).
  { replace (1 / w) with (- (1 / - w)) by (field; lra). rewrite (near_opp 24 128). enough (0 < nearest 24 128 (1 / - w)) by lra. apply Rlt_le_trans with 1; [lra|]. apply near_ge_fmt; [exact W|apply (fmt_1 24 128 W)|].
    rewrite <- Rinv_1. unfold Rdiv. rewrite Rinv_1, Rmult_1_l. rewrite <- Rinv_1 at 1. apply Rinv_le; [lra|]. unfold w. rewrite Ropp_involutive. apply Rle_trans with (bpow radix2 24 * bpow radix2 (-46)); [apply Rmult_le_compat_r; [lra|change (bpow radix2 24) with 16777216; lra]|]. rewrite <- bpow_plus. apply (bpow_le radix2 _ 0). lia. }
  assert (Sq : fsqrt 24 128 (fprecision 24 128 s O) = NaN).
  { unfold fprecision. rewrite V, (fdiv_fi 24 128) by lra. cbn [rounded]. unfold overflow. destruct Rlt_dec; cbn; [destruct (Rlt_dec (nearest 24 128 (1 / w)) 0); [reflexivity|contradiction]|]. destruct (Rlt_dec 0 (nearest 24 128 (1 / w))); [lra|reflexivity]. }
  intros z. rewrite Sq. unfold fmul. now destruct z.
Qed.

(** ** The hypotheses are met *)
(** Correctly rounded pow in float32, decay 0.99 rounded down, positions 1 and 2. *)
Example C61_case : let libpow x y := round radix2 (fexpo 24 128) Zfloor (Rpower x y) in let decay := 16609443 * bpow radix2 (-24) in
  ample 24 128 /\ faithful_pow 24 128 libpow /\ is_float 24 128 decay /\ 16 * unit_roundoff 24 <= decay <= 1 - 16 * unit_roundoff 24 /\
  adds_up (Entry 0) 1 /\ seen 24 128 0 1 [fun _ _ => Fi 1; fun _ _ => Fi 2] /\ (0 <= 1 /\ 2 * 1 + 4 <= 128)%Z /\
  drawn (Input true (fun _ _ => Fi 1) (fun _ => Fi (1 / 2)) 1 (Fi 1)).
Proof.
  intros libpow decay. split; [split; [exact wide32|lia]|]. split; [intros x y _ _ _; left; reflexivity|]. split.
  { split; [apply (fmt_grid 24 128 wide32); lia|]. apply (below_top 24 128 wide32). unfold decay. rewrite Rabs_pos_eq; cbn; lra. }
  split; [unfold decay, unit_roundoff; cbn; lra|]. split; [apply Permutation_refl|]. split; [|split; [lia|exists (1 / 2); split; [reflexivity|lra]]].
  intros x [<-|[<-|[]]]; [exists 1|exists 2]; (split; [reflexivity|]); cbn; rewrite Rabs_pos_eq by lra; (split; [|lra]); (split; [apply (fmt_int 24 128 wide32); lia|]); rewrite Rabs_pos_eq by lra; apply Rlt_le_trans with (bpow radix2 2); [cbn; lra|apply bpow_le; lia|cbn; lra|apply bpow_le; lia].
Qed.
(** A run as in C61_frozen and C61_moves_refuted: a flat target, two iterations. *)
Example C61_run libexp libpow decay : let x := Input true (fun _ _ => Fi 1) (fun _ => Fi (1 / 2)) 1 (Fi 1) in exists s q,
  frun 24 128 libexp libpow 1 1 (fun _ _ _ => Fi 0) (fun _ _ => Fi 0) (fun _ => Entry 0) (fun _ => Entry 0) (fun _ => Entry 0) (Fi decay) 1 fmoving0 (fun _ _ => Fi 1) 0 [x; x] = Some (s, q).
Proof.
  intros x. cbn [frun]. unfold fiteration at 1. unfold fadapt_mass. destruct fleapfrog as [q1 p1]. cbn [forallb seq fhamiltonian snd eneg is_finite andb].
  unfold fiteration, fadapt_mass. destruct fleapfrog as [q2 p2]. cbn [forallb seq fhamiltonian snd eneg is_finite andb]. eexists. eexists. reflexivity.
Qed.
Print Assumptions C61_weight.
Print Assumptions C61_range.
Print Assumptions C61_accuracy.
Print Assumptions C61_precision.
Print Assumptions C61_frozen.
Print Assumptions C61_moves_refuted.
Print Assumptions C61_negative_refuted.
