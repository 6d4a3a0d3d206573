(** C63: the importance weighted estimators (the self-normalised importance estimator of the
    inclusive KL divergence and VIMCO) in floating-point arithmetic. *)
From Coq Require Import List Arith Bool Reals ZArith Lra Lia Permutation.
From Flocq Require Import Core.
From Verif Require Import ModelExt ModelSpecial ModelNum ModelFloat ModelFloatSample ModelFloatImportance SpecFloat SpecFloatImportance ProofFloat ProofFloatSample ProofFloatDensity ProofFloatTune ProofFloatSGMCMC ProofFloatMass ProofFloatImportance PropFloat PropFloatSample.
Import ListNotations.
Local Open Scope R_scope.

Section Importance.
Variables prec top : Z.
Hypothesis A : ample prec top.
Variables libexp liblog : R -> R.
Hypothesis FE : faithful_exp prec top libexp.
Hypothesis FL : faithful_log prec top liblog.
Let W : wide prec top := proj1 A.
Notation u := (unit_roundoff prec).
Notation float := (is_float prec top).
Notation near := (nearest prec top).
Notation b e := (bpow radix2 e).
Notation log_w := (flog_w prec top).

(** The log weights: the rounded sums of log p and - log q. *)
Theorem C63_log_weights lj es r : length lj = length es -> Forall float lj -> Forall float es ->
  Forall (fun a => Rabs a <= b r) lj -> Forall (fun e => Rabs e <= b r) es -> (0 <= r)%Z -> (r + 2 <= top)%Z ->
  exists xs, log_w (map Fi lj) (map Fi es) = map Fi xs /\ length xs = length es /\ Forall float xs /\ Forall (fun x => Rabs x <= b (r + 1)) xs /\
    Forall2 (fun x y => Rabs (x - y) <= u * b r) xs (map (fun q => fst q + snd q) (combine lj es)).
Proof.
  intros L Fa Fe Ba Be R0' R1. pose proof (top_big prec top A) as TB. pose proof A as (_ & p3 & _). revert es L Fe Be. induction lj as [|a lj IH]; intros [|e es] L Fe Be; try discriminate L; [exists []; repeat split; constructor|].
  inversion Fa as [|? ? Fa1 Fa2]; inversion Fe as [|? ? Fe1 Fe2]; inversion Ba as [|? ? Ba1 Ba2]; inversion Be as [|? ? Be1 Be2]; subst. destruct (IH Fa2 Ba2 es ltac:(now injection L) Fe2 Be2) as (xs & E & Lx & Fx & Bx & Cx).
  assert (B2 : b (r + 1) = 2 * b r) by (rewrite bpow_plus; change (b 1) with 2; ring). assert (S : Rabs (a + e) <= b (r + 1)) by (eapply Rle_trans; [apply Rabs_triang|]; lra).
  destruct (fadd_near prec top A a e (r + 1) ltac:(lia) ltac:(lia) S) as (E1 & F1 & B1). pose proof (near_binade prec top A _ (r + 1) ltac:(lia) S) as D1. exists (near (a + e) :: xs).
  split; [unfold flog_w in *; cbn [map combine fst snd]; rewrite E1; f_equal; exact E|]. split; [cbn; congruence|]. split; [now constructor|]. split; [now constructor|]. cbn [combine map fst snd]. constructor; [rewrite B2 in D1; lra|exact Cx].
Qed.
(** An impossible sample has log weight minus infinity. *)
Theorem C63_impossible_log_weight lj ent k e : length lj = length ent -> nth_error lj k = Some MInf -> nth_error ent k = Some (Fi e) -> nth_error (log_w lj ent) k = Some MInf.
Proof.
  revert ent k. induction lj as [|a lj IH]; intros [|c ent] [|k] L H H'; try discriminate; cbn in H, H'; [injection H as ->; injection H' as ->; reflexivity|]. cbn [flog_w combine map nth_error]. apply IH; auto.
Qed.

(** The normalised weights are floats between 0 and 1, accurate, and add up to 1 up to
    rounding; impossible samples have weight 0. *)
Theorem C63_weights p l m : Forall (entry prec top) l -> largest l m -> (6 * Z.of_nat (length l) <= 2 ^ prec)%Z -> adds_up p (length l) ->
  let ws := fw_tilde prec top libexp p l in
  length ws = length l /\ Rabs (total ws - 1) <= 7 * INR (length l) * u /\
  forall i e, nth_error l i = Some e -> exists w, nth_error ws i = Some (Fi w) /\ float w /\ 0 <= w <= 1 /\ Rabs (w - power e / exp_sum l) <= 9 * INR (length l) * u.
Proof.
  intros H L N P ws. assert (E : ws = softmax prec top libexp false p l) by (unfold ws, fw_tilde, softmax, normalized, fshifted; now rewrite !map_map).
  rewrite E. exact (C58_softmax prec top libexp A FE false p l m H L N P).
Qed.
Theorem C63_zero_weight p l m i : Forall (entry prec top) l -> largest l m -> (Z.of_nat (length l) <= 2 ^ prec)%Z -> adds_up p (length l) ->
  nth_error l i = Some MInf -> nth_error (fw_tilde prec top libexp p l) i = Some (Fi 0).
Proof.
  intros H L N P I. destruct (sum_of_terms prec top libexp W FE l m p H L N P) as (s & Es & _ & (S1 & _) & _). destruct (max_is prec top l m H L) as (Em & _).
  unfold fw_tilde. unfold fshifted in Es. rewrite map_map in Es. rewrite nth_error_map, nth_error_map, I, Es, Em. cbn [option_map]. unfold fsub, esub. cbn [eneg eadd rounded feexp]. 
  f_equal. rewrite fdiv_fi by lra. unfold Rdiv. rewrite Rmult_0_l. apply (rounded_float prec top), float_0.
Qed.

(** The self-normalised importance cost, from the log weights the code computes. *)
Lemma map_combine_nth {T U V} (f : T * U -> V) (xs : list T) (ys : list U) d d' : length xs = length ys ->
  map f (combine xs ys) = map (fun k => f (nth k xs d, nth k ys d')) (seq 0 (length xs)).
Proof.
  revert ys. induction xs as [|x xs IH]; intros [|y ys] L; try discriminate L; [reflexivity|]. cbn [combine map length seq nth]. f_equal. rewrite <- seq_shift, map_map. apply IH. now injection L.
Qed.
Lemma log_w_length lj ent : length lj = length ent -> length (log_w lj ent) = length ent.
Proof. intros L. unfold flog_w. rewrite map_length, combine_length. lia. Qed.
Theorem C63_importance p pc lj es q m : length lj = length es -> let l := log_w lj (map Fi es) in
  Forall (entry prec top) l -> largest l m -> (6 * Z.of_nat (length es) <= 2 ^ prec)%Z -> adds_up p (length es) -> adds_up pc (length es) ->
  Forall float es -> Forall (fun e => Rabs e <= b q) es -> (0 <= q)%Z -> (q + prec + 3 <= top)%Z ->
  exists c, fimportance prec top libexp p pc lj (map Fi es) = Fi c /\ float c /\
    Rabs (c - rsum (map (fun k => nth k es 0 * (power (nth k l NaN) / exp_sum l)) (seq 0 (length es)))) <= 12 * INR (length es) * INR (length es) * u * b q.
Proof.
  intros Lj l H L N P Pc Fe Be Q0 Q1. assert (Ll : length l = length es) by (unfold l; rewrite log_w_length; rewrite map_length; auto). rewrite <- Ll in P, N. destruct (C63_weights p l m H L N P) as (Lw & _ & Each). set (ws := fw_tilde prec top libexp p l) in *. set (n := length es) in *.
  pose proof (top_big prec top A) as TB. pose proof A as (_ & p3 & _). pose proof (bpow_gt_0 radix2 q) as Bq. assert (U : 0 < u) by apply u_pos. rewrite Ll in *.
  assert (n1 : 1 <= INR n) by (apply (le_INR 1); rewrite <- Ll; destruct l; [destruct (proj1 L)|cbn; lia]).
  unfold fimportance. fold l ws. rewrite (map_combine_nth _ ws (map Fi es) NaN NaN) by (rewrite map_length; exact Lw). cbn [fst snd]. rewrite Lw.
  destruct (term_list prec top (fun k => fmul prec top (nth k ws NaN) (nth k (map Fi es) NaN)) (fun k => - (nth k es 0 * (power (nth k l NaN) / exp_sum l))) (b q) ((9 * INR n + 1 / 2) * u * b q) (seq 0 n)) as (ts & Lt & Et & Ft & Bt & Dt).
  { intros k I. apply in_seq in I. destruct (nth_error l k) as [e|] eqn:Ek; [|apply nth_error_None in Ek; lia]. destruct (Each k e Ek) as (w & Ew & Fw & Rw & Dw). rewrite (nth_error_nth _ _ _ Ek), (nth_error_nth _ _ _ Ew). rewrite (nth_Fi es) by (fold n; lia). set (x := nth k es 0).
    assert (Bx : Rabs x <= b q) by (rewrite Forall_forall in Be; apply (Be x), nth_In; fold n; lia). assert (Bp : Rabs (w * x) <= b q) by (rewrite Rabs_mult, (Rabs_pos_eq w) by lra; rewrite <- (Rmult_1_l (b q)); apply Rmult_le_compat; try lra; apply Rabs_pos).
    destruct (fmul_near prec top A w x q ltac:(lia) ltac:(lia) Bp) as (E & F1 & B1). pose proof (near_binade prec top A _ q ltac:(lia) Bp) as D1. exists (near (w * x)). split; [exact E|]. split; [exact F1|]. split; [exact B1|].
    set (v := power e / exp_sum l) in *. replace (near (w * x) + - (x * v)) with ((near (w * x) - w * x) + (w - v) * x) by ring. eapply Rle_trans; [apply Rabs_triang|]. rewrite Rabs_mult. assert (Rabs (w - v) * Rabs x <= 9 * INR n * u * b q) by (apply Rmult_le_compat; auto using Rabs_pos). lra. }
  rewrite seq_length in Lt, Dt. rewrite Et. destruct (list_sum prec top A ts pc q) as (c & Ec & Fc & Dc); rewrite ?Lt; try assumption; try lia. exists c. split; [exact Ec|]. split; [exact Fc|]. rewrite Lt in Dc.
  set (g := fun k => nth k es 0 * (power (nth k l NaN) / exp_sum l)) in *. assert (G : forall ks, rsum (map (fun k => - g k) ks) = - rsum (map g ks)) by (induction ks as [|k ks IH]; cbn; unfold rsum in *; cbn; lra). change (map (fun k => - (nth k es 0 * (power (nth k l NaN) / exp_sum l))) (seq 0 n)) with (map (fun k => - g k) (seq 0 n)) in Dt. rewrite G in Dt.
  set (v := rsum (map g (seq 0 n))) in *. replace (c - v) with ((c - rsum ts) + (rsum ts + - v)) by ring. eapply Rle_trans; [apply Rabs_triang|]. assert (0 < u * b q) by (apply Rmult_lt_0_compat; lra). assert (1 * (INR n * (u * b q)) <= INR n * (INR n * (u * b q))) by (apply Rmult_le_compat_r; [apply Rmult_le_pos; lra|lra]). assert (0 <= INR n * (u * b q)) by (apply Rmult_le_pos; lra). lra.
Qed.

(** VIMCO's cost, from finite log p and - log q of modest size. *)
Theorem C63_vimco p p2 p1 pm pm' pf lj es r : let n := length es in
  length lj = n -> (2 <= n)%nat -> (Z.of_nat n <= 2 ^ prec)%Z -> adds_up p n -> (forall k, adds_up (p2 k) n) -> adds_up p1 1 -> adds_up pm n -> adds_up pm' n -> adds_up pf n ->
  Forall float lj -> Forall float es -> Forall (fun a => Rabs a <= b r) lj -> Forall (fun e => Rabs e <= b r) es -> (0 <= r)%Z -> (2 * r + prec + 10 <= top)%Z ->
  exists c, fvimco prec top libexp liblog p p2 p1 pm pm' pf (map Fi lj) (map Fi es) = Fi c /\ float c /\
    Rabs (c - vimco_cost (map (fun q => fst q + snd q) (combine lj es)) es) <= 348 * INR n * INR n * u * b r * b r.
Proof.
  intros n Lj N2 N1 P P2 P1 Pm Pm' Pf Fa Fe Ba Be R0' R1. pose proof (top_big prec top A) as TB. pose proof A as (_ & p3 & _). pose proof (bpow_gt_0 radix2 r) as Br. assert (U : 0 < u) by apply u_pos. assert (n2 : 2 <= INR n) by (apply (le_INR 2); exact N2).
  destruct (C63_log_weights lj es r Lj Fa Fe Ba Be R0' ltac:(lia)) as (xs & Ex & Lx & Fx & Bx & Cx). fold n in Lx.
  destruct (cost_spec prec top A libexp liblog FE FL xs (r + 1) Fx Bx ltac:(lia) ltac:(lia) ltac:(rewrite Lx; exact N2) ltac:(rewrite Lx; exact N1) p p2 p1 pm pm' pf es r) as (c & Ec & Fc & Dc); rewrite ?Lx; auto; try lia.
  exists c. split; [unfold fvimco; rewrite Ex; exact Ec|]. split; [exact Fc|]. rewrite Lx in Dc. pose proof (cost_close (u * b r) (b r) xs _ es Cx ltac:(rewrite Lx; exact N2) ltac:(now rewrite Lx) Be) as Dd. rewrite Lx in Dd. set (v := vimco_cost xs es) in *. set (v' := vimco_cost (map _ _) es) in *.
  replace (c - v') with ((c - v) + (v - v')) by ring. eapply Rle_trans; [apply Rabs_triang|]. assert (B2 : b (r + 1) = 2 * b r) by (rewrite bpow_plus; change (b 1) with 2; ring). rewrite B2 in Dc.
  assert (b1 : 1 <= b r) by (change 1 with (b 0); apply bpow_le; lia). set (e := u * (b r * b r)). assert (E0 : 0 < e) by (apply Rmult_lt_0_compat; [lra|apply Rmult_lt_0_compat; lra]). assert (E1 : u * b r <= e) by (unfold e; apply Rmult_le_compat_l; nra).
  replace (172 * INR n * INR n * u * b r * (2 * b r)) with (344 * (INR n * (INR n * e))) in Dc by (unfold e; ring). replace (348 * INR n * INR n * u * b r * b r) with (348 * (INR n * (INR n * e))) by (unfold e; ring). replace ((2 * INR n * b r + 1) * (u * b r)) with (2 * (INR n * e) + u * b r) in Dd by (unfold e; ring).
  assert (2 * e <= INR n * e) by (apply Rmult_le_compat_r; lra). assert (2 * (INR n * e) <= INR n * (INR n * e)) by (apply Rmult_le_compat_r; nra). lra.
Qed.
(** The learning signal of a sample, from finite log weights: the multiplicative accuracy of
    the weights becomes an absolute accuracy proportional to the largest log weight. *)
Theorem C63_signal p p2 p1 pm xs r k : let n := length xs in
  Forall float xs -> Forall (fun x => Rabs x <= b r) xs -> (0 <= r)%Z -> (r + prec + 3 <= top)%Z -> (2 <= n)%nat -> (Z.of_nat n <= 2 ^ prec)%Z ->
  adds_up p n -> adds_up (p2 k) n -> adds_up p1 1 -> adds_up pm n -> (k < n)%nat ->
  exists v, fsignal prec top libexp liblog p p2 p1 pm (map Fi xs) k = Fi v /\ float v /\ Rabs (v - vimco_signal xs k) <= 42 * INR n * u * b r.
Proof.
  intros n F B R0' R1 N2 N1 P P2 P1 Pm K. destruct (signal_spec prec top A libexp liblog FE FL xs r F B R0' R1 N2 N1 p p2 p1 pm k P P2 P1 Pm K) as (v & E & Fv & _ & D). eauto.
Qed.
End Importance.

(** ** Impossible samples *)
Section Impossible.
Variables prec top : Z.
Variables libexp liblog : R -> R.

Lemma nan_fsub a c : a = NaN \/ c = NaN -> fsub prec top a c = NaN.
Proof. intros [-> | ->]; [reflexivity|]. unfold fsub, esub. now destruct a. Qed.
Lemma nan_fmul a c : a = NaN \/ c = NaN -> fmul prec top a c = NaN.
Proof. intros [-> | ->]; [reflexivity|]. unfold fmul. destruct a as [x| | |]; cbn; try reflexivity; destruct (Rlt_dec x 0), (Rlt_dec 0 x); reflexivity. Qed.
Lemma nan_log_mean_exp p p1 keepdims l k : nth_error l k = Some NaN -> In k (entries p) -> In 0%nat (entries p1) -> flog_mean_exp prec top libexp liblog p p1 keepdims l = NaN.
Proof.
  intros H K Z. unfold flog_mean_exp. rewrite (nan_sum prec top _ k); [|unfold fshifted; apply nth_error_nth; rewrite !nth_error_map, H; reflexivity|exact K]. cbn [fdivn ediv rounded felog].
  destruct keepdims; [reflexivity|]. rewrite (nan_sum prec top _ 0); [reflexivity| |exact Z]. reflexivity.
Qed.
(** One sample of log weight minus infinity makes VIMCO's cost NaN, whatever the other
    samples, although the bound itself is then defined and computed well (C55). *)
Theorem C63_vimco_impossible_refuted p p2 p1 pm pm' pf lj ent k : let n := length ent in
  length lj = n -> adds_up (p2 k) n -> adds_up p1 1 -> adds_up pf n ->
  nth_error (flog_w prec top lj ent) k = Some MInf ->
  fvimco prec top libexp liblog p p2 p1 pm pm' pf lj ent = NaN.
Proof.
  intros n L P2 P1 Pf H. unfold fvimco. set (l := flog_w prec top lj ent) in *. assert (Ll : length l = n) by (unfold l, flog_w; rewrite map_length, combine_length; lia). assert (K : (k < n)%nat) by (rewrite <- Ll; apply nth_error_Some; congruence).
  apply nan_fsub. left. assert (all : forall p i m, adds_up p m -> (i < m)%nat -> In i (entries p)) by (intros p' i m P I; apply (Permutation_in _ (Permutation_sym P)), in_seq; lia).
  unfold ffake_term. rewrite (nan_sum prec top _ k); [reflexivity| |now apply (all _ _ n)]. apply nth_error_nth. rewrite nth_error_map, Ll. rewrite (nth_error_nth' _ 0%nat) by (rewrite seq_length; exact K). rewrite seq_nth by exact K. cbn [option_map plus]. f_equal.
  apply nan_fmul. right. apply nan_fsub. right. unfold fcontrol_variate. apply (nan_log_mean_exp _ _ _ _ k); [|now apply (all _ _ n)|apply (all _ _ 1%nat P1); lia].
  unfold fx_ex. rewrite nth_error_map, Ll. rewrite (nth_error_nth' _ 0%nat) by (rewrite seq_length; exact K). rewrite seq_nth by exact K. cbn [option_map plus]. rewrite Nat.eqb_refl, (nth_error_nth _ _ _ H). reflexivity.
Qed.
(** When every sample is impossible the self-normalised importance cost is NaN. *)
Theorem C63_importance_impossible_refuted p pc lj ent : let n := length ent in
  length lj = n -> (0 < n)%nat -> adds_up pc n -> Forall (eq MInf) (flog_w prec top lj ent) -> fimportance prec top libexp p pc lj ent = NaN.
Proof.
  intros n L N P H. unfold fimportance. set (l := flog_w prec top lj ent) in *. assert (Ll : length l = n) by (unfold l, flog_w; rewrite map_length, combine_length; lia). destruct l as [|x l]; [cbn in Ll; lia|]. destruct ent as [|e ent]; [cbn in N; lia|].
  rewrite (nan_sum prec top _ 0); [reflexivity| |apply (Permutation_in _ (Permutation_sym P)), in_seq; lia]. unfold fw_tilde. cbn [map combine nth fst snd]. apply nan_fmul. left. inversion H as [|? ? X H']; subst x.
  assert (M : reduce_max (MInf :: l) = MInf). { clear - H'. unfold reduce_max. cbn [fold_right]. induction H' as [|x l X H IH]; [reflexivity|]. subst x. cbn [fold_right] in *. destruct (fold_right emax MInf l) eqn:E; cbn in *; try discriminate; reflexivity. }
  rewrite M. match goal with |- fdiv _ _ _ ?s = _ => generalize s end. intros s. unfold fdiv. cbn [feexp fsub esub eneg eadd rounded ediv2]. destruct s; reflexivity.
Qed.
End Impossible.

(** The hypotheses are met: float32, three samples, correctly rounded exp and log. *)
Definition c63_lj : list R := [1; -1; 0].
Definition c63_es : list R := [0; 1; -1].
Definition c63_plan : plan := Plus (Plus (Entry 0) (Entry 2)) (Entry 1).
Example C63_case : let near := nearest 24 128 in let f := is_float 24 128 in
  ample 24 128 /\ faithful_exp 24 128 (fun x => near (exp x)) /\ faithful_log 24 128 (fun x => near (ln x)) /\
  adds_up c63_plan 3 /\ adds_up (Entry 0) 1 /\ (6 * Z.of_nat 3 <= 2 ^ 24)%Z /\ (2 * 0 + 24 + 10 <= 128)%Z /\
  Forall f c63_lj /\ Forall f c63_es /\ Forall (fun a => Rabs a <= bpow radix2 0) c63_lj /\ Forall (fun e => Rabs e <= bpow radix2 0) c63_es.
Proof.
  destruct C58_formats as (A & _). destruct (C55_library 24 128 (proj1 A)) as (FE & FL). assert (F1 : is_float 24 128 1) by exact (float_1 24 128 A). assert (F0 : is_float 24 128 0) by exact (float_0 24 128). assert (Fm : is_float 24 128 (-1)) by exact (float_opp 24 128 1 F1).
  change (bpow radix2 0) with 1. repeat split; try exact FE; try exact FL; try apply A; try lia; try (apply Permutation_refl); try apply perm_skip, perm_swap.
  all: repeat constructor; auto; try (apply F1); try (apply F0); try (apply Fm); rewrite ?Rabs_R0, ?Rabs_R1, ?(Rabs_left (-1)) by lra; lra.
Qed.
(** An impossible sample beside a possible one: log weights minus infinity and 0. The bound
    is computed (its exact value is - ln 2), the cost is NaN. *)
Example C63_impossible_case : let near := nearest 24 128 in let p := Plus (Entry 0) (Entry 1) in
  fvimco 24 128 (fun x => near (exp x)) (fun x => near (ln x)) p (fun _ => p) (Entry 0) p p p [MInf; Fi 0] [Fi 0; Fi 0] = NaN /\
  exists v, flog_mean_exp 24 128 (fun x => near (exp x)) (fun x => near (ln x)) p (Entry 0) false (flog_w 24 128 [MInf; Fi 0] [Fi 0; Fi 0]) = Fi v /\
    Rabs (v - ln (1 / 2)) <= (Rabs v + 10) * unit_roundoff 24.
Proof.
  destruct C58_formats as (A & _). destruct (C55_library 24 128 (proj1 A)) as (FE & FL). intros near p. assert (P : adds_up p 2) by apply Permutation_refl. assert (F0 : is_float 24 128 0) by exact (float_0 24 128).
  assert (E : flog_w 24 128 [MInf; Fi 0] [Fi 0; Fi 0] = [MInf; Fi 0]) by (cbn [flog_w combine map fst snd]; unfold fadd; cbn [eadd rounded]; repeat f_equal; rewrite Rplus_0_l; apply (rounded_float 24 128 0 F0)).
  split; [apply (C63_vimco_impossible_refuted 24 128 _ _ p (fun _ => p) (Entry 0) p p p _ _ 0); try (cbn [length]; auto; fail); try apply Permutation_refl; rewrite E; reflexivity|]. rewrite E.
  destruct (C55_log_mean_exp 24 128 _ _ (proj1 A) FE FL p (Entry 0) false [MInf; Fi 0] 0) as (v & Ev & _ & _ & D); auto; try (cbn; lia); try apply Permutation_refl.
  { constructor; [now left|]. constructor; [right; eauto|constructor]. } { split; [right; now left|]. intros x [Z|[Z|[]]]; [discriminate|]. injection Z as <-. lra. }
  exists v. split; [exact Ev|]. cbn [exp_sum map power fold_right length INR] in D. rewrite exp_0 in D. replace ((0 + (1 + 0)) / (1 + 1)) with (1 / 2) in D by field. replace (5 * (1 + 1)) with 10 in D by ring. exact D.
Qed.

Print Assumptions C63_log_weights.
Print Assumptions C63_impossible_log_weight.
Print Assumptions C63_weights.
Print Assumptions C63_zero_weight.
Print Assumptions C63_importance.
Print Assumptions C63_vimco.
Print Assumptions C63_signal.
Print Assumptions C63_vimco_impossible_refuted.
Print Assumptions C63_importance_impossible_refuted.
Print Assumptions C63_case.
Print Assumptions C63_impossible_case.
