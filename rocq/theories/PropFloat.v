(** C55: log_sum_exp, log_mean_exp and the acceptance rate in floating-point arithmetic. *)
From Coq Require Import List Arith Bool Reals ZArith Lra Lia Permutation.
From Flocq Require Import Core Relative.
From Verif Require Import ModelExt ModelFloat SpecFloat ProofFloat PropUtils.
Import ListNotations.
Local Open Scope R_scope.

Section Statements.
Variables prec top : Z.
Variables libexp liblog : R -> R.
Hypothesis W : wide prec top.
Hypothesis FE : faithful_exp prec top libexp.
Hypothesis FL : faithful_log prec top liblog.
Notation u := (unit_roundoff prec).
Notation fmt := (generic_format radix2 (fexpo prec top)).

Lemma max_is l m : Forall (entry prec top) l -> largest l m -> reduce_max l = Fi m /\ is_float prec top m.
Proof.
  intros H (I & M). assert (O : Forall ordinary l) by (eapply Forall_impl; [|exact H]; intros e [-> |(x & -> & _)]; exact Logic.I).
  destruct (reduce_max_cases l O) as [(_ & A)|(m' & E & I' & M')]; [apply A in I; discriminate|].
  assert (m' = m) as -> by (pose proof (M _ I'); pose proof (M' _ I); lra). split; [exact E|].
  rewrite Forall_forall in H. destruct (H _ I) as [D|(x & D & F)]; [discriminate|]. now injection D as ->.
Qed.
(** The argument of tf.log of the sum, and its distance to the exact one. *)
Lemma sum_of_terms l m p : Forall (entry prec top) l -> largest l m -> (Z.of_nat (length l) <= 2 ^ prec)%Z -> adds_up p (length l) ->
  exists s, fsum prec top p (map (feexp top libexp) (fshifted prec top l)) = Fi s /\ fmt s /\ 1 <= s <= INR (length l) /\
    Rabs (ln s - (ln (exp_sum l) - m)) <= (INR (length l) - 1 + 8 / 5 * INR (length l)) * u.
Proof.
  intros H L N A. destruct (max_is l m H L) as (E & Fm). destruct L as (I & M). pose proof (u_pos prec) as U. 
  set (l' := map (feexp top libexp) (fshifted prec top l)). set (n := length l) in *.
  assert (Len : length l' = n) by (unfold l', fshifted; now rewrite !map_length).
  set (t := fun i => match nth i l' NaN with Fi r => r | _ => 0 end).
  assert (T : forall i, (i < n)%nat -> nth_error l' i = Some (Fi (t i)) /\ fmt (t i) /\ 0 <= t i <= 1 /\
                Rabs (t i - power (nth i l NaN) / exp m) <= 8 / 5 * u /\ (nth i l NaN = Fi m -> t i = 1)).
  { intros i Hi. assert (X : exists r, nth_error l' i = Some (Fi r) /\ fmt r /\ 0 <= r <= 1 /\ Rabs (r - power (nth i l NaN) / exp m) <= 8 / 5 * u /\ (nth i l NaN = Fi m -> r = 1)).
    { assert (HI : In (nth i l NaN) l) by (apply nth_In; exact Hi). pose proof H as H0. rewrite Forall_forall in H0. specialize (H0 _ HI).
      assert (Y : nth_error l' i = Some (feexp top libexp (fsub prec top (nth i l NaN) (Fi m)))).
      { unfold l', fshifted. rewrite E, map_map, nth_error_map, (nth_error_nth' _ NaN Hi). reflexivity. }
      destruct H0 as [Z|(x & Z & Fx)]; rewrite Z in *.
      - exists 0. split; [exact Y|]. split; [apply generic_format_0|]. split; [lra|]. split; [|discriminate]. cbn. unfold Rdiv. rewrite Rmult_0_l, Rminus_0_r, Rabs_R0. lra.
      - destruct (term_spec prec top W libexp x m FE Fx Fm (M x HI)) as (r & R1 & R2 & R3 & R4 & R5). exists r. split; [now rewrite Y, R1|]. split; [exact R2|]. split; [exact R3|].
        split; [cbn; replace (exp x / exp m) with (exp (x - m)) by (unfold Rminus; rewrite exp_plus, exp_Ropp; reflexivity); exact R4|]. intros D. injection D as ->. now apply R5. }
    destruct X as (r & X & Y). assert (t i = r) as ->; [|now split]. unfold t. now rewrite (nth_error_nth _ _ _ X). }
  destruct (sum_spec prec top W t l') with (p := p) as (s & S1 & S2 & S3 & S4 & S5 & S6).
  { intros i e X. destruct (T i) as (Y & _); [rewrite <- Len; apply nth_error_Some; congruence|]. congruence. }
  { intros i Hi. rewrite Len in Hi. destruct (T i Hi) as (_ & F & R & _). auto. }
  { intros i Hi. rewrite Len. apply (Permutation_in _ A) in Hi. apply in_seq in Hi. lia. }
  { rewrite (Permutation_length A), seq_length. exact N. }
  rewrite (Permutation_length A), seq_length in S3, S5, S6. rewrite (total_at_perm t _ _ A) in S5, S6.
  destruct (In_nth _ _ NaN I) as (k & Hk & Ek). fold n in Hk. destruct (T k Hk) as (_ & _ & _ & _ & Tk). specialize (Tk Ek).
  assert (Ik : In k (seq 0 n)) by (apply in_seq; lia).
  exists s. split; [exact S1|]. split; [exact S2|]. assert (s1 : 1 <= s) by (rewrite <- Tk; apply S4; apply (Permutation_in _ (Permutation_sym A)); exact Ik).
  split; [lra|]. set (s' := total_at t (seq 0 n)) in *. set (S := total_at (fun i => power (nth i l NaN) / exp m) (seq 0 n)).
  assert (ES : S = exp_sum l / exp m).
  { unfold S. rewrite (total_at_nth (fun e => power e / exp m)). unfold exp_sum. clear. induction l as [|e l IH]; cbn; [lra|]. rewrite IH. field. apply Rgt_not_eq, exp_pos. }
  assert (D : Rabs (s' - S) <= INR n * (8 / 5 * u)).
  { replace (INR n) with (INR (length (seq 0 n))) by now rewrite seq_length. apply total_at_close. intros i Hi. apply in_seq in Hi. apply T. lia. }
  assert (s'1 : 1 <= s') by (rewrite <- Tk; apply total_at_ge; [intros j Hj; apply in_seq in Hj; apply T; lia|exact Ik]).
  assert (PE : 0 < exp m) by apply exp_pos.
  assert (SS1 : 1 <= S).
  { assert (X : power (nth k l NaN) / exp m <= S).
    { unfold S. apply (total_at_ge (fun i => power (nth i l NaN) / exp m)); [|exact Ik]. intros j _. apply Rmult_le_pos; [destruct (nth j l NaN); cbn; try lra; left; apply exp_pos|left; now apply Rinv_0_lt_compat]. }
    rewrite Ek in X. cbn in X. unfold Rdiv in X. rewrite Rinv_r in X by lra. exact X. }
  assert (LS : ln (exp_sum l) - m = ln S).
  { rewrite ES. assert (0 < exp_sum l) by (apply Rmult_lt_reg_r with (/ exp m); [now apply Rinv_0_lt_compat|]; fold (exp_sum l / exp m); rewrite <- ES; lra).
    unfold Rdiv. rewrite ln_mult, ln_Rinv, ln_exp by (auto; now apply Rinv_0_lt_compat). ring. }
  rewrite LS. clear LS. assert (n1 : (1 <= n)%nat) by lia. replace (INR n - 1) with (INR (n - 1)) by (rewrite minus_INR by lia; reflexivity).
  set (a := 8 / 5 * INR n * u). assert (a0 : 0 <= a) by (unfold a; pose proof (pos_INR n); nra).
  assert (EX : forall x y, 1 <= x -> 1 <= y -> y <= x + a -> y <= x * exp a) by (intros x y Hx Hy H'; pose proof (exp_ineq1_le a); nra).
  apply Rabs_le_inv in D. pose proof (pow_exp u (n - 1) (Rlt_le _ _ U)) as PX.
  pose proof (exp_pos (INR (n - 1) * u)) as P1. pose proof (exp_pos a) as P2.
  assert (G : forall x y z, 1 <= x -> 1 <= y -> y <= x + a -> 1 <= z -> z <= y * (1 + u) ^ (n - 1) -> ln z <= ln x + (INR (n - 1) * u + a)).
  { intros x y z Hx Hy H1 Hz H2. apply ln_ratio; try lra. rewrite exp_plus. pose proof (EX x y Hx Hy H1). apply Rle_trans with (y * exp (INR (n - 1) * u)); [nra|]. rewrite (Rmult_comm (exp (INR (n - 1) * u))), <- Rmult_assoc. apply Rmult_le_compat_r; lra. }
  assert (G' : forall x y z, 1 <= x -> 1 <= y -> y <= z + a -> 1 <= z -> z <= x * (1 + u) ^ (n - 1) -> ln y <= ln x + (INR (n - 1) * u + a)).
  { intros x y z Hx Hy H1 Hz H2. apply ln_ratio; try lra. rewrite exp_plus. pose proof (EX z y Hz Hy H1). apply Rle_trans with (z * exp a); [assumption|]. rewrite <- Rmult_assoc. apply Rmult_le_compat_r; nra. }
  replace ((INR (n - 1) + 8 / 5 * INR n) * u) with (INR (n - 1) * u + a) by (unfold a; ring).
  apply Rabs_le. pose proof (G S s' s SS1 s'1 ltac:(unfold a; lra) s1 S5). pose proof (G' s S s' s1 SS1 ltac:(unfold a; lra) s'1 S6). lra.
Qed.

(** log_sum_exp: for every list of up to 2^prec floats and minus infinities, however large
    and however summed, nothing overflows; the result is a float not below the maximum and
    within (|v| + 5 n) u of the logarithm of the sum of the exponentials. *)
Theorem C55_log_sum_exp p p1 keepdims l m : Forall (entry prec top) l -> largest l m -> (Z.of_nat (length l) <= 2 ^ prec)%Z ->
  adds_up p (length l) -> adds_up p1 1 ->
  exists v, flog_sum_exp prec top libexp liblog p p1 keepdims l = Fi v /\ is_float prec top v /\ m <= v /\
    Rabs (v - ln (exp_sum l)) <= (Rabs v + 5 * INR (length l)) * u.
Proof.
  intros H L N A A1. destruct (max_is l m H L) as (E & Fm). destruct (sum_of_terms l m p H L N A) as (s & S1 & S2 & S3 & S4).
  pose proof (u_pos prec) as U. pose proof W as (w1 & w2 & _).
  assert (Bs : s <= bpow radix2 prec).
  { rewrite <- (IZR_Zpower radix2) by lia. eapply Rle_trans; [apply S3|]. rewrite INR_IZR_INZ. apply IZR_le. exact N. }
  assert (Fs : is_float prec top s). { split; [exact S2|]. rewrite Rabs_pos_eq by lra. eapply Rle_lt_trans; [exact Bs|]. apply bpow_lt. lia. }
  destruct (lib_log_spec prec top W liblog s FL Fs) as (L1 & L2 & L3 & L4 & L5 & _).
  { split; [|exact Bs]. apply Rle_trans with 1; [apply (bpow_le radix2 _ 0); lia|lra]. }
  destruct (add_back prec top W (liblog s) m L2 Fm L3) as (v & V1 & V2 & V3 & V4 & _).
  exists v. split; [|split; [exact V2|split; [apply V4, L5; lra|]]].
  - unfold flog_sum_exp. rewrite S1, L1, E, V1. destruct keepdims; [reflexivity|]. apply plan_one; auto. apply Permutation_sym, Permutation_length_1_inv in A1. exact A1.
  - assert (ls : 0 <= ln s <= INR (length l) - 1).
    { split; [rewrite <- ln_1; apply ln_le'; lra|]. pose proof (ln_le_sub s). lra. }
    rewrite (Rabs_pos_eq (ln s)) in L4 by lra. apply Rabs_le_inv in V3, L4, S4. pose proof (Rabs_pos v).
    set (n := INR (length l)) in *. assert (2 * u * ln s <= 2 * u * (n - 1)) by nra. apply Rabs_le. split; nra.
Qed.
Theorem C55_log_mean_exp p p1 keepdims l m : Forall (entry prec top) l -> largest l m -> (Z.of_nat (length l) <= 2 ^ prec)%Z ->
  adds_up p (length l) -> adds_up p1 1 ->
  exists v, flog_mean_exp prec top libexp liblog p p1 keepdims l = Fi v /\ is_float prec top v /\ v <= m /\
    Rabs (v - ln (exp_sum l / INR (length l))) <= (Rabs v + 5 * INR (length l)) * u.
Proof.
  intros H L N A A1. destruct (max_is l m H L) as (E & Fm). destruct (sum_of_terms l m p H L N A) as (s & S1 & S2 & S3 & S4).
  pose proof (u_pos prec) as U. pose proof (u_quarter prec top W) as U4. pose proof W as (w1 & w2 & _). set (n := INR (length l)) in *.
  assert (n1 : 1 <= n) by lra. assert (nb : n <= bpow radix2 prec).
  { unfold n. rewrite <- (IZR_Zpower radix2) by lia. rewrite INR_IZR_INZ. apply IZR_le. exact N. }
  set (r := s / n). assert (in0 : 0 < / n) by (apply Rinv_0_lt_compat; lra).
  assert (r1 : / n <= r <= 1).
  { unfold r. split; [|apply (Rmult_le_reg_r n); [lra|]; unfold Rdiv; rewrite Rmult_assoc, Rinv_l; lra]. unfold Rdiv. nra. }
  assert (rb : bpow radix2 (- prec) <= r).
  { apply Rle_trans with (/ n); [|lra]. rewrite bpow_opp. apply Rinv_le; lra. }
  set (mu := nearest prec top r). pose proof (bpow_gt_0 radix2 (- prec)) as B0.
  assert (mub : bpow radix2 (- prec) <= mu) by (apply near_ge_fmt; auto; apply fmt_bpow; auto; lia).
  assert (mu1 : mu <= 1) by (apply near_le_fmt; auto; [now apply fmt_1|lra]).
  assert (NB : bpow radix2 (3 - top - prec + prec - 1) <= Rabs r).
  { rewrite Rabs_pos_eq by lra. eapply Rle_trans; [|exact rb]. apply bpow_le. lia. }
  assert (R1 : mu <= r * (1 + u)).
  { pose proof (relative_error_N_FLT radix2 (3 - top - prec) prec (prec_pos prec top W) (fun z => negb (Z.even z)) r NB) as X.
    change (round radix2 (FLT_exp (3 - top - prec) prec) ZnearestE r) with mu in X. rewrite half_bpow, (Rabs_pos_eq r) in X by lra. apply Rabs_le_inv in X. lra. }
  assert (R2 : r <= mu * (1 + u)).
  { pose proof (relative_error_N_FLT_round radix2 (3 - top - prec) prec (prec_pos prec top W) (fun z => negb (Z.even z)) r NB) as X.
    change (round radix2 (FLT_exp (3 - top - prec) prec) ZnearestE r) with mu in X. rewrite half_bpow, (Rabs_pos_eq mu) in X by lra. apply Rabs_le_inv in X. lra. }
  assert (Fmu : is_float prec top mu). { split; [now apply near_fmt|]. apply (below_top prec top W). rewrite Rabs_pos_eq; lra. }
  destruct (lib_log_spec prec top W liblog mu FL Fmu) as (L1 & L2 & L3 & L4 & _ & L6).
  { split; [exact mub|]. apply Rle_trans with 1; [lra|]. apply (bpow_le radix2 0). lia. }
  destruct (add_back prec top W (liblog mu) m L2 Fm L3) as (v & V1 & V2 & V3 & _ & V5).
  exists v. split; [|split; [exact V2|split; [now apply V5, L6|]]].
  - unfold flog_mean_exp. rewrite S1. assert (DV : forall x k, INR k <> 0 -> fdivn prec top (Fi x) k = overflow top (nearest prec top (x / INR k))).
    { intros x k Hk. unfold fdivn, ediv. destruct (Req_EM_T (INR k) 0); [contradiction|reflexivity]. }
    rewrite DV by (fold n; lra). fold n r mu. rewrite overflow_small by apply Fmu. rewrite L1, E, V1. destruct keepdims; [reflexivity|].
    destruct (plan_one prec top v p1 V2) as (_ & P1). rewrite P1 by (apply Permutation_sym, Permutation_length_1_inv in A1; exact A1).
    rewrite DV by (cbn; lra). replace (v / INR 1) with v by (cbn; field). rewrite near_id by apply V2. apply overflow_small, V2.
  - assert (X1 : ln mu <= ln r + u). { pose proof (exp_ineq1_le u). apply ln_ratio; try lra. apply Rle_trans with (r * (1 + u)); [exact R1|]. apply Rmult_le_compat_l; lra. }
    assert (X2 : ln r <= ln mu + u). { pose proof (exp_ineq1_le u). apply ln_ratio; try lra. apply Rle_trans with (mu * (1 + u)); [exact R2|]. apply Rmult_le_compat_l; lra. }
    assert (X3 : ln r = ln s - ln n). { unfold r, Rdiv. rewrite ln_mult, ln_Rinv by lra. ring. }
    assert (ls : 0 <= ln s) by (rewrite <- ln_1; apply ln_le'; lra).
    assert (lnn : ln n <= n - 1) by (apply ln_le_sub; lra).
    assert (lm : ln mu <= 0) by (rewrite <- ln_1; apply ln_le'; lra).
    assert (ES : 0 < exp_sum l).
    { destruct L as (I & _). clear - I. unfold exp_sum. assert (Z : forall k, 0 <= fold_right Rplus 0 (map power k)) by (induction k as [|e k IH]; cbn; [lra|destruct e; cbn; try lra; pose proof (exp_pos r); lra]).
      induction l as [|e l IH]; [destruct I|]. cbn. destruct I as [->|I]; [cbn; pose proof (exp_pos m); specialize (Z l); lra|]. specialize (IH I). destruct e; cbn; try lra. pose proof (exp_pos r); lra. }
    assert (X4 : ln (exp_sum l / n) = ln (exp_sum l) - ln n). { unfold Rdiv. rewrite ln_mult, ln_Rinv by lra. ring. }
    rewrite X4. rewrite (Rabs_left1 (ln mu)) in L4 by lra. apply Rabs_le_inv in V3, L4, S4. pose proof (Rabs_pos v).
    assert (2 * u * - ln mu <= 2 * u * (n - 1 + u)) by nra. assert (u * u <= u * (1 / 4)) by nra. apply Rabs_le. split; nra.
Qed.

(** The acceptance rate is a number between 0 and 1 whatever happens, exactly 1 when the
    Hamiltonian does not increase, and within 8/5 u of the exact min(1, exp(...)). *)
Theorem C55_acceptance old_h new_h new_lp :
  (forall h, h = old_h \/ h = new_h -> match h with Fi x => is_float prec top x | _ => True end) ->
  (exists a, facceptance prec top libexp old_h new_h new_lp = Fi a /\ 0 <= a <= 1) /\
  (forall x y z, old_h = Fi x -> new_h = Fi y -> new_lp = Fi z ->
     exists a, facceptance prec top libexp old_h new_h new_lp = Fi a /\ (y <= x -> a = 1) /\ Rabs (a - Rmin 1 (exp (x - y))) <= 8 / 5 * u).
Proof.
  intros FH. pose proof (u_pos prec) as U.
  assert (Core : forall x y, is_float prec top x -> is_float prec top y ->
    exists a, feexp top libexp (emin (fadd prec top (Fi (- y)) (Fi x)) (Fi 0)) = Fi a /\ 0 <= a <= 1 /\ (y <= x -> a = 1) /\ Rabs (a - Rmin 1 (exp (x - y))) <= 8 / 5 * u).
  { intros x y Fx Fy. assert (One : feexp top libexp (Fi 0) = Fi 1).
    { cbn. assert (F0 : is_float prec top 0) by (split; [apply generic_format_0|rewrite Rabs_R0; apply bpow_gt_0]).
      destruct (lib_exp_spec prec top W libexp 0 FE F0 (Rle_refl 0)) as (_ & _ & _ & Z). rewrite (Z eq_refl). apply overflow_small, (below_top prec top W). rewrite Rabs_R1. lra. }
    destruct (Rle_or_lt y x) as [Le|Lt].
    - exists 1. assert (D : 0 <= nearest prec top (- y + x)) by (apply near_ge_fmt; auto; [apply generic_format_0|lra]).
      assert (E : emin (fadd prec top (Fi (- y)) (Fi x)) (Fi 0) = Fi 0).
      { unfold fadd. cbn [eadd rounded]. unfold overflow. destruct (Rlt_dec _ _) as [O|O]; cbn [emin]; [rewrite Rmin_right by assumption; reflexivity|].
        destruct (Rlt_dec _ _) as [O'|O']; [reflexivity|]. exfalso. apply O. assert (Z : nearest prec top (- y + x) = 0) by lra. rewrite Z, Rabs_R0. apply bpow_gt_0. }
      rewrite E. split; [exact One|]. split; [lra|]. split; [reflexivity|]. rewrite Rmin_left; [rewrite Rminus_diag_eq, Rabs_R0 by reflexivity; lra|]. rewrite <- exp_0. apply exp_le. lra.
    - destruct (term_spec prec top W libexp x y FE Fx Fy (Rlt_le _ _ Lt)) as (a & A1 & A2 & A3 & A4 & _). exists a.
      assert (E : emin (fadd prec top (Fi (- y)) (Fi x)) (Fi 0) = fsub prec top (Fi x) (Fi y)).
      { unfold fadd, fsub, esub. cbn [eadd eneg rounded]. rewrite (Rplus_comm (- y)). assert (D : nearest prec top (x + - y) <= 0) by (apply near_le_fmt; auto; [apply generic_format_0|lra]).
        unfold overflow. destruct (Rlt_dec _ _); cbn [emin]; [now rewrite Rmin_left|]. destruct (Rlt_dec 0 _); [lra|reflexivity]. }
      rewrite E. split; [exact A1|]. split; [exact A3|]. split; [lra|]. rewrite Rmin_right; [exact A4|]. rewrite <- exp_0. apply exp_le. lra. }
  split.
  - unfold facceptance. assert (Zero : exists a, Fi 0 = Fi a /\ 0 <= a <= 1) by (exists 0; split; [reflexivity|lra]).
    destruct (is_finite new_lp); [|rewrite andb_false_r; exact Zero]. rewrite andb_true_r.
    assert (One : feexp top libexp (Fi 0) = Fi 1).
    { cbn. assert (F0 : is_float prec top 0) by (split; [apply generic_format_0|rewrite Rabs_R0; apply bpow_gt_0]).
      destruct (lib_exp_spec prec top W libexp 0 FE F0 (Rle_refl 0)) as (_ & _ & _ & Z). rewrite (Z eq_refl). apply overflow_small, (below_top prec top W). rewrite Rabs_R1. lra. }
    destruct old_h as [x| | |], new_h as [y| | |]; try exact Zero; try (cbn [eneg fadd eadd rounded emin]; rewrite ?One; cbn; try exact Zero; exists 1; split; [reflexivity|lra]).
    destruct (Core x y) as (a & A1 & A2 & _); [exact (FH (Fi x) (or_introl eq_refl))|exact (FH (Fi y) (or_intror eq_refl))|].
    cbn [eneg]. rewrite A1. exists a. auto.
  - intros x y z -> -> ->. destruct (Core x y) as (a & A1 & A2 & A3 & A4); [exact (FH (Fi x) (or_introl eq_refl))|exact (FH (Fi y) (or_intror eq_refl))|].
    exists a. unfold facceptance. cbn [eneg]. rewrite A1. cbn. auto.
Qed.
End Statements.

(** Without the shift by the maximum the sum overflows at a single ordinary float. *)
Theorem C55_unshifted_refuted prec top libexp liblog : wide prec top -> faithful_exp prec top libexp ->
  exists x, is_float prec top x /\ felog top liblog (fsum prec top (Entry 0) (map (feexp top libexp) [Fi x])) = PInf.
Proof.
  intros W FE. pose proof W as (w1 & w2 & _). exists (bpow radix2 (top - 1)).
  assert (F : is_float prec top (bpow radix2 (top - 1))).
  { split; [apply fmt_bpow; auto; lia|]. rewrite Rabs_pos_eq by (left; apply bpow_gt_0). apply bpow_lt. lia. }
  split; [exact F|]. cbn [map fsum nth feexp].
  assert (G : bpow radix2 top <= libexp (bpow radix2 (top - 1))).
  { apply (faithful_ge prec top W _ _ _ _ (FE _ F)); [apply fmt_bpow; auto; lia|]. rewrite (bpow_exp radix2 top). apply exp_le. cbn [radix_val radix2].
    pose proof ln_2_le as L2. assert (T : IZR top <= bpow radix2 (top - 1)).
    { rewrite <- (IZR_Zpower radix2) by lia. apply IZR_le. change (Zpower radix2 (top - 1)) with (2 ^ (top - 1))%Z. pose proof (Z.pow_gt_lin_r 2 (top - 1)). lia. }
    assert (0 <= IZR top) by (apply IZR_le; lia). nra. }
  pose proof (bpow_gt_0 radix2 top). unfold overflow. rewrite Rabs_pos_eq by lra. destruct (Rlt_dec _ _); [lra|]. destruct (Rlt_dec _ _); [reflexivity|lra].
Qed.

(** tf.float32, tf.float64, half and bfloat16. *)
Example C55_formats : wide 24 128 /\ wide 53 1024 /\ wide 11 16 /\ wide 8 128.
Proof. unfold wide. repeat split; try lia; cbn; reflexivity. Qed.
(** Correctly rounded functions are faithful. *)
Example C55_library prec top : wide prec top ->
  faithful_exp prec top (fun x => nearest prec top (exp x)) /\ faithful_log prec top (fun x => nearest prec top (ln x)).
Proof. intros W. split; intros x; intros; apply round_DN_or_UP; apply valid_rnd_N. Qed.
(** Three entries far apart, one of them near the largest float32, added from the right. *)
Example C55_case : let l := [Fi (bpow radix2 127); MInf; Fi (- bpow radix2 127); Fi 1] in
  Forall (entry 24 128) l /\ largest l (bpow radix2 127) /\ (Z.of_nat (length l) <= 2 ^ 24)%Z /\
  adds_up (Plus (Entry 0) (Plus (Entry 1) (Plus (Entry 3) (Plus (Entry 2) Zero)))) (length l) /\ adds_up (Entry 0) 1.
Proof.
  pose proof (proj1 C55_formats) as W. assert (F : is_float 24 128 (bpow radix2 127)).
  { split; [apply fmt_bpow; auto; lia|]. rewrite Rabs_pos_eq by (left; apply bpow_gt_0). apply bpow_lt. lia. }
  assert (B : 1 <= bpow radix2 127) by (apply (bpow_le radix2 0); lia).
  generalize dependent (bpow radix2 127). intros t F B. cbn [length]. split; [|split; [|split; [|split]]].
  - apply Forall_forall. intros e [<-|[<-|[<-|[<-|[]]]]]; [right|left; reflexivity|right|right]; eexists; (split; [reflexivity|]).
    + exact F.
    + now apply float_opp.
    + split; [now apply fmt_1|]. rewrite Rabs_R1. apply (bpow_lt radix2 0). lia.
  - split; [now left|]. intros x [E|[E|[E|[E|[]]]]]; try discriminate; injection E as <-; lra.
  - vm_compute. discriminate.
  - cbn. repeat constructor.
  - cbn. repeat constructor.
Qed.

Print Assumptions C55_log_sum_exp.
Print Assumptions C55_log_mean_exp.
Print Assumptions C55_acceptance.
Print Assumptions C55_unshifted_refuted.
