(** C66: the effective sample size in floating-point arithmetic. *)
From Coq Require Import List Arith Bool Reals ZArith Lra Lia Permutation.
From Flocq Require Import Core.
From Verif Require Import ModelExt ModelSpecial ModelNum ModelFloat ModelFloatSample ModelDist ModelDiag ModelFloatDiag SpecFloat SpecDist SpecDiag SpecFloatDiag ProofFloat ProofFloatSample ProofFloatDensity ProofFloatTune ProofDiscrete ProofVI ProofFloatDiag PropDiag PropFloat PropFloatSample.
Import ListNotations.
Local Open Scope R_scope.

Section Accuracy.
Variables prec top : Z.
Hypothesis A : ample prec top.
Notation u := (unit_roundoff prec).
Notation float := (is_float prec top).
Notation b e := (bpow radix2 e).
Variable r : Z.
Hypothesis R0 : (0 <= r)%Z.
Hypothesis RT : (2 * r + prec + 8 <= top)%Z.

(** The estimate is a number, and accurate for the lag at which the sum is cut; that lag is
    the right one up to autocorrelations that are nearly zero. *)
Theorem C66_value k s : let n := length s in let d := rho_error prec r s in
  (2 <= n)%nat -> nonconstant s -> chain_within prec top r s -> reduces k n -> (8 * Z.of_nat n <= 2 ^ prec)%Z -> 64 * INR n * d <= 1 ->
  exists T e, fess_1d prec top k (map Fi s) = Fi e /\ float e /\ (T <= n)%nat /\
    (forall t, (t < T)%nat -> - (2 * d) <= rho s t) /\ (T = n \/ rho s T <= 2 * d) /\
    let estimate := INR n / (1 + 2 * total (rho s) (seq 0 T)) in 0 < estimate /\ Rabs (e - estimate) <= 3 * INR n * d * estimate.
Proof.
  intros n d N2 NC C K L D. destruct (estimate_spec prec top A r R0 RT s C ltac:(intros ->; cbn in N2; lia) L N2 (variance_pos s NC) D k K) as (T & e & E & F & TL & P & End & G & X). exists T, e. split; [exact E|]. split; [exact F|]. split; [exact TL|]. split; [exact P|]. split; [destruct End as [|(_ & Q)]; auto|]. split; assumption.
Qed.
(** When no autocorrelation near the cut is nearly zero, it is close to the exact result. *)
Theorem C66_exact k s : let n := length s in let d := rho_error prec r s in
  (2 <= n)%nat -> nonconstant s -> chain_within prec top r s -> reduces k n -> (8 * Z.of_nat n <= 2 ^ prec)%Z -> 64 * INR n * d <= 1 -> clear_cut prec r s ->
  exists e e0, fess_1d prec top k (map Fi s) = Fi e /\ effective_sample_size_1d s = Some e0 /\ 0 < e0 /\ Rabs (e - e0) <= 3 * INR n * d * e0.
Proof.
  intros n d N2 NC C K L D (T0 & TL & P & Q). assert (d0 : 0 <= d) by (apply (d_nonneg prec r R0 s N2); now apply variance_pos). destruct (C66_value k s N2 NC C K L D) as (T & e & E & _ & TL' & P' & Q' & G & X). destruct (C41_value s N2 NC) as (T1 & e0 & E0 & TL1 & P1 & Q1 & V). cbv zeta in *. unfold n, d in *. clear n d.
  assert (T = T0). { destruct (lt_eq_lt_dec T T0) as [[I|I]|I]; [exfalso|exact I|exfalso]. - destruct Q' as [Q'|Q']; [lia|]. specialize (P T I). lra. - destruct Q as [Q|Q]; [lia|]. specialize (P' T0 I). lra. }
  assert (T1 = T0). { destruct (lt_eq_lt_dec T1 T0) as [[I|I]|I]; [exfalso|exact I|exfalso]. - destruct Q1 as [Q1|Q1]; [lia|]. specialize (P T1 I). lra. - destruct Q as [Q|Q]; [lia|]. specialize (P1 T0 I). lra. }
  subst T T1. exists e, e0. split; [exact E|]. split; [exact E0|]. rewrite V. split; assumption.
Qed.
End Accuracy.
Print Assumptions C66_value.
Print Assumptions C66_exact.

(** ** The smallest over the dimensions *)
Section Columns.
Variables prec top : Z.
Definition agree (eta : R) (x : ext) (y : option R) : Prop :=
  match x, y with PInf, None => True | Fi m, Some m0 => 0 < m0 /\ Rabs (m - m0) <= eta * m0 | _, _ => False end.
Lemma columns_close eta cs : 0 <= eta < 1 -> (forall k c, In (k, c) cs -> (2 <= length c)%nat /\ exists e e0, fess_1d prec top k (map Fi c) = Fi e /\ effective_sample_size_1d c = Some e0 /\ 0 < e0 /\ Rabs (e - e0) <= eta * e0) ->
  forall x y, agree eta x y -> exists x' y', fess_columns prec top (map (fun q => (fst q, map Fi (snd q))) cs) x = FEss x' /\ ess_columns (map snd cs) y = match y' with None => EssInf | Some m => Ess m end /\ agree eta x' y' /\ (cs <> [] \/ y <> None -> y' <> None).
Proof.
  intros He. induction cs as [|(k, c) cs IH]; intros H x y G.
  - exists x, y. cbn. split; [reflexivity|]. split; [destruct y; reflexivity|]. split; [exact G|]. intros [|]; easy.
  - destruct (H k c (or_introl eq_refl)) as (L & e & e0 & E & E0 & P & D). cbn [map fess_columns ess_columns fst snd]. rewrite map_length, E, E0. replace (Nat.eqb (length c) 1) with false by (symmetry; apply Nat.eqb_neq; lia).
    assert (Q : eta * e0 < e0) by nra. assert (e1 : 0 < e) by (apply Rabs_le_inv in D; lra). cbn [eltb]. destruct (Rlt_dec e 0); [lra|]. destruct (Rlt_dec e0 0); [lra|]. destruct (Rlt_dec 0 e); [|lra]. destruct (Rlt_dec 0 e0); [|lra]. cbn [orb].
    destruct (IH ltac:(intros; apply H; now right) (if eltb (Fi e) x then Fi e else x) (match y with None => Some e0 | Some m => Some (Rmin m e0) end)) as (x' & y' & Ex & Ey & Gx & Ne).
    { destruct x as [m| | |], y as [m0|]; cbn in G; try contradiction; [|cbn; auto]. destruct G as (M0 & G). cbn [eltb]. assert (Qm : eta * m0 < m0) by nra. apply Rabs_le_inv in G, D. assert (D' := D).
      destruct (Rlt_dec e m) as [I|I]; cbn; unfold Rmin; destruct (Rle_dec m0 e0); (split; [lra|]); apply Rabs_le; nra. }
    exists x', y'. cbn [eltb] in Ex. split; [exact Ex|]. split; [exact Ey|]. split; [exact Gx|]. intros _. apply Ne. right. destruct y; discriminate.
Qed.
End Columns.

(** Every dimension contributes; the result is as close as the estimates. *)
Theorem C66_columns prec top r : ample prec top -> (0 <= r)%Z -> (2 * r + prec + 8 <= top)%Z -> forall plans dim samples burn_in eta, (0 < dim)%nat ->
  let n := (length samples - burn_in)%nat in (2 <= n)%nat -> (8 * Z.of_nat n <= 2 ^ prec)%Z -> eta < 1 ->
  (forall j, (j < dim)%nat -> let s := column (skipn burn_in samples) j in
     nonconstant s /\ chain_within prec top r s /\ reduces (plans j) n /\ 64 * INR n * rho_error prec r s <= 1 /\ clear_cut prec r s /\ 3 * INR n * rho_error prec r s <= eta) ->
  exists m m0, fess prec top plans dim (map (map Fi) samples) burn_in = FEss (Fi m) /\ effective_sample_size dim samples burn_in = Ess m0 /\ 0 < m0 /\ Rabs (m - m0) <= eta * m0.
Proof.
  intros A R0 RT plans dim samples burn_in eta D0 n N2 L H1 H. set (cs := map (fun j => (plans j, column (skipn burn_in samples) j)) (seq 0 dim)).
  assert (Len : forall j, length (column (skipn burn_in samples) j) = n) by (intros j; unfold column; rewrite map_length, skipn_length; reflexivity).
  assert (dn : forall j, (j < dim)%nat -> 0 <= rho_error prec r (column (skipn burn_in samples) j)). { intros j J. destruct (H j J) as (NC & _). apply (d_nonneg prec r R0 _); [rewrite Len; exact N2|now apply variance_pos]. }
  assert (E0 : 0 <= eta). { destruct (H 0%nat D0) as (_ & _ & _ & _ & _ & Q). pose proof (dn 0%nat D0) as d0. eapply Rle_trans; [|exact Q]. apply Rmult_le_pos; [|exact d0]. apply Rmult_le_pos; [lra|apply pos_INR]. }
  destruct (columns_close prec top eta cs ltac:(lra)) with (x := PInf) (y := @None R) as (x' & y' & Ex & Ey & G & Ne).
  - intros k c I. apply in_map_iff in I as (j & Q & J). injection Q as <- <-. apply in_seq in J. destruct (H j ltac:(lia)) as (NC & C & K & S & CC & B). rewrite Len. split; [exact N2|].
    destruct (C66_exact prec top A r R0 RT (plans j) (column (skipn burn_in samples) j)) as (e & e0 & X1 & X2 & X3 & X4); try (rewrite Len; assumption); try assumption. rewrite Len in X4. exists e, e0. split; [exact X1|]. split; [exact X2|]. split; [exact X3|]. eapply Rle_trans; [exact X4|]. apply Rmult_le_compat_r; lra.
  - exact I.
  - assert (Y : y' <> None) by (apply Ne; left; unfold cs; destruct dim; [lia|discriminate]). destruct y' as [m0|]; [|contradiction]. destruct x' as [m| | |]; cbn in G; try contradiction. exists m, m0. split; [|split; [|exact G]].
    + rewrite <- Ex. unfold fess, cs. f_equal. rewrite map_map. cbn [fst snd]. apply map_ext. intros j. f_equal. unfold column. rewrite skipn_map, !map_map. apply map_ext. intros q. change (Fi 0) with (Fi 0). rewrite (map_nth Fi). reflexivity.
    + unfold effective_sample_size. unfold cs in Ey. rewrite map_map in Ey. cbn [snd] in Ey. exact Ey.
Qed.
Print Assumptions C66_columns.

(** ** Samples that are not finite *)
Theorem C66_not_finite prec top k s x : In x s -> not_finite x -> reduces k (length s) -> fess_1d prec top k s = NaN.
Proof. intros I N (_ & K2 & K3 & _). now apply (bad_column prec top k s x). Qed.
Print Assumptions C66_not_finite.
Theorem C66_assertion prec top plans dim samples burn_in j x : (2 <= length samples - burn_in)%nat -> (j < dim)%nat -> (forall i, reduces (plans i) (length samples - burn_in)) ->
  In x (map (fun q => nth j q (Fi 0)) (skipn burn_in samples)) -> not_finite x -> fess prec top plans dim samples burn_in = FEssAssertionError.
Proof.
  intros N2 J K I NF. unfold fess. assert (G : forall l c, In j l -> fess_columns prec top (map (fun d => (plans d, map (fun r => nth d r (Fi 0)) (skipn burn_in samples))) l) c = FEssAssertionError).
  { induction l as [|i l IH]; intros c; [intros []|]. intros Hj. cbn [map fess_columns]. rewrite map_length, skipn_length. replace (Nat.eqb _ 1) with false by (symmetry; apply Nat.eqb_neq; lia). set (s := map (fun r => nth i r (Fi 0)) (skipn burn_in samples)).
    destruct Hj as [->|Hj]; [rewrite (C66_not_finite prec top (plans j) s x I NF); [reflexivity|]; unfold s; rewrite map_length, skipn_length; apply K|]. destruct (eltb (fess_1d prec top (plans i) s) (Fi 0) || _)%bool; [reflexivity|]. destruct (eltb (Fi 0) _); now apply IH. }
  apply G, in_seq. lia.
Qed.
Print Assumptions C66_assertion.

(** ** What fails *)
(** The squares of large samples overflow: NaN, although the exact value is 2. *)
Theorem C66_large_refuted prec top e : ample prec top -> (top <= 2 * e)%Z -> (e + 2 <= top)%Z -> let x := bpow radix2 e in
  is_float prec top x /\ fess_1d prec top (numpy_reductions 2) [Fi (- x); Fi x] = NaN /\ effective_sample_size_1d [- x; x] = Some 2.
Proof.
  intros A E1 E2 x. pose proof A as (W & p3 & _). pose proof (top_big prec top A) as TB. assert (x0 : 0 < x) by apply bpow_gt_0. assert (Fx : is_float prec top x) by (split; [apply (fmt_bpow prec top W); lia|rewrite Rabs_pos_eq by lra; apply bpow_lt; lia]).
  assert (Fo : is_float prec top (- x)) by now apply (float_opp prec top). split; [exact Fx|]. split; [|apply (proj2 (proj2 (proj2 C41_degenerate))); lra].
  assert (RX : forall y, is_float prec top y -> rounded prec top (Fi y) = Fi y) by apply (rounded_float prec top). pose proof (float_0 prec top) as F0. unfold fess_1d.
  assert (M : fmean prec top (numpy_plan 2) [Fi (- x); Fi x] = Fi 0).
  { unfold fmean. cbn [numpy_plan Nat.leb left_to_right fsum nth length]. unfold fadd. cbn [eadd]. rewrite Rplus_0_l, (RX _ Fo). cbn [eadd]. replace (- x + x) with 0 by ring. rewrite (RX _ F0). unfold fdivn, ediv. destruct (Req_EM_T (INR 2) 0); [cbn in *; lra|]. unfold Rdiv. rewrite Rmult_0_l. apply RX, F0. }
  assert (S : forall y, is_float prec top y -> fsub prec top (Fi y) (Fi 0) = Fi y) by (intros y Fy; unfold fsub, esub; cbn [eneg eadd]; rewrite Ropp_0, Rplus_0_r; now apply RX).
  assert (SQ : forall y, y = x * x -> rounded prec top (Fi y) = PInf). { intros y ->. assert (Q : x * x = bpow radix2 (2 * e)) by (unfold x; rewrite <- bpow_plus; f_equal; lia). rewrite Q. cbn [rounded]. rewrite (near_id prec top) by (apply (fmt_bpow prec top W); lia). unfold overflow. rewrite Rabs_pos_eq by apply bpow_ge_0. destruct (Rlt_dec _ _) as [I|I]; [exfalso; apply (Rlt_not_le _ _ I), bpow_le; lia|]. pose proof (bpow_gt_0 radix2 (2 * e)). destruct (Rlt_dec 0 _); [reflexivity|lra]. }
  assert (P1 : fmul prec top (Fi (- x)) (Fi (- x)) = PInf) by (unfold fmul; cbn [emul]; apply SQ; ring). assert (P2 : fmul prec top (Fi x) (Fi x) = PInf) by (unfold fmul; cbn [emul]; now apply SQ).
  assert (MI : fmean prec top (numpy_plan 2) [PInf; PInf] = PInf) by (unfold fmean; cbn [numpy_plan Nat.leb left_to_right fsum nth length fadd eadd rounded]; unfold fadd; cbn [eadd rounded]; unfold fdivn, ediv; destruct (Rlt_dec (INR 2) 0); [cbn in *; lra|reflexivity]).
  assert (V : fnp_var prec top (numpy_plan 2) (numpy_plan 2) [Fi (- x); Fi x] = PInf) by (unfold fnp_var; rewrite M; cbn [map]; rewrite (S _ Fx), (S _ Fo), P1, P2; exact MI).
  assert (i2 : INR 2 = 2) by (cbn; lra). assert (FV : fvar prec top (numpy_reductions 2) [Fi (- x); Fi x] = PInf).
  { unfold fvar. cbn [numpy_reductions p_var_mean p_var length]. rewrite V, i2. unfold fmul, fdiv. cbn [emul]. destruct (Rlt_dec 0 2); [|lra]. cbn [rounded ediv2 ediv]. destruct (Rlt_dec (2 - 1) 0); [lra|reflexivity]. }
  assert (C : fauto_covariance prec top (numpy_plan 2) (Fi 0) [Fi (- x); Fi x] 0 = PInf) by (unfold fauto_covariance; cbn [length Nat.sub firstn skipn combine map fst snd]; rewrite (S _ Fx), (S _ Fo), P1, P2; exact MI).
  assert (R : frho prec top (numpy_reductions 2) [Fi (- x); Fi x] 0 = NaN).
  { unfold frho. cbn [numpy_reductions p_mean p_lag Nat.sub]. rewrite M, FV, C. change (fsub prec top PInf PInf) with NaN. rewrite nan_div by auto. reflexivity. }
  cbn [length fsum_rho_loop]. rewrite R. cbn [eltb]. change (fadd prec top (Fi 0) NaN) with NaN. change (fadd prec top NaN ?y) with NaN. rewrite nan_mul by (destruct (eltb _ _); auto). change (fadd prec top (Fi 1) NaN) with NaN. now apply nan_div; right.
Qed.
Print Assumptions C66_large_refuted.

(** A chain that never moves should be refused (its variance is zero). When the mean of its
    equal values is rounded to another number, it is reported as half a sample. *)
Theorem C66_constant_refuted prec top : ample prec top -> (11 <= prec)%Z -> (prec + 5 <= top)%Z -> let x := bpow radix2 prec - 1 in
  is_float prec top x /\ effective_sample_size_1d (repeat x 10) = None /\
  exists e, fess_1d prec top (numpy_reductions 10) (map Fi (repeat x 10)) = Fi e /\ 1 / 2 <= e <= 9 / 16.
Proof.
  intros A P11 T5 x. pose proof A as (W & p3 & _). assert (B11 : 2048 <= bpow radix2 prec) by (apply (bpow_le radix2 11); lia). assert (I11 : (2048 <= 2 ^ prec)%Z) by (apply (Z.pow_le_mono_r 2 11 prec); lia).
  assert (Fx : is_float prec top x). { unfold x. replace (bpow radix2 prec - 1) with (IZR (2 ^ prec - 1)) by (rewrite minus_IZR, (pow_prec prec top A); reflexivity). apply (float_count prec top A). lia. }
  split; [exact Fx|]. split; [apply ess_constant; [cbn; lia|]; intros y z Hy Hz; apply repeat_spec in Hy, Hz; congruence|]. set (s := map Fi (repeat x 10)). set (k := numpy_reductions 10).
  pose proof (stuck_mean prec top A P11 T5) as M. fold x s in M. assert (One : fsub prec top (Fi x) (Fi (bpow radix2 prec - 2)) = Fi 1). { unfold fsub, esub. cbn [eneg eadd]. replace (x + - (bpow radix2 prec - 2)) with 1 by (unfold x; ring). apply (rounded_float prec top), (float_1 prec top A). }
  assert (One2 : fmul prec top (Fi 1) (Fi 1) = Fi 1) by (apply (fmul_1_l prec top), (float_1 prec top A)). assert (Hs : forall y, In y s -> y = Fi x) by (intros y I; apply in_map_iff in I as (z & <- & I); apply repeat_spec in I; now rewrite I).
  assert (Ad : forall m, (m <= 10)%nat -> adds_up (numpy_plan m) m) by (intros m Hm; unfold adds_up; do 11 (destruct m as [|m]; [apply Permutation_refl|]); lia).
  assert (V : fnp_var prec top (p_var_mean k) (p_var k) s = Fi 1). { unfold fnp_var. cbn [k numpy_reductions p_var_mean p_var]. rewrite M. apply (mean_ones prec top A); [intros y I; now rewrite (Hs y I), One|discriminate|now apply Ad|cbn; lia]. }
  assert (C : forall lag, (lag < 10)%nat -> fauto_covariance prec top (p_lag k lag) (fmean prec top (p_mean k) s) s lag = Fi 1).
  { intros lag Hl. unfold fauto_covariance. cbn [k numpy_reductions p_mean p_lag]. rewrite M. assert (Ls : length s = 10%nat) by reflexivity. rewrite Ls. assert (Lc : length (combine (firstn (10 - lag) s) (skipn lag s)) = (10 - lag)%nat) by (rewrite combine_length, firstn_length, skipn_length, Ls; lia).
    apply (mean_ones prec top A); [|intros Z; rewrite Z in Lc; cbn [length] in Lc; lia|rewrite Lc; apply Ad; lia|rewrite Lc; lia]. intros (y, z) I. cbn [fst snd]. pose proof (in_combine_l _ _ _ _ I) as I1. pose proof (in_combine_r _ _ _ _ I) as I2.
    rewrite (Hs y), (Hs z), One; [exact One2|rewrite <- (firstn_skipn lag s); apply in_or_app; now right|rewrite <- (firstn_skipn (10 - lag) s); apply in_or_app; now left]. }
  assert (f64 : forall j, (0 <= j <= 2048)%Z -> generic_format radix2 (fexpo prec top) (IZR j / 64)). { intros j J. replace (IZR j / 64) with (IZR j * bpow radix2 (-6)) by (cbn; lra). apply (fmt_dyadic prec top A P11 T5); lia. }
  assert (f128 : forall j, (0 <= j <= 2048)%Z -> generic_format radix2 (fexpo prec top) (IZR j / 128)). { intros j J. replace (IZR j / 128) with (IZR j * bpow radix2 (-7)) by (cbn; lra). apply (fmt_dyadic prec top A P11 T5); lia. }
  assert (f16 : forall j, (0 <= j <= 2048)%Z -> generic_format radix2 (fexpo prec top) (IZR j / 16)). { intros j J. replace (IZR j / 16) with (IZR j * bpow radix2 (-4)) by (cbn; lra). apply (fmt_dyadic prec top A P11 T5); lia. }
  assert (TEN : INR (length s) = 10) by (cbn; lra). assert (M10 : fmul prec top (Fi 1) (Fi 10) = Fi 10) by (apply (fmul_1_l prec top), (float_count prec top A 10); lia).
  destruct (between prec top A P11 T5 (71 / 64) (72 / 64) (10 / (10 - 1)) (f64 71%Z ltac:(lia)) (f64 72%Z ltac:(lia)) ltac:(lra) ltac:(lra) ltac:(lra)) as (v & Ev & Fv & Bv).
  assert (EV : fvar prec top k s = Fi v) by (unfold fvar; rewrite V, TEN, M10, fdiv_fi by lra; exact Ev).
  destruct (between prec top A P11 T5 (639 / 64) (648 / 64) (v * (10 - 1)) (f64 639%Z ltac:(lia)) (f64 648%Z ltac:(lia)) ltac:(lra) ltac:(lra) ltac:(lra)) as (w & Ew & Fw & Bw).
  destruct (between prec top A P11 T5 (127 / 128) (130 / 128) (w / 10) (f128 127%Z ltac:(lia)) (f128 130%Z ltac:(lia)) ltac:(lra) ltac:(lra) ltac:(lra)) as (p & Ep & Fp & Bp).
  assert (EP : fvar_plus prec top k s = Fi p) by (unfold fvar_plus; rewrite EV, TEN; unfold fmul; cbn [emul]; rewrite Ew, fdiv_fi by lra; exact Ep).
  destruct (between prec top A P11 T5 (7 / 64) (8 / 64) (v + - (1)) (f64 7%Z ltac:(lia)) (f64 8%Z ltac:(lia)) ltac:(lra) ltac:(lra) ltac:(lra)) as (g & Eg & Fg & Bg).
  destruct (between prec top A P11 T5 (13 / 128) (17 / 128) (g / p) (f128 13%Z ltac:(lia)) (f128 17%Z ltac:(lia)) ltac:(lra)) as (q & Eq & Fq & Bq).
  { split; (apply (Rmult_le_reg_r p); [lra|]); unfold Rdiv; rewrite !Rmult_assoc, ?Rinv_l by lra; lra. } { lra. }
  destruct (between prec top A P11 T5 (111 / 128) (115 / 128) (1 + - q) (f128 111%Z ltac:(lia)) (f128 115%Z ltac:(lia)) ltac:(lra) ltac:(lra) ltac:(lra)) as (o & Eo & Fo & Bo).
  assert (EO : forall lag, (lag < 10)%nat -> frho prec top k s lag = Fi o). { intros lag Hl. unfold frho. rewrite EV, EP, (C lag Hl). unfold fsub at 2, esub. cbn [eneg eadd]. rewrite Eg, fdiv_fi by lra. rewrite Eq. unfold fsub, esub. cbn [eneg eadd]. exact Eo. }
  assert (LOOP : forall fuel t a, (t + fuel = 10)%nat -> INR t * (111 / 128) <= a <= INR t * (115 / 128) -> exists a', fsum_rho_loop prec top (frho prec top k s) fuel t (Fi a) = Fi a' /\ 1110 / 128 <= a' <= 1150 / 128).
  { induction fuel as [|fuel IH]; intros t a Ht Ba; cbn [fsum_rho_loop].
    - replace t with 10%nat in Ba by lia. exists a. split; [reflexivity|]. cbn in Ba. lra.
    - rewrite (EO t) by lia. cbn [eltb]. destruct (Rlt_dec o 0); [lra|]. assert (It : INR (S t) <= INR 10) by (apply le_INR; lia). replace (INR 10) with 10 in It by (cbn; lra). pose proof (pos_INR t) as t0. rewrite S_INR in It.
      destruct (between prec top A P11 T5 (INR (S t) * (111 / 128)) (INR (S t) * (115 / 128)) (a + o)) as (z & Ez & _ & Bz).
      + replace (INR (S t) * (111 / 128)) with (IZR (Z.of_nat (S t) * 111) / 128) by (rewrite mult_IZR, <- INR_IZR_INZ; lra). apply f128. lia.
      + replace (INR (S t) * (115 / 128)) with (IZR (Z.of_nat (S t) * 115) / 128) by (rewrite mult_IZR, <- INR_IZR_INZ; lra). apply f128. lia.
      + rewrite S_INR. lra.
      + rewrite S_INR. lra.
      + rewrite S_INR. lra.
      + unfold fadd. cbn [eadd]. rewrite Ez. apply IH; [lia|exact Bz]. }
  destruct (LOOP 10%nat 0%nat 0) as (a & Ea & Ba); [reflexivity|cbn; lra|]. unfold fess_1d. rewrite TEN. change (length s) with 10%nat. rewrite Ea. unfold fmul. cbn [emul].
  destruct (between prec top A P11 T5 (1110 / 64) (1150 / 64) (2 * a) (f64 1110%Z ltac:(lia)) (f64 1150%Z ltac:(lia)) ltac:(lra) ltac:(lra) ltac:(lra)) as (c & Ec & Fc & Bc). rewrite Ec. unfold fadd. cbn [eadd].
  destruct (between prec top A P11 T5 (1174 / 64) (1214 / 64) (1 + c) (f64 1174%Z ltac:(lia)) (f64 1214%Z ltac:(lia)) ltac:(lra) ltac:(lra) ltac:(lra)) as (h & Eh & Fh & Bh). rewrite Eh, fdiv_fi by lra.
  destruct (between prec top A P11 T5 (8 / 16) (9 / 16) (10 / h) (f16 8%Z ltac:(lia)) (f16 9%Z ltac:(lia)) ltac:(lra)) as (e & Ee & Fe & Be).
  { split; (apply (Rmult_le_reg_r h); [lra|]); unfold Rdiv; rewrite !Rmult_assoc, ?Rinv_l by lra; lra. } { lra. }
  exists e. split; [exact Ee|lra].
Qed.
Print Assumptions C66_constant_refuted.

(** ** Cases *)
(** Three samples in single precision: the estimate is within 1/1000 of the exact 3/2. *)
Example C66_case : let s := [1; -1; 1] in ample 24 128 /\ (2 <= length s)%nat /\ nonconstant s /\ chain_within 24 128 0 s /\ reduces (numpy_reductions 3) 3 /\
  64 * INR (length s) * rho_error 24 0 s <= 1 /\ clear_cut 24 0 s /\ exists e, fess_1d 24 128 (numpy_reductions 3) (map Fi s) = Fi e /\ Rabs (e - 3 / 2) <= 1 / 1000.
Proof.
  intros s. assert (A : ample 24 128) by (repeat split; lia). pose proof C41_case as (_ & NC & Q). fold s in NC, Q. assert (V : variance s = 8 / 9) by (unfold variance, chain_mean, Rsqr; cbn; field). assert (L : length s = 3%nat) by reflexivity. assert (i3 : INR 3 = 3) by (cbn; lra).
  assert (D : rho_error 24 0 s = 864 / 16777216). { unfold rho_error, unit_roundoff. rewrite V, L, i3. change (bpow radix2 (2 * 0)) with 1. change (bpow radix2 (- (24))) with (/ 16777216). lra. }
  assert (C : chain_within 24 128 0 s). { assert (F1 : is_float 24 128 1) by apply (float_1 24 128 A). assert (B : bpow radix2 0 = 1) by reflexivity. pose proof (float_opp 24 128 1 F1) as F2. apply Forall_forall. intros y I. rewrite B. destruct I as [<-|[<-|[<-|[]]]]; (split; [assumption|]); unfold Rabs; destruct (Rcase_abs _); lra. }
  assert (K : reduces (numpy_reductions 3) 3). { unfold reduces, adds_up. cbn [numpy_reductions p_mean p_var_mean p_var p_lag]. do 3 (split; [apply Permutation_refl|]). intros lag Hl. do 3 (destruct lag as [|lag]; [apply Permutation_refl|]). lia. }
  assert (Sm : 64 * INR (length s) * rho_error 24 0 s <= 1) by (rewrite D, L, i3; lra).
  assert (CC : clear_cut 24 0 s). { exists 1%nat. rewrite D. split; [cbn; lia|]. split; [|right; unfold rho; rewrite V; unfold autocov, chain_mean; cbn; lra]. intros t Ht. replace t with 0%nat by lia. unfold rho. rewrite V. unfold autocov, chain_mean. cbn. lra. }
  split; [exact A|]. split; [cbn; lia|]. split; [exact NC|]. split; [exact C|]. split; [exact K|]. split; [exact Sm|]. split; [exact CC|].
  destruct (C66_exact 24 128 A 0 ltac:(lia) ltac:(lia) (numpy_reductions 3) s ltac:(cbn; lia) NC C K ltac:(cbn; lia) Sm CC) as (e & e0 & E & E0 & P & X). rewrite E0 in Q. injection Q as ->. exists e. split; [exact E|]. eapply Rle_trans; [exact X|]. rewrite D, L, i3. lra.
Qed.
(** A matrix with that column twice. *)
Example C66_columns_case : exists m m0, fess 24 128 (fun _ => numpy_reductions 3) 2 (map (map Fi) [[7; 7]; [1; 1]; [-1; -1]; [1; 1]]) 1 = FEss (Fi m) /\ effective_sample_size 2 [[7; 7]; [1; 1]; [-1; -1]; [1; 1]] 1 = Ess m0 /\ Rabs (m - m0) <= 1 / 1000 * m0.
Proof.
  pose proof C66_case as (A & L & NC & C & K & Sm & CC & _). destruct (C66_columns 24 128 0 A ltac:(lia) ltac:(lia) (fun _ => numpy_reductions 3) 2 [[7; 7]; [1; 1]; [-1; -1]; [1; 1]] 1 (1 / 1000)) as (m & m0 & E & E0 & _ & X); [lia|cbn; lia|cbn; lia|lra| |exists m, m0; auto].
  intros j Hj. assert (Q : column (skipn 1 [[7; 7]; [1; 1]; [-1; -1]; [1; 1]]) j = [1; -1; 1]) by (do 2 (destruct j as [|j]; [reflexivity|]); lia). rewrite Q. split; [exact NC|]. split; [exact C|]. split; [exact K|]. split; [exact Sm|]. split; [exact CC|].
  assert (V : variance [1; -1; 1] = 8 / 9) by (unfold variance, chain_mean, Rsqr; cbn; field). unfold rho_error, unit_roundoff. rewrite V. change (bpow radix2 (2 * 0)) with 1. change (bpow radix2 (- (24))) with (/ 16777216). cbn. lra.
Qed.
(** Double and single precision have such large samples and such constant chains. *)
Example C66_refuted_case : (1024 <= 2 * 600)%Z /\ (600 + 2 <= 1024)%Z /\ (128 <= 2 * 64)%Z /\ (64 + 2 <= 128)%Z /\ (11 <= 53)%Z /\ (53 + 5 <= 1024)%Z /\ (11 <= 24)%Z /\ (24 + 5 <= 128)%Z.
Proof. lia. Qed.
(** A NaN in the second dimension. *)
Example C66_assertion_case : let samples := [[Fi 1; NaN]; [Fi 2; Fi 1]] in reduces (numpy_reductions 2) (length samples - 0) /\ In NaN (map (fun q => nth 1 q (Fi 0)) (skipn 0 samples)) /\ fess 53 1024 (fun _ => numpy_reductions 2) 2 samples 0 = FEssAssertionError.
Proof.
  intros samples. assert (K : reduces (numpy_reductions 2) (length samples - 0)). { unfold reduces, adds_up. cbn [numpy_reductions p_mean p_var_mean p_var p_lag samples length Nat.sub]. do 3 (split; [apply Permutation_refl|]). intros lag Hl. do 2 (destruct lag as [|lag]; [apply Permutation_refl|]). lia. }
  assert (I : In NaN (map (fun q => nth 1 q (Fi 0)) (skipn 0 samples))) by (cbn; auto). split; [exact K|]. split; [exact I|]. apply (C66_assertion 53 1024 (fun _ => numpy_reductions 2) 2 samples 0 1 NaN); [cbn; lia|lia|intros _; exact K|exact I|exact Logic.I].
Qed.
