(** C68: the inverse autoregressive flow in floating-point arithmetic. *)
From Coq Require Import List Arith Bool Reals ZArith Lra Lia Permutation.
From Flocq Require Import Core.
From Verif Require Import ModelExt ModelSpecial ModelNum ModelTensor ModelFloat ModelFloatSample ModelDist ModelFlow ModelFloatFlow ModelFloatIaf SpecFloat SpecFloatFlow SpecFloatIaf ProofFlow ProofFloat ProofFloatSample ProofFloatDensity ProofFloatTune ProofFloatImportance ProofFloatFlow ProofFloatIaf ProofFloatDiag PropFlow.
Import ListNotations.
Local Open Scope R_scope.

(** ** The linear network *)
(** Entry [j] of its outputs depends only on the entries before [j], bit for bit and whatever
    the order of summation, as long as all numbers are finite. *)
Theorem C68_autoregressive prec top libexp pm ps d m_w s_w z z' j : (forall i k, is_float prec top (m_w i k) /\ is_float prec top (s_w i k)) -> length z = d -> length z' = d -> (j < d)%nat ->
  (forall i, (i < j)%nat -> nth i z 0 = nth i z' 0) -> let out x := flinear_ar prec top libexp pm ps d (fun i k => Fi (m_w i k)) (fun i k => Fi (s_w i k)) (map Fi x) in
  nth j (fst (out z)) NaN = nth j (fst (out z')) NaN /\ nth j (snd (out z)) NaN = nth j (snd (out z')) NaN.
Proof.
  intros Hw Lz Lz' J H out. assert (Q : forall p (w : nat -> nat -> R), (forall i k, is_float prec top (w i k)) -> fdot prec top (p j) (map Fi z) (map (fun i => fmul prec top (fmask i j) (Fi (w i j))) (seq 0 d)) = fdot prec top (p j) (map Fi z') (map (fun i => fmul prec top (fmask i j) (Fi (w i j))) (seq 0 d))).
  { intros p w Fw. unfold fdot. f_equal. apply combine_nth_map; rewrite ?map_length, ?seq_length; try lia. intros i dx dy I. cbn [fst snd]. rewrite (nth_indep _ dx NaN), (nth_indep (map Fi z') dx NaN) by (rewrite map_length; lia). rewrite !nth_Fi by lia. destruct (Nat.lt_ge_cases i j) as [L|L]; [now rewrite (H i L)|].
    rewrite (nth_indep _ dy (fmul prec top (fmask 0 j) (Fi (w 0%nat j)))) by (rewrite map_length, seq_length; lia). rewrite (map_nth (fun i => fmul prec top (fmask i j) (Fi (w i j)))), seq_nth by lia. cbn [Nat.add]. rewrite (fmask_0 prec top i j _ L (Fw i j)). unfold fmul. cbn [emul]. now rewrite !Rmult_0_r. }
  assert (N : forall (f : nat -> ext), nth j (map f (seq 0 d)) NaN = f j) by (intros f; rewrite (nth_indep _ NaN (f 0%nat)) by (rewrite map_length, seq_length; lia); rewrite map_nth, seq_nth by lia; reflexivity).
  unfold out, flinear_ar, fmatmul_row. cbn [fst snd]. split; [rewrite !N; apply Q; intros; apply Hw|]. rewrite !map_map, !N. f_equal. apply Q. intros; apply Hw.
Qed.
Print Assumptions C68_autoregressive.
(** An infinite entry, however, reaches every output, also those it precedes: 0 times
    infinity is NaN. *)
Theorem C68_contaminated_refuted prec top libexp pm ps d m_w s_w z i : (forall i k, is_float prec top (m_w i k) /\ is_float prec top (s_w i k)) -> length z = d -> (i < d)%nat -> nth i z NaN = PInf \/ nth i z NaN = MInf -> adds_up (pm 0%nat) d -> adds_up (ps 0%nat) d ->
  let out := flinear_ar prec top libexp pm ps d (fun i k => Fi (m_w i k)) (fun i k => Fi (s_w i k)) z in nth 0 (fst out) (Fi 0) = NaN /\ nth 0 (snd out) (Fi 0) = NaN.
Proof.
  intros Hw Lz I Z Pm Ps out. assert (Q : forall p (w : nat -> nat -> R), adds_up p d -> (forall i k, is_float prec top (w i k)) -> fdot prec top p z (map (fun i => fmul prec top (fmask i 0) (Fi (w i 0%nat))) (seq 0 d)) = NaN).
  { intros p w P Fw. unfold fdot. destruct (bad_or_nan prec top (map (fun q => fmul prec top (fst q) (snd q)) (combine z (map (fun i => fmul prec top (fmask i 0) (Fi (w i 0%nat))) (seq 0 d)))) i p NaN) as [E|E]; try assumption.
    - exact Logic.I.
    - rewrite (nth_combine (fun q => fmul prec top (fst q) (snd q)) z _ i NaN (fmul prec top (fmask 0 0) (Fi (w 0%nat 0%nat)))) by (rewrite ?map_length, ?seq_length; lia). cbn [fst snd]. rewrite (map_nth (fun i => fmul prec top (fmask i 0) (Fi (w i 0%nat)))), seq_nth by lia. cbn [Nat.add]. rewrite (fmask_0 prec top i 0 _ ltac:(lia) (Fw i 0%nat)). destruct Z as [->| ->]; unfold fmul; cbn; destruct (Rlt_dec 0 0); try lra; reflexivity.
    - apply (Permutation_in _ (Permutation_sym P)), in_seq. lia. }
  destruct d as [|d]; [lia|]. unfold out, flinear_ar, fmatmul_row. cbn [fst snd seq map nth]. change (0%nat :: seq 1 d) with (seq 0 (S d)). split; [apply (Q _ m_w)|change NaN with (feexp top libexp NaN); f_equal; apply (Q _ s_w)]; try assumption; intros; apply Hw.
Qed.
Print Assumptions C68_contaminated_refuted.

Section Accuracy.
Variables prec top : Z.
Hypothesis A : ample prec top.
Notation u := (unit_roundoff prec).
Notation float := (is_float prec top).
Notation b e := (bpow radix2 e).
Variables libexp liblog libsigmoid : R -> R.
Hypothesis HE : faithful_exp prec top libexp.
Hypothesis HL : faithful_log prec top liblog.
Hypothesis HS : faithful_sigmoid prec top libsigmoid.

(** Its outputs are accurate: the means absolutely, the scales relatively. *)
Theorem C68_linear d r pm ps m_w s_w z : (1 <= d)%nat -> (0 <= r)%Z -> (2 * r + prec + 5 <= top)%Z -> (Z.of_nat d <= 2 ^ prec)%Z -> vector prec top r d z ->
  (forall i k, (i < d)%nat -> (k < d)%nat -> (float (m_w i k) /\ Rabs (m_w i k) <= b r) /\ (float (s_w i k) /\ Rabs (s_w i k) <= b r)) -> (forall k, (k < d)%nat -> adds_up (pm k) d /\ adds_up (ps k) d) ->
  let e := 3 * (INR d * u) * dots d r in let exact := linear_ar d m_w s_w z in (forall k, (k < d)%nat -> Rabs (ln (nth k (snd exact) 1)) + e <= (IZR top - 2) / 2) ->
  exists m s, flinear_ar prec top libexp pm ps d (fun i k => Fi (m_w i k)) (fun i k => Fi (s_w i k)) (map Fi z) = (map Fi m, map Fi s) /\ Forall float m /\ Forall float s /\ near_vectors d e m (fst exact) /\
    length s = d /\ forall k, (k < d)%nat -> 0 < nth k s 1 /\ Rabs (ln (nth k s 1) - ln (nth k (snd exact) 1)) <= e + 3 * u.
Proof.
  intros D1 R0 RT DP Hz Hw P e exact Hx. set (f := fun w : nat -> nat -> R => fun j => sumR (map (fun i => nth i z 0 * (mask i j * w i j)) (seq 0 d))).
  assert (X : forall k, (k < d)%nat -> nth k (snd exact) 1 = exp (f s_w k)). { intros k K. unfold exact, linear_ar, matmul_row. cbn [snd]. rewrite map_map. rewrite (nth_indep _ 1 (exp (f s_w 0%nat))) by (rewrite map_length, seq_length; lia). rewrite (map_nth (fun j => exp (f s_w j))), seq_nth by lia. reflexivity. }
  assert (C : forall (Y : nat -> R -> Prop), (forall k, (k < d)%nat -> exists x, Y k x) -> exists g : nat -> R, forall k, (k < d)%nat -> Y k (g k)).
  { clear. intros Y H. induction d as [|n IH]; [exists (fun _ => 0); lia|]. destruct IH as (g & G); [intros k K; apply H; lia|]. destruct (H n ltac:(lia)) as (x & Hx). exists (fun k => if Nat.eqb k n then x else g k). intros k K. destruct (Nat.eqb_spec k n) as [->|E]; [exact Hx|apply G; lia]. }
  destruct (C _ (matmul_entry prec top A d r D1 R0 RT DP z Hz pm m_w (fun i k I K => proj1 (Hw i k I K)) (fun k K => proj1 (P k K)))) as (m & Hm). destruct (C _ (matmul_entry prec top A d r D1 R0 RT DP z Hz ps s_w (fun i k I K => proj2 (Hw i k I K)) (fun k K => proj2 (P k K)))) as (x & Hs).
  assert (S : exists s, forall k, (k < d)%nat -> feexp top libexp (Fi (x k)) = Fi (s k) /\ float (s k) /\ 0 < s k /\ Rabs (ln (s k) - f s_w k) <= e + 3 * u).
  { apply (C (fun k y => feexp top libexp (Fi (x k)) = Fi y /\ float y /\ 0 < y /\ Rabs (ln y - f s_w k) <= e + 3 * u)). intros k K. destruct (Hs k K) as (_ & F & D). unshelve eapply (exp_entry prec top A libexp HE d r); try assumption. specialize (Hx k K). rewrite (X k K), ln_exp in Hx. exact Hx. }
  destruct S as (s & S). exists (map m (seq 0 d)), (map s (seq 0 d)). assert (N : forall g : nat -> R, forall k y, (k < d)%nat -> nth k (map g (seq 0 d)) y = g k) by (intros g k y K; rewrite (nth_indep _ y (g 0%nat)) by (rewrite map_length, seq_length; lia); rewrite map_nth, seq_nth by lia; reflexivity).
  split; [|split; [|split; [|split; [|split]]]].
  - unfold flinear_ar, fmatmul_row. f_equal; rewrite !map_map; apply map_ext_in; intros k K; apply in_seq in K; [apply Hm; lia|]. rewrite (proj1 (Hs k ltac:(lia))). apply S. lia.
  - apply Forall_forall. intros y I. apply in_map_iff in I as (k & <- & I). apply in_seq in I. apply Hm. lia.
  - apply Forall_forall. intros y I. apply in_map_iff in I as (k & <- & I). apply in_seq in I. apply S. lia.
  - unfold exact, linear_ar, matmul_row. cbn [fst]. apply near_map. intros k K. apply Hm, K.
  - now rewrite map_length, seq_length.
  - intros k K. rewrite (N s k 1 K), (X k K), ln_exp. split; apply S, K.
Qed.

(** ** One layer *)
(** The samples, for any output of the network. *)
Theorem C68_normal d r p m s z l : (0 <= r)%Z -> (2 * r + 3 <= top)%Z -> vector prec top r d z -> vector prec top r d m -> vector prec top r d s ->
  exists z', fst (fiaf_layer prec top liblog libsigmoid p Normal (fun _ => (map Fi m, map Fi s)) (map Fi z, Fi l)) = map Fi z' /\ Forall float z' /\
  near_vectors d (2 * u * b (2 * r)) z' (fst (iaf_layer Normal (fun _ => (m, s)) (z, l))).
Proof. intros. now apply normal_spec. Qed.
Theorem C68_gru d r p m s z l : (0 <= r)%Z -> (2 * r + 3 <= top)%Z -> vector prec top r d z -> vector prec top r d m -> length s = d -> Forall float s ->
  exists z', fst (fiaf_layer prec top liblog libsigmoid p Gru (fun _ => (map Fi m, map Fi s)) (map Fi z, Fi l)) = map Fi z' /\ Forall float z' /\
  near_vectors d (8 * u * b r) z' (fst (iaf_layer Gru (fun _ => (m, s)) (z, l))).
Proof. intros. eapply gru_spec; eassumption. Qed.

(** ** Any number of layers *)
(** The log probability is finite and close to the initial one minus the exact logarithms of
    the scales met on the way. *)
Theorem C68_log_prob t d p w nn n z l total : (0 <= t)%Z -> (t + prec + 4 <= top)%Z -> (Z.of_nat d <= 2 ^ prec)%Z -> (forall i, adds_up (p i) d) -> run_error prec t d n l <= 1 -> float l ->
  run prec top t d liblog libsigmoid p w nn 0 n (z, Fi l) total ->
  exists l', snd (fiaf_row prec top liblog libsigmoid p w nn 0 n (z, Fi l)) = Fi l' /\ float l' /\ Rabs (l' - (l - total)) <= INR n * run_error prec t d n l.
Proof.
  intros T0 TT DP P G F R. refine (run_spec prec top A liblog libsigmoid HL HS t d T0 TT DP p w nn n l P G 0 n (z, Fi l) total R 0 l l eq_refl eq_refl F _ _).
  - unfold Rminus. rewrite Rplus_opp_r, Rabs_R0. cbn [INR]. lra.
  - cbn [INR]. lra.
Qed.
End Accuracy.
Print Assumptions C68_linear.
Print Assumptions C68_normal.
Print Assumptions C68_gru.
Print Assumptions C68_log_prob.

(** ** Where the log probability is lost *)
Section Lost.
Variables prec top : Z.
Hypothesis A : ample prec top.
Notation float := (is_float prec top).
Notation b e := (bpow radix2 e).
Variables libexp liblog libsigmoid : R -> R.
Hypothesis HE : faithful_exp prec top libexp.
Hypothesis HL : faithful_log prec top liblog.
Hypothesis HS : faithful_sigmoid prec top libsigmoid.
(** What a device makes of the logarithm of a number below its range. *)
Lemma lost_log x : (top + prec <= 2 ^ prec)%Z -> generic_format radix2 (fexpo prec top) x -> 0 <= x <= b (3 - top - prec) -> felog top liblog (Fi x) = MInf \/ exists v, felog top liblog (Fi x) = Fi v /\ float v /\ - IZR (top + prec) <= v <= 0.
Proof.
  intros TP Fx B. pose proof A as (W & p3 & p4). pose proof (top_big prec top A) as TB. unfold felog. destruct (Rlt_dec 0 x) as [P|P]; [|left; destruct (Req_EM_T x 0); [reflexivity|lra]]. right.
  assert (x1 : x <= 1) by (eapply Rle_trans; [apply B|]; apply (bpow_le radix2 _ 0); lia). assert (F : float x) by (split; [exact Fx|]; apply (below_top prec top W); rewrite Rabs_pos_eq; lra). pose proof (HL x F P) as H. pose proof (float_pos prec top x F P) as Q.
  assert (Lo : - IZR (top + prec) <= liblog x). { apply (faithful_ge prec top W _ _ _ _ H); [apply fmt_opp, (fmt_int prec top W); lia|]. apply Rle_trans with (ln (b (3 - top - prec))); [|apply ln_le'; [apply bpow_gt_0|exact Q]]. rewrite bpow_exp, ln_exp. cbn [radix_val radix2]. assert (ln 2 <= 1) by (pose proof (ln_le_sub 2 ltac:(lra)); lra). pose proof ln_lt_2. rewrite !minus_IZR, plus_IZR. assert (0 <= IZR top) by (apply IZR_le; lia). assert (0 <= IZR prec) by (apply IZR_le; lia). nra. }
  assert (Hi : liblog x <= 0). { apply (faithful_le prec top W _ _ _ _ H); [apply fmt_0|]. rewrite <- ln_1. apply ln_le'; lra. }
  assert (FL : float (liblog x)). { split; [exact (faithful_fmt prec top W _ _ _ H)|]. rewrite Rabs_left1 by exact Hi. apply Rle_lt_trans with (IZR (top + prec)); [lra|]. apply Rle_lt_trans with (b prec); [rewrite <- (IZR_Zpower radix2) by lia; apply IZR_le; exact TP|apply bpow_lt; lia]. }
  exists (liblog x). split; [apply overflow_small, FL|]. split; [exact FL|split; assumption].
Qed.
Lemma tiny_scale x : IZR (2 * (top + prec)) <= x -> exp (- x) <= b (3 - top - prec).
Proof.
  intros H. pose proof A as (W & p3 & p4). pose proof (top_big prec top A) as TB. rewrite bpow_exp. cbn [radix_val radix2]. apply exp_le. assert (ln 2 <= 1) by (pose proof (ln_le_sub 2 ltac:(lra)); lra). pose proof ln_lt_2. rewrite mult_IZR, plus_IZR in H. rewrite !minus_IZR. assert (0 <= IZR top) by (apply IZR_le; lia). assert (0 <= IZR prec) by (apply IZR_le; lia). nra.
Qed.
(** Off by at least n / 2 from a value of at least n. *)
Definition lost (n : Z) (y : ext) : Prop := y = PInf \/ exists v, y = Fi v /\ v <= IZR n / 2.
Lemma lost_sub n y : (2 * (top + prec) <= n)%Z -> (y = MInf \/ exists v, y = Fi v /\ float v /\ - IZR (top + prec) <= v <= 0) -> lost n (fsub prec top (Fi 0) y).
Proof.
  intros N [->|(v & -> & F & B)]; [left; reflexivity|right]. exists (- v). split; [unfold fsub, esub; cbn [eneg eadd]; rewrite Rplus_0_l; apply rounded_float, float_opp, F|]. apply IZR_le in N. rewrite mult_IZR in N. lra.
Qed.
(** The linear network returns exp x only to have its logarithm taken: when x is very
    negative, exp underflows and the log probability is plus infinity or far too small,
    though the exact one is n. *)
Theorem C68_underflow_refuted n : (2 * (top + prec) <= n <= 2 ^ prec)%Z -> let s_w (i k : nat) := if Nat.eqb i 0 then - IZR n else 0 in let m_w (i k : nat) := 0 in let add := Plus (Entry 0) (Entry 1) in
  lost n (snd (fiaf_row prec top liblog libsigmoid (fun _ => add) Normal (fun _ => flinear_ar prec top libexp (fun _ => add) (fun _ => add) 2 (fun i k => Fi (m_w i k)) (fun i k => Fi (s_w i k))) 0 1 ([Fi 1; Fi 1], Fi 0))) /\
  snd (iaf_row Normal (fun _ => linear_ar 2 m_w s_w) 0 1 ([1; 1], 0)) = IZR n.
Proof.
  intros N s_w m_w add. pose proof A as (W & p3 & p4). pose proof (top_big prec top A) as TB. assert (F1 := float_1 prec top A). assert (F0 := float_0 prec top). assert (Fn : float (IZR n)) by (apply (float_count prec top A); lia). assert (Fm := float_opp prec top _ Fn).
  split; [|cbn; repeat rewrite ?Rmult_1_l, ?Rmult_0_l, ?Rmult_0_r, ?Rplus_0_r, ?exp_0, ?ln_1, ?ln_exp; ring].
  cbn [fiaf_row fiaf_layer fst snd]. unfold flinear_ar, fmatmul_row, fdot, add. cbn [seq map combine fst snd fsum nth fmask Nat.ltb Nat.leb s_w Nat.eqb].
  assert (Z1 : fmul prec top (Fi 0) (Fi (- IZR n)) = Fi 0) by now apply fmul_0_l. assert (Z2 : fmul prec top (Fi 0) (Fi 0) = Fi 0) by now apply fmul_0_l. assert (Z3 : fmul prec top (Fi 1) (Fi 0) = Fi 0) by now apply fmul_1_l. assert (Z4 : fmul prec top (Fi 1) (Fi (- IZR n)) = Fi (- IZR n)) by now apply fmul_1_l. assert (Z5 : forall x, float x -> fadd prec top (Fi x) (Fi 0) = Fi x) by (intros x Fx; unfold fadd; cbn [eadd]; rewrite Rplus_0_r; now apply rounded_float). assert (Z6 : forall x, float x -> fadd prec top (Fi 0) (Fi x) = Fi x) by (intros x Fx; unfold fadd; cbn [eadd]; rewrite Rplus_0_l; now apply rounded_float).
  rewrite !Z1, !Z2, !Z3, !Z4, (Z5 0 F0), (Z5 _ Fm). assert (E0 : feexp top libexp (Fi 0) = Fi 1). { destruct (lib_exp_spec prec top W libexp 0 HE F0 ltac:(lra)) as (_ & _ & _ & Q). unfold feexp. rewrite Q by reflexivity. apply overflow_small, F1. }
  pose proof (HE _ Fm) as H. assert (T : exp (- IZR n) <= b (3 - top - prec)) by (apply tiny_scale, IZR_le; lia). assert (FB : generic_format radix2 (fexpo prec top) (b (3 - top - prec))) by (apply (fmt_bpow prec top W); lia).
  assert (B : 0 <= libexp (- IZR n) <= b (3 - top - prec)) by (split; [apply (faithful_ge prec top W _ _ _ _ H (fmt_0 prec top)); left; apply exp_pos|exact (faithful_le prec top W _ _ _ _ H FB T)]).
  assert (b1 : b (3 - top - prec) <= 1) by (apply (bpow_le radix2 _ 0); lia). assert (E1 : feexp top libexp (Fi (- IZR n)) = Fi (libexp (- IZR n))) by (cbn; apply overflow_small, (below_top prec top W); rewrite Rabs_pos_eq; lra).
  rewrite E0, E1, (log_1 prec top A liblog HL). apply lost_sub; [lia|]. destruct (lost_log _ ltac:(lia) (faithful_fmt prec top W _ _ _ H) B) as [->|(v & -> & Fv & Bv)]; [left; reflexivity|right]. exists v. split; [now apply Z6|split; assumption].
Qed.
(** So does the sigmoid of the gru update, with any network that returns -n. *)
Theorem C68_gru_refuted n : (2 * (top + prec) <= n <= 2 ^ prec)%Z ->
  lost n (snd (fiaf_row prec top liblog libsigmoid (fun _ => Entry 0) Gru (fun _ _ => ([Fi 0], [Fi (- IZR n)])) 0 1 ([Fi 1], Fi 0))) /\
  IZR n <= snd (iaf_row Gru (fun _ _ => ([0], [- IZR n])) 0 1 ([1], 0)).
Proof.
  intros N. pose proof A as (W & p3 & p4). pose proof (top_big prec top A) as TB. assert (Fn : float (IZR n)) by (apply (float_count prec top A); lia). assert (Fm := float_opp prec top _ Fn). split.
  - cbn [fiaf_row fiaf_layer fst snd map fsum nth]. destruct (sigmoid_lib prec top A libsigmoid HS _ Fm) as (-> & FS & BS & _). pose proof (sigmoid_at prec top libsigmoid HS _ Fm) as H. assert (FB : generic_format radix2 (fexpo prec top) (b (3 - top - prec))) by (apply (fmt_bpow prec top W); lia).
    assert (T : sigmoid (- IZR n) <= b (3 - top - prec)). { apply Rle_trans with (exp (- IZR n)); [|apply tiny_scale, IZR_le; lia]. unfold sigmoid. rewrite Ropp_involutive, exp_Ropp. unfold Rdiv. rewrite Rmult_1_l. apply Rinv_le; [apply exp_pos|lra]. }
    apply lost_sub; [lia|]. destruct (lost_log _ ltac:(lia) (faithful_fmt prec top W _ _ _ H) (conj (proj1 BS) (faithful_le prec top W _ _ _ _ H FB T))) as [->|(v & -> & Fv & Bv)]; [left; reflexivity|right; eauto].
  - cbn. rewrite Rplus_0_r. unfold sigmoid. rewrite Ropp_involutive. unfold Rdiv. rewrite Rmult_1_l. pose proof (exp_pos (IZR n)). rewrite ln_Rinv by lra. replace (0 - - ln (1 + exp (IZR n))) with (ln (1 + exp (IZR n))) by ring. rewrite <- (ln_exp (IZR n)) at 1. apply ln_le'; lra.
Qed.
End Lost.
Print Assumptions C68_underflow_refuted.
Print Assumptions C68_gru_refuted.

(** ** Cases *)
(** Library functions that round down. *)
Example C68_library_case prec top : let down (g : R -> R) x := round radix2 (fexpo prec top) Zfloor (g x) in faithful_exp prec top (down exp) /\ faithful_log prec top (down ln) /\ faithful_sigmoid prec top (down (fun x => / (1 + exp (- x)))).
Proof. cbv zeta. repeat split; intros x; intros; left; reflexivity. Qed.
(** The linear network in two dimensions with all weights 2, in double precision. *)
Example C68_linear_case : let d := 2%nat in let r := 1%Z in let w (i k : nat) := 2 in let z := [1; -1] in let e := 3 * (INR d * unit_roundoff 53) * dots d r in
  ample 53 1024 /\ (2 * r + 53 + 5 <= 1024)%Z /\ vector 53 1024 r d z /\ is_float 53 1024 2 /\ Rabs 2 <= bpow radix2 r /\ adds_up (Plus (Entry 1) (Entry 0)) d /\
  (forall k, (k < d)%nat -> Rabs (ln (nth k (snd (linear_ar d w w z)) 1)) + e <= (IZR 1024 - 2) / 2) /\ nth 1 (fst (linear_ar d w w z)) 0 = 2 /\ e <= / 100000000000000.
Proof.
  intros d r w z e. assert (A : ample 53 1024) by (repeat split; lia). assert (F1 : is_float 53 1024 1) by apply (float_1 53 1024 A). pose proof (float_opp 53 1024 1 F1) as F2. assert (b1 : bpow radix2 1 = 2) by reflexivity.
  assert (E : e = 48 * / 9007199254740992) by (unfold e, dots, unit_roundoff, d, r; cbn; lra). split; [exact A|]. split; [unfold r; lia|]. split; [|split; [|split; [|split; [|split; [|split]]]]].
  - split; [reflexivity|]. unfold r. rewrite b1. apply Forall_forall; intros y [<-|[<-|[]]]; (split; [assumption|]); unfold Rabs; destruct (Rcase_abs _); lra.
  - apply (float_count 53 1024 A 2). lia.
  - unfold r. rewrite b1, Rabs_pos_eq; lra.
  - apply perm_swap.
  - intros k K. assert (exists x, nth k (snd (linear_ar d w w z)) 1 = exp x /\ Rabs x <= 2) as (x & -> & B).
    { unfold d in *. destruct k as [|[|k]]; [| |lia]; cbn; unfold mask, w; cbn; eexists; (split; [reflexivity|]); unfold Rabs; destruct (Rcase_abs _); lra. }
    rewrite ln_exp, E. lra.
  - cbn. unfold mask, w. cbn. lra.
  - rewrite E. lra.
Qed.
(** A layer of each kind, and three layers, in double precision. *)
Example C68_layer_case : vector 53 1024 1 1 [2] /\ (2 * 1 + 3 <= 1024)%Z /\ fst (iaf_layer Normal (fun _ => ([2], [2])) ([2], 0)) = [6] /\ fst (iaf_layer Gru (fun _ => ([2], [0])) ([1], 0)) = [3 / 2].
Proof.
  assert (A : ample 53 1024) by (repeat split; lia). split; [split; [reflexivity|]|split; [lia|]].
  - constructor; [|constructor]. split; [apply (float_count 53 1024 A 2); lia|]. change (bpow radix2 1) with 2. rewrite Rabs_pos_eq; lra.
  - split; cbn; f_equal; [lra|]. unfold sigmoid. rewrite Ropp_0, exp_0. lra.
Qed.
Example C68_run_case liblog libsigmoid : run 53 1024 0 1 liblog libsigmoid (fun _ => Entry 0) Gru (fun _ _ => ([Fi 1], [Fi 0])) 0 3 ([Fi 5], Fi (-3)) (- 3 * ln 2) /\
  run_error 53 0 1 3 (-3) <= 1 /\ INR 3 * run_error 53 0 1 3 (-3) <= / 10000000000000.
Proof.
  assert (l2 : 1 / 2 <= ln 2 <= 1) by (split; [apply ln_2_ge|pose proof (ln_le_sub 2 ltac:(lra)); lra]). assert (Sg : sigmoid 0 = / 2) by (unfold sigmoid; rewrite Ropp_0, exp_0; lra). assert (G : log_scales Gru [0] = - ln 2) by (unfold log_scales; cbn; rewrite Sg, ln_Rinv by lra; lra).
  assert (M : moderate 53 1024 0 1 Gru [0]). { split; [reflexivity|]. constructor; [|constructor]. split; [apply float_0|]. cbn [scale]. rewrite Sg, ln_Rinv, Rabs_Ropp, Rabs_pos_eq by lra. split; [|cbn; lra]. change (/ 2) with (bpow radix2 (-1)). apply bpow_le. lia. }
  assert (E : run_error 53 0 1 3 (-3) = 26 * / 9007199254740992) by (unfold run_error, log_scales_error, run_size, unit_roundoff; rewrite Rabs_left by lra; cbn; lra). rewrite E. split; [|cbn; lra].
  replace (- 3 * ln 2) with (log_scales Gru [0] + (log_scales Gru [0] + (log_scales Gru [0] + 0))) by (rewrite G; ring). repeat (eapply run_step; [reflexivity|exact M|]). constructor.
Qed.
(** Such parameters exist in single and double precision. *)
Example C68_refuted_case : (2 * (128 + 24) <= 304 <= 2 ^ 24)%Z /\ (2 * (1024 + 53) <= 2154 <= 2 ^ 53)%Z.
Proof. lia. Qed.
