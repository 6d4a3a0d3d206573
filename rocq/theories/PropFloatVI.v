(** C65: the evidence lower bound and its estimators in floating-point arithmetic. *)
From Coq Require Import List Arith Bool Reals ZArith Lra Lia Permutation.
From Flocq Require Import Core.
From Verif Require Import ModelExt ModelSpecial ModelNum ModelFloat ModelFloatSample ModelFloatTune ModelFloatVI SpecFloat SpecFloatImportance SpecFloatVI ProofFloat ProofFloatSample ProofFloatDensity ProofFloatTune ProofFloatMass ProofFloatImportance ProofFloatVI PropFloat PropFloatSample.
Import ListNotations.
Local Open Scope R_scope.

Section Costs.
Variables prec top : Z.
Hypothesis A : ample prec top.
Notation u := (unit_roundoff prec).
Notation float := (is_float prec top).
Notation b e := (bpow radix2 e).
Variable r : Z.
Hypothesis R0 : (0 <= r)%Z.
Notation within := (entry_within prec top r).
Let BB : b (2 * r) = b r * b r. Proof. replace (2 * r)%Z with (r + r)%Z by lia. apply bpow_plus. Qed.

(** The lower bound and the SGVB cost of n samples. *)
Theorem C65_elbo p s : let n := length s in s <> [] -> Forall within s -> adds_up p n -> (8 * Z.of_nat n <= 2 ^ prec)%Z -> (r + prec + 4 <= top)%Z ->
  exists v, felbo prec top p (map to_entry s) = Fi v /\ fsgvb prec top p (map to_entry s) = Fi (- v) /\ float v /\ Rabs (v - exact_elbo s) <= (4 * INR n + 3) * u * b r.
Proof.
  intros n N H P L T. pose proof A as (_ & p3 & _). destruct (mean_spec prec top A (fun q => flower prec top (to_entry q)) (exact_learning false) (r + 1) (u * b r) s p) as (v & E & F & _ & D); try assumption; try lia.
  { eapply Forall_impl; [|exact H]. intros q Q. rewrite b_1. apply (lower_spec prec top A r R0 q Q). lia. }
  exists v. unfold fsgvb, felbo. rewrite map_map, E. split; [reflexivity|]. split; [reflexivity|]. split; [exact F|]. unfold exact_elbo. rewrite b_1 in D. fold n in D. lra.
Qed.
(** The cost of a baseline. *)
Theorem C65_baseline_cost p s : let n := length s in s <> [] -> Forall within s -> adds_up p n -> (8 * Z.of_nat n <= 2 ^ prec)%Z -> (2 * r + prec + 6 <= top)%Z ->
  exists v, fbaseline_cost prec top p (map to_entry s) = Fi v /\ float v /\ Rabs (v - exact_baseline_cost s) <= (16 * INR n + 29) * u * b (2 * r).
Proof.
  intros n N H P L T. pose proof A as (_ & p3 & _). destruct (mean_spec prec top A (fun q => fbaseline_entry prec top (to_entry q)) (fun q => exact_learning true q ^ 2 / 2) (2 * r + 3) (21 * u * (b r * b r)) s p) as (v & E & F & _ & D); try assumption; try lia.
  { eapply Forall_impl; [|exact H]. intros q Q. apply (baseline_entry_spec prec top A r R0 q Q). lia. }
  exists v. unfold fbaseline_cost. rewrite map_map, E. split; [reflexivity|]. split; [exact F|]. unfold exact_baseline_cost. rewrite bpow_plus in D. change (b 3) with 8 in D. rewrite BB in D |- *. fold n in D. lra.
Qed.
(** The REINFORCE cost, given the moving mean that is subtracted. *)
Theorem C65_cost p baseline m s : let n := length s in s <> [] -> Forall within s -> adds_up p n -> (8 * Z.of_nat n <= 2 ^ prec)%Z -> (2 * r + prec + 9 <= top)%Z -> float m -> Rabs m <= 16 * b r ->
  exists v, fcost prec top p baseline (Some (Fi m)) (map to_entry s) = Fi v /\ float v /\ Rabs (v - exact_cost baseline m s) <= (128 * INR n + 131) * u * b (2 * r).
Proof.
  intros n N H P L T Fm Bm. pose proof A as (_ & p3 & _). destruct (mean_spec prec top A (fun q => fcost_entry prec top baseline (Some (Fi m)) (to_entry q)) (fun q => - fst (fst q) + (exact_learning baseline q - m) * snd (fst q)) (2 * r + 6) (67 * u * (b r * b r)) s p) as (v & E & F & _ & D); try assumption; try lia.
  { eapply Forall_impl; [|exact H]. intros q Q. apply (cost_entry_spec prec top A r R0 baseline m q Q Fm Bm). lia. }
  exists v. unfold fcost. rewrite map_map, E. split; [reflexivity|]. split; [exact F|]. unfold exact_cost. rewrite bpow_plus in D. change (b 6) with 64 in D. rewrite BB in D |- *. fold n in D. lra.
Qed.
(** Without variance reduction nothing is subtracted. *)
Theorem C65_without p s : Forall within s -> (r + 2 <= top)%Z ->
  fcost prec top p false None (map to_entry s) = fcost prec top p false (Some (Fi 0)) (map to_entry s).
Proof.
  intros H T. unfold fcost. rewrite !map_map, !map_length. do 2 f_equal. apply map_ext_in. intros q I. apply (proj1 (Forall_forall _ _) H) in I. destruct (lower_spec prec top A r R0 q I T) as (v & E & F & _). unfold fcost_entry, fsignal_of, flearning. rewrite E. do 2 f_equal.
  unfold fsub, esub. cbn [eneg eadd]. rewrite Ropp_0, Rplus_0_r. symmetry. now apply (rounded_float prec top).
Qed.

(** ** The moving mean *)
Variable libpow : R -> R -> R.
Hypothesis FP : faithful_pow prec top libpow.
Variable c : R.
Hypothesis Hc : 64 * u <= c <= 1 - 64 * u.
Hypothesis Hp : IZR prec * u <= c.
(** After any number of updates. *)
Theorem C65_moving_mean xs : (r + 3 <= top)%Z -> Forall (fun x => float x /\ Rabs x <= b r) xs ->
  exists m, fa_mean (fold_left (fun a x => fassign prec top libpow (Fi c) (Fi x) a) xs faverage0) = Fi m /\ float m /\ Rabs (m - fading_mean (1 - c) xs) <= 12 * (u / c) * b r.
Proof. intros T H. destruct (tracked_all prec top A libpow FP c Hc Hp r R0 T xs H) as (_ & _ & m & _ & _ & _ & _ & E & F & _ & D). exists m. auto. Qed.

Definition batch_ok (N : nat) (q : plan * list (list rentry)) : Prop :=
  let all := concat (snd q) in all <> [] /\ Forall within all /\ adds_up (fst q) (length all) /\ (length all <= N)%nat.
Definition to_run (q : plan * list (list rentry)) : plan * list fposition := (fst q, map (map to_entry) (snd q)).
Definition exact_bc (baseline : bool) (q : plan * list (list rentry)) : R := mean_of (map (exact_learning baseline) (concat (snd q))).
Lemma bc_spec baseline q N : batch_ok N q -> (8 * Z.of_nat N <= 2 ^ prec)%Z -> (r + prec + 5 <= top)%Z ->
  exists x, fbc prec top (fst (to_run q)) baseline (snd (to_run q)) = Fi x /\ float x /\ Rabs x <= b (r + 3) /\ Rabs (x - exact_bc baseline q) <= (8 * INR N + 7) * u * b r.
Proof.
  destruct q as (p, batch). intros (Ne & H & P & L) LN T. pose proof A as (_ & p3 & _). cbn [fst snd to_run] in *. set (all := concat batch) in *. destruct (mean_spec prec top A (fun q => flearning prec top baseline (to_entry q)) (exact_learning baseline) (r + 2) (3 * u * b r) all p) as (v & E & F & X & D); try assumption; try lia.
  { eapply Forall_impl; [|exact H]. intros q Q. rewrite bpow_plus, Rmult_comm. apply (learning_spec prec top A r R0 baseline q Q). lia. }
  exists v. unfold fbc. rewrite <- concat_map, map_map. fold all. rewrite E. split; [reflexivity|]. split; [exact F|]. split; [replace (r + 3)%Z with (r + 2 + 1)%Z by lia; exact X|]. eapply Rle_trans; [exact D|]. rewrite bpow_plus. change (b 2) with 4. apply le_INR in L. pose proof (u_pos prec) as U. pose proof (bpow_gt_0 radix2 r) as B0. assert (UB : 0 < u * b r) by (apply Rmult_lt_0_compat; lra).
  replace ((2 * INR (length all) + 1) * u * (b r * 4) + 3 * u * b r) with ((8 * INR (length all) + 7) * (u * b r)) by ring. rewrite (Rmult_assoc _ u). apply Rmult_le_compat_r; lra.
Qed.
Lemma read_spec baseline N runs : Forall (batch_ok N) runs -> (8 * Z.of_nat N <= 2 ^ prec)%Z -> (r + prec + 5 <= top)%Z ->
  exists m, fa_mean (fruns prec top libpow (Fi c) baseline (map to_run runs) faverage0) = Fi m /\ float m /\ Rabs m <= 16 * b r /\
    Rabs (m - fading_mean (1 - c) (map (exact_bc baseline) runs)) <= (96 / c + 8 * INR N + 7) * u * b r.
Proof.
  intros H L T. pose proof A as (_ & p3 & _). pose proof (u_pos prec) as U. pose proof (bpow_gt_0 radix2 r) as B0.
  assert (exists xs, (forall a, fruns prec top libpow (Fi c) baseline (map to_run runs) a = fold_left (fun a x => fassign prec top libpow (Fi c) (Fi x) a) xs a) /\ Forall (fun x => float x /\ Rabs x <= b (r + 3)) xs /\ Forall2 (fun x y => Rabs (x - y) <= (8 * INR N + 7) * u * b r) xs (map (exact_bc baseline) runs)) as (xs & E & Fx & Dx).
  { induction H as [|q runs Q H (xs & E & Fx & Dx)]; [exists []; repeat split; constructor|]. destruct (bc_spec baseline q N Q L T) as (x & Ex & F & X & D). exists (x :: xs). split; [intros a; cbn [map fold_left]; unfold fruns in *; cbn [fold_left]; rewrite Ex; apply E|]. split; constructor; auto. }
  rewrite E. destruct (tracked_all prec top A libpow FP c Hc Hp (r + 3) ltac:(lia) ltac:(lia) xs Fx) as (_ & _ & m & _ & _ & _ & _ & Em & Fm & Bm & Dm). exists m. split; [exact Em|]. split; [exact Fm|]. rewrite bpow_plus in Bm, Dm. change (b 3) with 8 in Bm, Dm. split; [lra|].
  assert (G : 0 <= 1 - c) by lra. pose proof (pos_INR N) as N0. pose proof (fading_close (1 - c) xs (map (exact_bc baseline) runs) ((8 * INR N + 7) * u * b r) G ltac:(apply Rmult_le_pos; [apply Rmult_le_pos|]; lra) Dx) as D2. unfold Rdiv in Dm |- *. apply Rabs_le_inv in Dm, D2. apply Rabs_le. lra.
Qed.
(** The cost of a run after any number of runs, whether the moving mean is read before or
    after its update: n samples, at most N entries in every batch. *)
Theorem C65_reinforce baseline read_first runs now N p s : let n := length s in
  Forall (batch_ok N) (runs ++ [now]) -> (8 * Z.of_nat N <= 2 ^ prec)%Z -> (2 * r + prec + 9 <= top)%Z ->
  In s (snd now) -> s <> [] -> adds_up p n ->
  exists v, freinforce prec top libpow (Fi c) baseline read_first (map to_run runs) (to_run now) p (map to_entry s) = Fi v /\ float v /\
    Rabs (v - exact_cost baseline (fading_mean (1 - c) (map (exact_bc baseline) (if read_first then runs else runs ++ [now]))) s)
      <= (128 * INR n + 8 * INR N + 138 + 96 / c) * u * b (2 * r).
Proof.
  intros n H L T I Ne P. pose proof A as (_ & p3 & _). pose proof (u_pos prec) as U. pose proof (bpow_gt_0 radix2 r) as B0. set (seen := if read_first then runs else runs ++ [now]).
  assert (Hs : Forall (batch_ok N) seen) by (unfold seen; destruct read_first; [now apply Forall_app in H as (H & _)|exact H]). assert (T' : (r + prec + 5 <= top)%Z) by lia.
  destruct (read_spec baseline N seen Hs L T') as (m & Em & Fm & Bm & Dm). set (M := fading_mean _ _) in *.
  apply Forall_app in H as (_ & Hn). inversion Hn as [|? ? (Na & Wa & _ & La) _]; subst. assert (Sub : forall q, In q s -> In q (concat (snd now))) by (intros q Iq; apply in_concat; exists s; auto).
  assert (Ws : Forall within s) by (apply Forall_forall; intros q Iq; apply (proj1 (Forall_forall _ _) Wa), Sub, Iq).
  assert (Ln : (n <= N)%nat). { eapply Nat.le_trans; [|exact La]. clear - I. unfold n. induction (snd now) as [|x l IH]; [easy|]. cbn [concat]. rewrite app_length. destruct I as [->|I]; [lia|]. specialize (IH I). lia. }
  destruct (C65_cost p baseline m s Ne Ws P ltac:(lia) T Fm Bm) as (v & E & F & D). fold n in D. exists v. split.
  { unfold freinforce. replace (if read_first then map to_run runs else map to_run runs ++ [to_run now]) with (map to_run seen) by (unfold seen; destruct read_first; [reflexivity|now rewrite map_app]). rewrite Em. exact E. }
  split; [exact F|]. set (e := (96 / c + 8 * INR N + 7) * u * b r) in *. assert (C : Rabs (exact_cost baseline m s - exact_cost baseline M s) <= e * b r).
  { apply mean_close; [destruct s; [easy|discriminate]|]. clear - Ws Dm. induction Ws as [|q s Q Ws IH]; [constructor|]. constructor; [|exact IH]. destruct q as ((lj, ent), bl). destruct Q as (_ & (_ & Xe) & _). cbn [fst snd]. set (X := exact_learning baseline (lj, ent, bl)).
    replace (- lj + (X - m) * ent - (- lj + (X - M) * ent)) with ((M - m) * ent) by ring. rewrite Rabs_mult, Rabs_minus_sym. apply Rmult_le_compat; try apply Rabs_pos; assumption. }
  rewrite BB in D |- *. unfold e in C. apply Rabs_le_inv in C, D. apply Rabs_le. lra.
Qed.
End Costs.

(** ** A value that is not finite *)
Section Poison.
Variables prec top : Z.
Variable libpow : R -> R -> R.
Notation bad x := (is_finite x = false).
Lemma bad_add a c : bad a \/ bad c -> bad (fadd prec top a c).
Proof. unfold fadd. destruct a, c; cbn; intros [H|H]; easy. Qed.
Lemma bad_sub a c : bad a \/ bad c -> bad (fsub prec top a c).
Proof. unfold fsub, esub. destruct a, c; cbn; intros [H|H]; easy. Qed.
Lemma bad_sum l i p : bad (nth i l NaN) -> In i (entries p) -> bad (fsum prec top p l).
Proof.
  intros H. induction p as [|j|p IHp q IHq]; cbn [entries fsum]; [intros []|intros [->|[]]; exact H|]. intros I. apply bad_add. apply in_app_or in I as [I|I]; auto.
Qed.
Lemma bad_divn a n : bad a -> bad (fdivn prec top a n).
Proof. unfold fdivn, ediv. destruct a; cbn; try easy; destruct (Rlt_dec (INR n) 0); easy. Qed.
Lemma bad_biased c v a : 0 < c -> bad v -> bad (fa_biased (fassign prec top libpow (Fi c) v a)).
Proof.
  intros C V. cbn [fassign fa_biased]. apply bad_sub. right. unfold fmul, fsub, esub. destruct (fa_biased a), v; cbn in *; try easy; destruct (Rlt_dec 0 c); easy.
Qed.
Lemma nan_biased c v a : 0 < c -> bad (fa_biased a) -> fa_biased (fassign prec top libpow (Fi c) v a) = NaN.
Proof.
  intros C V. cbn [fassign fa_biased]. unfold fmul, fsub, esub. destruct (fa_biased a); cbn in *; try easy; destruct v; cbn; try reflexivity; destruct (Rlt_dec 0 c); try reflexivity; easy.
Qed.
Lemma nan_mean c v a : 0 < c -> bad (fa_biased a) -> fa_mean (fassign prec top libpow (Fi c) v a) = NaN.
Proof.
  intros C V. pose proof (nan_biased c v a C V) as E. cbn [fassign fa_biased fa_mean] in *. rewrite E. unfold fdiv, ediv2. cbn. destruct (fsub prec top (Fi 1) _); cbn; unfold fsub, esub; destruct (fa_mean a); reflexivity.
Qed.
Lemma bad_run c baseline r a q : 0 < c -> In q (concat (snd r)) -> bad (f_log_joint q) -> adds_up (fst r) (length (concat (snd r))) -> bad (fa_biased (fassign prec top libpow (Fi c) (fbc prec top (fst r) baseline (snd r)) a)).
Proof.
  intros C I J P. apply bad_biased; [exact C|]. unfold fbc. apply bad_divn. apply In_nth_error in I as (i & I). apply bad_sum with i.
  - erewrite nth_error_nth; [|rewrite nth_error_map, I; reflexivity]. unfold flearning, flower. destruct baseline; [apply bad_sub; left|]; apply bad_add; now left.
  - apply (Permutation_in _ (Permutation_sym P)), in_seq. assert (i < length (concat (snd r)))%nat by (apply nth_error_Some; congruence). lia.
Qed.
Lemma later_nan c baseline later a : 0 < c -> bad (fa_biased a) -> later <> [] -> fa_mean (fruns prec top libpow (Fi c) baseline later a) = NaN.
Proof.
  intros C. revert a. induction later as [|r later IH]; intros a X N; [easy|]. unfold fruns in *. cbn [fold_left]. destruct later as [|r' later]; [cbn [fold_left]; apply nan_mean; assumption|]. apply IH; [|discriminate]. now rewrite nan_biased.
Qed.
(** One sample whose log joint density is not finite, in any run: in every run from the
    second one on, whatever the data, the moving mean is NaN, and so is the cost. *)
Theorem C65_moving_mean_refuted c baseline (before : list (plan * list fposition)) (r : plan * list fposition) q (later : list (plan * list fposition)) a : 0 < c -> In q (concat (snd r)) -> is_finite (f_log_joint q) = false ->
  adds_up (fst r) (length (concat (snd r))) -> later <> [] ->
  fa_mean (fruns prec top libpow (Fi c) baseline (before ++ r :: later) a) = NaN.
Proof.
  intros C I J P N. unfold fruns. rewrite fold_left_app. cbn [fold_left]. apply (later_nan c baseline later _ C); [|exact N]. now apply (bad_run c baseline r _ q).
Qed.
Theorem C65_cost_refuted c baseline read_first (before : list (plan * list fposition)) (r : plan * list fposition) q (later : list (plan * list fposition)) now p (s : fposition) : 0 < c -> In q (concat (snd r)) -> is_finite (f_log_joint q) = false ->
  adds_up (fst r) (length (concat (snd r))) -> (read_first = true -> later <> []) -> s <> [] -> adds_up p (length s) ->
  freinforce prec top libpow (Fi c) baseline read_first (before ++ r :: later) now p s = NaN.
Proof.
  intros C I J P N Ne Ps. unfold freinforce. assert (E : fa_mean (fruns prec top libpow (Fi c) baseline (if read_first then before ++ r :: later else (before ++ r :: later) ++ [now]) faverage0) = NaN).
  { destruct read_first; [apply (C65_moving_mean_refuted c baseline before r q later); auto|]. rewrite <- app_assoc. cbn [app]. apply (C65_moving_mean_refuted c baseline before r q (later ++ [now])); try assumption. destruct later; discriminate. }
  rewrite E. unfold fcost. rewrite (nan_sum prec top _ 0); [reflexivity| |].
  - destruct s as [|x s]; [easy|]. cbn [map nth]. unfold fcost_entry, fsignal_of, fsub at 1, esub. cbn [eneg]. replace (eadd (flearning prec top baseline x) NaN) with NaN by (now destruct (flearning prec top baseline x)). cbn [rounded]. unfold fmul. cbn [emul rounded]. unfold fadd. now destruct (eneg (f_log_joint x)).
  - apply (Permutation_in _ (Permutation_sym Ps)), in_seq. destruct s; [easy|cbn; lia].
Qed.
End Poison.

(** The hypotheses are met: float32, correctly rounded pow, the default decay of 0.8 (c is
    the float32 nearest to 0.2), two positions with two samples each. *)
Definition c65_c : R := IZR 13421773 * bpow radix2 (-26).
Definition c65_run : plan * list (list rentry) :=
  (Plus (Plus (Entry 0) (Entry 1)) (Plus (Entry 2) (Entry 3)), [[(-1, 1, 0); (1, -1, 1)]; [(0, 1, 1); (1, 1, 1)]]).
Example C65_case : ample 24 128 /\ faithful_pow 24 128 (fun x y => nearest 24 128 (Rpower x y)) /\ is_float 24 128 c65_c /\
  64 * unit_roundoff 24 <= c65_c <= 1 - 64 * unit_roundoff 24 /\ IZR 24 * unit_roundoff 24 <= c65_c /\ batch_ok 24 128 0 4 c65_run /\ Rabs (c65_c - 1 / 5) <= / 2 ^ 26.
Proof.
  destruct C58_formats as (A & _). assert (F1 : is_float 24 128 1) by exact (float_1 24 128 A). assert (F0 : is_float 24 128 0) by exact (float_0 24 128). assert (Fm : is_float 24 128 (-1)) by exact (float_opp 24 128 1 F1).
  split; [exact A|]. split; [intros x y _ _ _; apply round_DN_or_UP; apply valid_rnd_N|].
  assert (V : c65_c = 13421773 / 67108864) by (unfold c65_c; cbn; lra). assert (U : unit_roundoff 24 = / 16777216) by (unfold unit_roundoff; cbn; lra).
  split; [split; [apply (fmt_grid 24 128 (proj1 A)); lia|rewrite V, Rabs_pos_eq by lra; apply Rlt_trans with (bpow radix2 1); [cbn; lra|apply bpow_lt; lia]]|]. rewrite V, U. split; [lra|]. split; [lra|]. split.
  - unfold batch_ok, c65_run. cbn [fst snd concat app length entries]. split; [discriminate|]. split; [|split; [apply Permutation_refl|lia]].
    repeat (first [apply Forall_cons | apply Forall_nil | split | exact F1 | exact F0 | exact Fm]); try apply F1; try apply F0; try apply Fm; change (bpow radix2 0) with 1; rewrite ?Rabs_R0, ?Rabs_R1, ?(Rabs_left (-1)) by lra; lra.
  - rewrite Rabs_pos_eq; cbn; lra.
Qed.
Example C65_refuted_case libpow n : let run := (Entry 0, [[FEntry (Fi 0) (Fi 0) (Fi 0)]]) in
  freinforce 24 128 libpow (Fi c65_c) false true ((Entry 0, [[FEntry MInf (Fi 0) (Fi 0)]]) :: repeat run (S n)) run (Entry 0) [FEntry (Fi 0) (Fi 0) (Fi 0)] = NaN.
Proof.
  intros run. apply (C65_cost_refuted 24 128 libpow c65_c false true [] (Entry 0, [[FEntry MInf (Fi 0) (Fi 0)]]) (FEntry MInf (Fi 0) (Fi 0))); [unfold c65_c; cbn; lra|now left|reflexivity|apply Permutation_refl|discriminate|discriminate|apply Permutation_refl].
Qed.

Print Assumptions C65_elbo.
Print Assumptions C65_baseline_cost.
Print Assumptions C65_cost.
Print Assumptions C65_without.
Print Assumptions C65_moving_mean.
Print Assumptions C65_reinforce.
Print Assumptions C65_moving_mean_refuted.
Print Assumptions C65_cost_refuted.
Print Assumptions C65_case.
Print Assumptions C65_refuted_case.
