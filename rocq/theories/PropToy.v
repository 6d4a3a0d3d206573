(** C84: the toy examples (examples/toy_examples). *)
From Coq Require Import List Reals Lra Lia Arith.
From Verif Require Import SpecDist SpecVI SpecTrain SpecExamples ModelExamples ModelTrain ModelToy ProofDiscrete ProofVI ProofExamples PropTowers.
Import ListNotations.
Local Open Scope R_scope.

(** ** Kernel density estimates *)
Lemma fold_total {X} (f : X -> R) l a : fold_left (fun ys b => ys + f b) l a = a + total f l.
Proof. revert a. induction l as [|x l IH]; intros a; cbn; [ring|]. rewrite IH. ring. Qed.
(** Working in batches does not change the estimate: it is the mean of the kernel over all samples,
    for every batch size that divides their number; other sizes are refused. *)
Theorem C84_kde : forall h mu size x, 0 < h -> mu <> [] ->
  ((0 < size)%nat -> (length mu mod size = 0)%nat ->
     kde h mu size x = Some (average (fun m => normal_pdf m h x) mu)) /\
  (size = 0%nat \/ (length mu mod size <> 0)%nat -> kde h mu size x = None).
Proof.
  intros h mu size x H N. split.
  - intros P M. unfold kde. destruct size as [|s]; [lia|]. set (size := S s) in *. rewrite M. cbn [Nat.eqb]. f_equal.
    rewrite fold_total, Rplus_0_l.
    pose proof (Nat.div_mod (length mu) size ltac:(lia)) as D. rewrite M, Nat.add_0_r in D. set (q := (length mu / size)%nat) in *.
    assert (Hl : (0 < length mu)%nat) by (destruct mu; [contradiction|cbn; lia]).
    assert (Hq : (0 < q)%nat) by nia.
    set (f := fun m => exp (- (1 / 2) / h ^ 2 * (x - m) ^ 2)).
    assert (C := C73_full_batches mu size P). destruct C as [C1 C2]. fold q in C1.
    assert (E : total (fun b => 1 / sqrt (2 * PI) / h * reduce_mean f (batch size mu b)) (seq 0 q)
      = 1 / sqrt (2 * PI) / h / INR size * total f mu).
    { transitivity (total (fun b => 1 / sqrt (2 * PI) / h * reduce_mean f b) (full_batches size mu)).
      - unfold full_batches. fold q. rewrite total_map. reflexivity.
      - rewrite (total_ext _ (fun b => 1 / sqrt (2 * PI) / h / INR size * total f b)).
        + rewrite total_scal. f_equal. rewrite <- total_concat, C1. rewrite firstn_all2; [reflexivity|lia].
        + intros b Hb. unfold reduce_mean. rewrite (C2 b Hb). unfold Rdiv. ring. }
    rewrite E. unfold average.
    assert (S1 : 0 < sqrt (2 * PI)) by (apply sqrt_lt_R0; pose proof PI_RGT_0; lra).
    rewrite (total_ext (fun m => normal_pdf m h x) (fun m => 1 / sqrt (2 * PI) / h * f m)).
    + rewrite total_scal. assert (0 < INR (length mu)) by now apply lt_0_INR. assert (0 < INR size) by now apply lt_0_INR. field. lra.
    + intros m _. unfold normal_pdf, f. replace (- ((x - m) ^ 2 / (2 * h ^ 2))) with (- (1 / 2) / h ^ 2 * (x - m) ^ 2) by (field; lra). field. lra.
  - intros [->|M]; [reflexivity|]. unfold kde. destruct size; [reflexivity|]. apply Nat.eqb_neq in M. now rewrite M.
Qed.
Print Assumptions C84_kde.
Example C84_kde_case : forall x, kde 1 [0; 1; 2; 3] 2 x = kde 1 [0; 1; 2; 3] 4 x /\ kde 1 [0; 1; 2; 3] 3 x = None.
Proof.
  intros x. assert (N : [0; 1; 2; 3] <> []) by discriminate. split; [|now apply (C84_kde 1 _ 3 x ltac:(lra) N); right].
  rewrite (proj1 (C84_kde 1 [0; 1; 2; 3] 2 x ltac:(lra) N)), (proj1 (C84_kde 1 [0; 1; 2; 3] 4 x ltac:(lra) N)); cbn; try lia; reflexivity.
Qed.

(** ** Burn-in of gaussian.py *)
(** For every number of iterations the kept samples are those of the iterations from
    n_iters // 2 on, in order; from the first kept iteration on nothing adapts. *)
Theorem C84_burnin : forall {X} n_iters (sample : nat -> list X),
  gaussian_samples n_iters sample = concat (map sample (seq (n_iters / 2) (n_iters - n_iters / 2))) /\
  forall i, gaussian_keeps n_iters i = true -> forall j, (i <= j)%nat -> (0 < n_iters)%nat -> gaussian_adapts n_iters j = false.
Proof.
  intros X n sample. assert (H : (n / 2 <= n)%nat) by (apply Nat.div_le_upper_bound; lia). split.
  - unfold gaussian_samples. do 2 f_equal. unfold gaussian_keeps, gaussian_burnin. set (k := (n / 2)%nat) in *. clearbody k.
    replace n with (k + (n - k))%nat at 1 by lia. rewrite seq_app, filter_app.
    assert (A : forall l, (forall i, In i l -> (i < k)%nat) -> filter (fun i => (k <=? i)%nat) l = []).
    { induction l as [|i l IH]; intros Hi; [reflexivity|]. cbn. pose proof (Hi i (or_introl eq_refl)) as B. apply Nat.leb_gt in B. rewrite B. apply IH. intros; apply Hi; now right. }
    assert (B : forall l, (forall i, In i l -> (k <= i)%nat) -> filter (fun i => (k <=? i)%nat) l = l).
    { induction l as [|i l IH]; intros Hi; [reflexivity|]. cbn. pose proof (Hi i (or_introl eq_refl)) as C. apply Nat.leb_le in C. rewrite C. f_equal. apply IH. intros; apply Hi; now right. }
    rewrite A by (intros i Hi; apply in_seq in Hi; lia). rewrite B by (intros i Hi; apply in_seq in Hi; lia). reflexivity.
  - intros i K j L _. unfold gaussian_keeps, gaussian_adapts, gaussian_burnin in *. apply Nat.leb_le in K. apply Nat.ltb_ge.
    assert (n / 2 / 2 <= n / 2)%nat by (apply Nat.div_le_upper_bound; lia). lia.
Qed.
Print Assumptions C84_burnin.
Example C84_burnin_case : gaussian_samples 5 (fun i => [i]) = [2; 3; 4]%nat /\ gaussian_adapts 5 0 = true.
Proof. split; reflexivity. Qed.

(** ** The mixture *)
(** The log joint is the log density of the equal mixture of two normals, up to the same constant
    everywhere; the exponentials are of numbers at most zero and the logarithm is of a number
    between 1 and 2, so nothing overflows. *)
Theorem C84_mixture : forall s m1 m2 x, 0 < s ->
  mixture_log_joint s m1 m2 x = ln (1 / 2 * normal_pdf m1 s x + 1 / 2 * normal_pdf m2 s x) + ln (2 * (s * sqrt (2 * PI))) /\
  let a1 := - (1 / 2) * ((x - m1) / s) ^ 2 in let a2 := - (1 / 2) * ((x - m2) / s) ^ 2 in
  a1 - Rmax a1 a2 <= 0 /\ a2 - Rmax a1 a2 <= 0 /\ 1 < exp (a1 - Rmax a1 a2) + exp (a2 - Rmax a1 a2) <= 2.
Proof.
  intros s m1 m2 x H. assert (S1 : 0 < sqrt (2 * PI)) by (apply sqrt_lt_R0; pose proof PI_RGT_0; lra).
  split.
  - unfold mixture_log_joint. set (a1 := - (1 / 2) * ((x - m1) / s) ^ 2). set (a2 := - (1 / 2) * ((x - m2) / s) ^ 2). set (M := Rmax a1 a2).
    pose proof (exp_pos (a1 - M)). pose proof (exp_pos (a2 - M)). pose proof (exp_pos a1). pose proof (exp_pos a2). pose proof (exp_pos M).
    assert (E1 : normal_pdf m1 s x = exp a1 / (s * sqrt (2 * PI))).
    { unfold normal_pdf, a1. do 2 f_equal. field. lra. }
    assert (E2 : normal_pdf m2 s x = exp a2 / (s * sqrt (2 * PI))).
    { unfold normal_pdf, a2. do 2 f_equal. field. lra. }
    assert (P : 0 < s * sqrt (2 * PI)) by now apply Rmult_lt_0_compat.
    rewrite E1, E2. rewrite <- ln_mult; [| |lra].
    + transitivity (ln (exp M * (exp (a1 - M) + exp (a2 - M)))).
      * rewrite ln_mult, ln_exp by lra. reflexivity.
      * f_equal. rewrite Rmult_plus_distr_l, <- !exp_plus. replace (M + (a1 - M)) with a1 by ring. replace (M + (a2 - M)) with a2 by ring. field. lra.
    + assert (0 < exp a1 / (s * sqrt (2 * PI))) by (apply Rmult_lt_0_compat; [assumption|now apply Rinv_0_lt_compat]).
      assert (0 < exp a2 / (s * sqrt (2 * PI))) by (apply Rmult_lt_0_compat; [assumption|now apply Rinv_0_lt_compat]). lra.
  - cbv zeta. set (a1 := - (1 / 2) * ((x - m1) / s) ^ 2). set (a2 := - (1 / 2) * ((x - m2) / s) ^ 2).
    pose proof (Rmax_l a1 a2). pose proof (Rmax_r a1 a2).
    assert (L : forall t, t <= 0 -> exp t <= 1).
    { intros t Ht. destruct (Rle_lt_or_eq_dec _ _ Ht) as [K| ->]; [|rewrite exp_0; lra]. rewrite <- exp_0. left. now apply exp_increasing. }
    pose proof (L (a1 - Rmax a1 a2) ltac:(lra)). pose proof (L (a2 - Rmax a1 a2) ltac:(lra)).
    pose proof (exp_pos (a1 - Rmax a1 a2)). pose proof (exp_pos (a2 - Rmax a1 a2)).
    repeat split; try lra. destruct (Rle_dec a1 a2) as [K|K].
    + rewrite (Rmax_right a1 a2) in * by lra. replace (a2 - a2) with 0 in * by ring. rewrite exp_0 in *. lra.
    + rewrite (Rmax_left a1 a2) in * by lra. replace (a1 - a1) with 0 in * by ring. rewrite exp_0 in *. lra.
Qed.
Print Assumptions C84_mixture.
(** The printed mean and standard deviation are those of the mixture: [E1] and [E2] take means under
    the two components, of which only mean and variance matter. *)
Theorem C84_moments : forall (E1 E2 : (R -> R) -> R) s m1 m2,
  (forall a b d, E1 (fun x => a * x ^ 2 + b * x + d) = a * (s ^ 2 + m1 ^ 2) + b * m1 + d) ->
  (forall a b d, E2 (fun x => a * x ^ 2 + b * x + d) = a * (s ^ 2 + m2 ^ 2) + b * m2 + d) ->
  let E f := 1 / 2 * E1 f + 1 / 2 * E2 f in
  E (fun x => 0 * x ^ 2 + 1 * x + 0) = mixture_mean m1 m2 /\
  let mean := mixture_mean m1 m2 in
  sqrt (E (fun x => 1 * x ^ 2 + (- 2 * mean) * x + mean ^ 2)) = total_stdev s m1 m2.
Proof.
  intros E1 E2 s m1 m2 H1 H2 E. unfold E. split.
  - rewrite H1, H2. unfold mixture_mean. lra.
  - cbv zeta. rewrite H1, H2. unfold total_stdev, mixture_mean. f_equal. lra.
Qed.
Print Assumptions C84_moments.
Example C84_moments_case : forall s m, exists E : (R -> R) -> R,
  forall a b d, E (fun x => a * x ^ 2 + b * x + d) = a * (s ^ 2 + m ^ 2) + b * m + d.
Proof. intros s m. exists (fun f => (f (m - s) + f (m + s)) / 2). intros. lra. Qed.

(** ** Contours of toy2d_intractable.py *)
Lemma log_normal_pdf m l y : normal_log_prob m l y = ln (normal_pdf m (exp l) y).
Proof.
  assert (P0 : 0 < 2 * PI) by (pose proof PI_RGT_0; lra). assert (S1 : 0 < sqrt (2 * PI)) by now apply sqrt_lt_R0. pose proof (exp_pos l).
  unfold normal_log_prob, normal_pdf. pose proof (exp_pos (- ((y - m) ^ 2 / (2 * exp l ^ 2)))).
  assert (0 < exp l * sqrt (2 * PI)) by now apply Rmult_lt_0_compat.
  assert (D : ln (exp (- ((y - m) ^ 2 / (2 * exp l ^ 2))) / (exp l * sqrt (2 * PI))) = - ((y - m) ^ 2 / (2 * exp l ^ 2)) - (l + ln (sqrt (2 * PI)))).
  { rewrite <- (ln_exp (- ((y - m) ^ 2 / (2 * exp l ^ 2)))) at 2. set (A := exp (- ((y - m) ^ 2 / (2 * exp l ^ 2)))) in *. unfold Rdiv.
    rewrite ln_mult, ln_Rinv, ln_mult, ln_exp; try assumption; [ring|now apply Rinv_0_lt_compat]. }
  rewrite D.
  assert (L : ln (2 * PI) = 2 * ln (sqrt (2 * PI))).
  { transitivity (ln (sqrt (2 * PI) * sqrt (2 * PI))); [now rewrite sqrt_sqrt by lra|]. rewrite ln_mult by assumption. ring. }
  rewrite L. replace (exp (-2 * l)) with (/ exp l ^ 2).
  - replace (-0.5) with (- / 2) by lra. replace 0.5 with (/ 2) by lra. field. lra.
  - replace (-2 * l) with (- (l + l)) by ring. rewrite exp_Ropp, exp_plus. field. lra.
Qed.
(** The contours drawn for the target are those of the model. *)
Theorem C84_target : forall z1 z2, plotted_log_prob z1 z2 = toy2d_log_joint z1 z2.
Proof. intros. unfold plotted_log_prob, toy2d_log_joint. rewrite !log_normal_pdf, exp_ln by lra. reflexivity. Qed.
Print Assumptions C84_target.
(** Those drawn for the approximation are not its own: np.exp(vlogstd) is passed as the variance. They
    are those of the family with half the log standard deviations, and differ at the mean unless
    the log standard deviations sum to zero. *)
Theorem C84_contour_refuted : forall m1 l1 m2 l2,
  (forall z1 z2, variational_contour m1 l1 m2 l2 z1 z2 = exp (mean_field_log_prob m1 (l1 / 2) m2 (l2 / 2) z1 z2)) /\
  (l1 + l2 <> 0 -> variational_contour m1 l1 m2 l2 m1 m2 <> exp (mean_field_log_prob m1 l1 m2 l2 m1 m2)).
Proof.
  intros m1 l1 m2 l2.
  assert (Pp : forall m s z, 0 < s -> 0 < normal_pdf m s z).
  { intros m s z Hs. unfold normal_pdf. apply Rmult_lt_0_compat; [apply exp_pos|]. apply Rinv_0_lt_compat. apply Rmult_lt_0_compat; [exact Hs|].
    apply sqrt_lt_R0. pose proof PI_RGT_0; lra. }
  assert (A : forall z1 z2, variational_contour m1 l1 m2 l2 z1 z2 = exp (mean_field_log_prob m1 (l1 / 2) m2 (l2 / 2) z1 z2)).
  { intros z1 z2. unfold variational_contour, mean_field_log_prob. rewrite !log_normal_pdf, exp_plus, !exp_ln by (apply Pp, exp_pos).
    assert (S : forall l, sqrt (exp l) = exp (l / 2)).
    { intros l. replace l with (l / 2 + l / 2) at 1 by field. rewrite exp_plus. apply sqrt_square. left. apply exp_pos. }
    now rewrite !S. }
  split; [exact A|]. intros N E. rewrite A in E. apply exp_inv in E. unfold mean_field_log_prob, normal_log_prob in E.
  replace (m1 - m1) with 0 in E by ring. replace (m2 - m2) with 0 in E by ring. apply N. lra.
Qed.
Print Assumptions C84_contour_refuted.
Example C84_contour_case : variational_contour 0 (-5) 0 (-5) 0 0 <> exp (mean_field_log_prob 0 (-5) 0 (-5) 0 0).
Proof. apply C84_contour_refuted. lra. Qed.
