(** C79: minibatch estimates of the log joint, and test errors in original units
    (examples/bayesian_neural_nets, examples/gaussian_process). *)
From Coq Require Import List Reals Lra Lia Arith Permutation.
From Verif Require Import SpecDist SpecTrain ModelExamples ModelTrain ProofDiscrete ProofTrain PropTowers.
Import ListNotations.
Local Open Scope R_scope.

(** ** Minibatches *)
Lemma after_epochs_perm {A} (d : A) data earlier :
  Forall (fun o => Permutation o (seq 0 (length data))) earlier ->
  Permutation (after_epochs d data earlier) data.
Proof.
  unfold after_epochs. revert data. induction earlier as [|o os IH]; intros data H; [apply Permutation_refl|].
  inversion H as [|? ? Ho Hos]; subst. cbn [fold_left].
  pose proof (rows_at_perm d data o Ho) as P. rewrite IH; [exact P|].
  rewrite (Permutation_length P). exact Hos.
Qed.
(** After any earlier epochs, averaged over the next shuffle, every step of the epoch uses the
    log joint of the whole training set: for every batch size, also for the short last batch. *)
Theorem C79_unbiased : forall {A} (d : A) data earlier os prior ll size t,
  Forall (fun o => Permutation o (seq 0 (length data))) earlier ->
  all_orders (length data) os -> (0 < size)%nat -> (t * size < length data)%nat ->
  average (fun o => minibatch_log_joint prior (length data) ll
                      (epoch_batch d size (after_epochs d data earlier) o t)) os
  = prior + total ll data.
Proof.
  intros A d data earlier os prior ll size t He Ho Hs Ht.
  pose proof (after_epochs_perm d data earlier He) as P. set (now := after_epochs d data earlier) in *.
  rewrite <- (total_perm ll _ _ P). pose proof (Permutation_length P) as EL. rewrite <- EL in *. clear P EL He.
  set (n := length now) in *. unfold average.
  set (k := Nat.min size (n - t * size)).
  assert (Hk : (0 < k)%nat) by (unfold k; lia).
  rewrite (Permutation_length (orders_arrangements n os Ho)), arrangements_length, seq_length.
  rewrite (total_perm _ _ _ (orders_arrangements n os Ho)).
  rewrite (total_ext _ (fun o => prior + (INR n / INR k) * total (fun j => ll (nth (nth j o 0%nat) now d)) (seq (t * size) k))).
  - rewrite total_plus, total_const, arrangements_length, seq_length, total_scal, total_swap.
    rewrite (total_ext _ (fun _ => INR (fact (n - 1)) * total ll now)).
    + rewrite total_const, seq_length. pose proof (lt_0_INR k Hk) as Pk.
      destruct n as [|m] eqn:En; [lia|]. replace (S m - 1)%nat with m by lia. rewrite fact_simpl, mult_INR.
      pose proof (INR_fact_lt_0 m). pose proof (lt_0_INR (S m) ltac:(lia)). field. lra.
    + intros j Hj. apply in_seq in Hj.
      rewrite (arrangements_total 0%nat (fun i => ll (nth i now d))) by (rewrite seq_length; lia).
      rewrite seq_length. f_equal. rewrite <- (total_map ll (fun i => nth i now d)).
      apply total_perm. apply (rows_at_perm d now (seq 0 n)). apply Permutation_refl.
  - intros o Hin. apply arrangements_spec in Hin.
    assert (Lo : length o = n) by (rewrite (Permutation_length Hin); apply seq_length).
    unfold minibatch_log_joint, reduce_mean, epoch_batch, batch.
    rewrite (slice_nth d). unfold rows_at. rewrite !map_length, Lo.
    replace ((t + 1) * size - t * size)%nat with size by nia. fold k.
    rewrite seq_length, total_map. f_equal.
    rewrite (total_ext _ (fun j => ll (nth (nth j o 0%nat) now d))).
    + pose proof (lt_0_INR k Hk). field. lra.
    + intros j Hj. apply in_seq in Hj. f_equal.
      rewrite (nth_indep _ d (nth 0 now d)) by (rewrite map_length; lia).
      rewrite (map_nth (fun i => nth i now d)). reflexivity.
Qed.
Print Assumptions C79_unbiased.
(** The steps of an epoch together feed every training row exactly once. *)
Theorem C79_epoch_rows : forall {A} (d : A) data earlier o size,
  Forall (fun o => Permutation o (seq 0 (length data))) earlier -> Permutation o (seq 0 (length data)) -> (0 < size)%nat ->
  Permutation (concat (map (epoch_batch d size (after_epochs d data earlier) o) (seq 0 ((length data + size - 1) / size)))) data.
Proof.
  intros A d data earlier o size He Ho Hs. pose proof (after_epochs_perm d data earlier He) as P.
  set (now := after_epochs d data earlier) in *. assert (L : length now = length data) by exact (Permutation_length P).
  rewrite <- L in Ho. pose proof (rows_at_perm d now o Ho) as Q.
  destruct (C73_all_batches (rows_at d now o) size Hs) as [C _]. unfold all_batches in C.
  rewrite (Permutation_length Q), L in C. unfold epoch_batch.
  change (fun t => batch size (rows_at d now o) t) with (batch size (rows_at d now o)). rewrite C. exact (Permutation_trans Q P).
Qed.
Print Assumptions C79_epoch_rows.
(** There is such a list of orders for every size, so the hypotheses are met. *)
Example C79_unbiased_case : all_orders 3 (arrangements (seq 0 3)) /\ length (arrangements (seq 0 3)) = 6%nat.
Proof. split; [apply all_orders_exist|reflexivity]. Qed.

(** The same for gradients: differentiating the minibatch log joint in a parameter and averaging
    over the shuffle gives the derivative of the full log joint. *)
Lemma total_derivable {A} (ll ll' : A -> R -> R) th l : (forall a, In a l -> derivable_pt_lim (ll a) th (ll' a th)) ->
  derivable_pt_lim (fun u => total (fun a => ll a u) l) th (total (fun a => ll' a th) l).
Proof.
  induction l as [|a l IH]; intros H; cbn [total].
  - apply derivable_pt_lim_const.
  - apply (derivable_pt_lim_plus (ll a) (fun u => total (fun a => ll a u) l)); [apply H; now left|].
    apply IH. intros; apply H; now right.
Qed.
Theorem C79_gradient : forall {A} (d : A) data os (prior prior' : R -> R) (ll ll' : A -> R -> R) size t th,
  all_orders (length data) os -> (0 < size)%nat -> (t * size < length data)%nat ->
  derivable_pt_lim prior th (prior' th) -> (forall a, derivable_pt_lim (ll a) th (ll' a th)) ->
  exists g : list nat -> R,
    (forall o, derivable_pt_lim (fun u => minibatch_log_joint (prior u) (length data) (fun a => ll a u)
                                            (epoch_batch d size data o t)) th (g o)) /\
    derivable_pt_lim (fun u => prior u + total (fun a => ll a u) data) th (average g os).
Proof.
  intros A d data os prior prior' ll ll' size t th Ho Hs Ht Hp Hl.
  exists (fun o => minibatch_log_joint (prior' th) (length data) (fun a => ll' a th) (epoch_batch d size data o t)).
  split.
  - intros o. unfold minibatch_log_joint, reduce_mean.
    apply (derivable_pt_lim_plus prior (fun u => total (fun a => ll a u) (epoch_batch d size data o t) /
       INR (length (epoch_batch d size data o t)) * INR (length data))); [exact Hp|].
    unfold Rdiv. set (c := / INR (length (epoch_batch d size data o t))). set (N := INR (length data)).
    pose proof (total_derivable ll ll' th (epoch_batch d size data o t) (fun a _ => Hl a)) as D.
    pose proof (derivable_pt_lim_scal _ (c * N) _ _ D) as E. unfold mult_real_fct in E.
    replace (total (fun a => ll' a th) (epoch_batch d size data o t) * c * N)
      with (c * N * total (fun a => ll' a th) (epoch_batch d size data o t)) by ring.
    intros e He. destruct (E e He) as [dl Hd]. exists dl. intros h H0 H1. specialize (Hd h H0 H1).
    match goal with |- Rabs (?a - _) < _ => match type of Hd with Rabs (?b - _) < _ => replace a with b by (field; exact H0) end end.
    exact Hd.
  - pose proof (C79_unbiased d data [] os (prior' th) (fun a => ll' a th) size t (Forall_nil _) Ho Hs Ht) as U.
    cbn [after_epochs fold_left] in U. unfold after_epochs in U. cbn [fold_left] in U. rewrite U.
    apply (derivable_pt_lim_plus prior (fun u => total (fun a => ll a u) data)); [exact Hp|].
    apply total_derivable. intros; apply Hl.
Qed.
Print Assumptions C79_gradient.
Example C79_gradient_case : forall th, exists prior prior' : R -> R,
  derivable_pt_lim prior th (prior' th) /\ prior' th = th + th.
Proof.
  intros th. exists (fun u => u * u), (fun u => u + u). split; [|reflexivity].
  pose proof (derivable_pt_lim_mult id id th 1 1 (derivable_pt_lim_id th) (derivable_pt_lim_id th)) as H.
  unfold id in H. replace (th + th) with (1 * th + th * 1) by ring. exact H.
Qed.

(** ** The average over one epoch *)
(** If the batch size divides the number of rows, the average of the steps of one epoch is the
    log joint of all rows, whatever the order. *)
Theorem C79_epoch_average : forall {A} prior size k (ll : A -> R) rows,
  (0 < size)%nat -> (0 < k)%nat -> length rows = (k * size)%nat ->
  epoch_average prior size ll rows = prior + total ll rows.
Proof.
  intros A prior size k ll rows Hs Hk E. unfold epoch_average, reduce_mean.
  destruct (C73_all_batches rows size Hs) as [C [_ _]].
  assert (N : length (all_batches size rows) = k).
  { unfold all_batches. rewrite map_length, seq_length, E.
    symmetry. apply (Nat.div_unique _ _ _ (size - 1)); [lia|]. nia. }
  assert (F : forall b, In b (all_batches size rows) -> length b = size).
  { intros b Hb. unfold all_batches in Hb. apply in_map_iff in Hb. destruct Hb as [t [<- Ht]].
    apply in_seq in Ht. assert (t < k)%nat.
    { rewrite E in Ht. replace ((k * size + size - 1) / size)%nat with k in Ht; [lia|].
      apply (Nat.div_unique _ _ _ (size - 1)); [lia|nia]. }
    unfold batch, slice. rewrite firstn_length, skipn_length, E. nia. }
  assert (T : total ll rows = total (fun b => total ll b) (all_batches size rows)).
  { rewrite <- C at 1. clear. induction (all_batches size rows) as [|b bs IH]; [reflexivity|]. cbn [concat total]. now rewrite total_app, IH. }
  rewrite N, T. clear C.
  pose proof (lt_0_INR k Hk). pose proof (lt_0_INR size Hs).
  rewrite (total_ext _ (fun b => prior + (INR k * total ll b))).
  - rewrite total_plus, total_const, total_scal, N.
    change (fun b : list A => total ll b) with (total ll). field. lra.
  - intros b Hb. unfold minibatch_log_joint, reduce_mean. rewrite (F b Hb), E, mult_INR. field. lra.
Qed.
Print Assumptions C79_epoch_average.
Example C79_epoch_average_case : epoch_average 1 2 (fun x => x) [1; 2; 3; 4] = 11.
Proof. rewrite (C79_epoch_average 1 2 2) by (cbn; lia). cbn. lra. Qed.
(** Otherwise the rows of the last batch count more, and the printed average is another number. *)
Theorem C79_epoch_average_refuted : exists prior size (rows : list R),
  (0 < size)%nat /\ rows <> [] /\ epoch_average prior size (fun x => x) rows <> prior + total (fun x => x) rows.
Proof.
  exists 0, 2%nat, [0; 0; 3]. repeat split; [lia|discriminate|].
  unfold epoch_average, minibatch_log_joint, reduce_mean. cbn. lra.
Qed.
Print Assumptions C79_epoch_average_refuted.

(** ** Reported errors *)
Lemma mean_affine m s (l : list R) : l <> [] ->
  reduce_mean (fun v => v * s + m) l = reduce_mean (fun v => v) l * s + m.
Proof.
  intros N. unfold reduce_mean. assert (P : 0 < INR (length l)) by (apply lt_0_INR; destruct l; [contradiction|cbn; lia]).
  rewrite total_plus, total_const. rewrite (total_ext (fun x => x * s) (fun x => s * x)) by (intros; ring).
  rewrite total_scal. field. lra.
Qed.
(** The point with its target and predictions in the original unit. *)
Definition in_units (m s : R) (p : point) : point := (original m s (fst p), map (original m s) (snd p)).
(** rmse is the root mean squared error of the averaged predictions in the original unit, and
    pred_mse the mean squared error. *)
Theorem C79_rmse : forall m s pts, 0 <= s -> (forall p, In p pts -> snd p <> []) ->
  rmse s pts = sqrt (average (fun p => (average (fun v => v) (snd p) - fst p) ^ 2) (map (in_units m s) pts)) /\
  pred_mse s pts = average (fun p => (average (fun v => v) (snd p) - fst p) ^ 2) (map (in_units m s) pts).
Proof.
  intros m s pts Hs N.
  assert (E : average (fun p => (average (fun v => v) (snd p) - fst p) ^ 2) (map (in_units m s) pts) = pred_mse s pts).
  { unfold average at 1. rewrite map_length, total_map. unfold pred_mse, reduce_mean.
    rewrite (total_ext _ (fun p => s ^ 2 * (y_pred p - fst p) ^ 2)).
    - rewrite total_scal. unfold Rdiv. ring.
    - intros p Hp. unfold in_units. cbn [fst snd].
      assert (A : average (fun v => v) (map (original m s) (snd p)) = y_pred p * s + m).
      { unfold y_pred. rewrite <- mean_affine by (now apply N). unfold average, reduce_mean. now rewrite map_length, total_map. }
      rewrite A. unfold original. ring. }
  split; [|now symmetry]. rewrite E. unfold rmse, pred_mse.
  rewrite sqrt_mult_alt.
  - rewrite sqrt_pow2 by exact Hs. reflexivity.
  - unfold reduce_mean. destruct pts as [|p pts]; [cbn; lra|].
    apply Rmult_le_pos; [apply total_nonneg; intros; apply pow2_ge_0|].
    left. apply Rinv_0_lt_compat, lt_0_INR. cbn; lia.
Qed.
Print Assumptions C79_rmse.
Example C79_rmse_case : rmse 2 [(1, [2; 4]); (0, [2])] = sqrt (((3 - 1) ^ 2 + 2 ^ 2) / 2) * 2.
Proof. unfold rmse, reduce_mean, y_pred, reduce_mean. cbn. f_equal. f_equal. field. Qed.

Lemma log_mean_exp_any l : l <> [] -> particle_log_mean_exp l = ln (average exp l).
Proof.
  intros N. unfold particle_log_mean_exp. set (c := match l with [] => 0 | x :: l' => fold_right Rmax x l' end).
  assert (P : 0 < INR (length l)) by (apply lt_0_INR; destruct l; [contradiction|cbn; lia]).
  assert (E : average exp l = reduce_mean (fun x => exp (x - c)) l * exp c).
  { unfold average, reduce_mean. rewrite (total_ext exp (fun x => exp c * exp (x - c))).
    - rewrite total_scal. field. lra.
    - intros x _. rewrite <- exp_plus. f_equal. ring. }
  rewrite E, ln_mult; [now rewrite ln_exp| |apply exp_pos].
  unfold reduce_mean. apply Rmult_lt_0_compat; [|now apply Rinv_0_lt_compat].
  apply total_pos; [exact N|]. intros; apply exp_pos.
Qed.
(** The density at a value changes by the factor [s] with the unit. *)
Lemma density_units m s mu logstd y : 0 < s ->
  exp (normal_log_prob mu logstd y) = s * normal_pdf (original m s mu) (exp logstd * s) (original m s y).
Proof.
  intros Hs. unfold normal_log_prob, normal_pdf, original.
  pose proof (exp_pos logstd) as Pe. assert (P2 : 0 < 2 * PI) by (pose proof PI_RGT_0; lra).
  assert (Q : 0 < sqrt (2 * PI)) by (apply sqrt_lt_R0; exact P2).
  replace (-0.5 * ln (2 * PI) - logstd - 0.5 * exp (-2 * logstd) * (y - mu) ^ 2)
    with (- (/ 2 * ln (2 * PI)) + (- logstd + - (0.5 * exp (-2 * logstd) * (y - mu) ^ 2))) by lra.
  rewrite !exp_plus, !exp_Ropp.
  assert (E1 : exp (/ 2 * ln (2 * PI)) = sqrt (2 * PI)) by (rewrite <- Rpower_sqrt by exact P2; reflexivity).
  assert (E2 : exp (-2 * logstd) = / (exp logstd ^ 2)).
  { replace (-2 * logstd) with (- (logstd + logstd)) by ring. rewrite exp_Ropp, exp_plus. f_equal. ring. }
  assert (E3 : 0.5 = / 2) by lra. rewrite E1, E2, E3.
  replace ((y * s + m - (mu * s + m)) ^ 2 / (2 * (exp logstd * s) ^ 2))
    with (/ 2 * / exp logstd ^ 2 * (y - mu) ^ 2) by (field; repeat split; lra).
  set (z := exp (/ 2 * / exp logstd ^ 2 * (y - mu) ^ 2)).
  assert (0 < z) by apply exp_pos. field. repeat split; lra.
Qed.
(** log_likelihood is the mean over the test points of the log of the predictive density, the
    mixture of the particles, in the original unit. *)
Theorem C79_log_likelihood : forall m s logstd pts, 0 < s -> pts <> [] -> (forall p, In p pts -> snd p <> []) ->
  log_likelihood s logstd pts =
  average (fun p => ln (average (fun mu => normal_pdf mu (exp logstd * s) (fst p)) (snd p))) (map (in_units m s) pts).
Proof.
  intros m s logstd pts Hs Np N. unfold log_likelihood, average at 1, reduce_mean. rewrite map_length, total_map.
  assert (P : 0 < INR (length pts)) by (apply lt_0_INR; destruct pts; [contradiction|cbn; lia]).
  rewrite (total_ext _ (fun p => ln s + ln (average (fun mu => normal_pdf mu (exp logstd * s) (fst (in_units m s p))) (snd (in_units m s p))))).
  - rewrite (total_plus (fun _ => ln s)), total_const.
    match goal with |- (_ + ?a) / _ - _ = ?b / _ => change b with a; generalize a end.
    intros a. unfold point in *. field. lra.
  - intros p Hp. rewrite log_mean_exp_any by (specialize (N p Hp); destruct (snd p); [contradiction|discriminate]).
    assert (Pl : 0 < INR (length (snd p))) by (specialize (N p Hp); apply lt_0_INR; destruct (snd p); [contradiction|cbn; lia]).
    unfold in_units. cbn [fst snd]. rewrite <- ln_mult; [|exact Hs|].
    + f_equal. unfold average. rewrite !map_length, !total_map.
      rewrite (total_ext _ (fun mu => s * normal_pdf (original m s mu) (exp logstd * s) (original m s (fst p)))).
      * rewrite total_scal. unfold Rdiv. ring.
      * intros mu _. now apply density_units.
    + unfold average. rewrite map_length, total_map. apply Rmult_lt_0_compat; [|now apply Rinv_0_lt_compat].
      apply total_pos; [now apply N|]. intros mu _. unfold normal_pdf.
      pose proof (exp_pos logstd). pose proof PI_RGT_0.
      apply Rmult_lt_0_compat; [apply exp_pos|]. apply Rinv_0_lt_compat.
      repeat apply Rmult_lt_0_compat; try assumption. apply sqrt_lt_R0. lra.
Qed.
Print Assumptions C79_log_likelihood.
Example C79_log_likelihood_case : exists pts : list point, pts <> [] /\ (forall p, In p pts -> snd p <> []) /\ length pts = 2%nat.
Proof.
  exists [(1, [2; 4]); (0, [2])]. repeat split; [discriminate|].
  intros p [<-|[<-|[]]]; discriminate.
Qed.

(** The Gaussian process example reports, per point, the log of the joint predictive density of
    all test targets in the original unit. *)
Definition product {X} (f : X -> R) (l : list X) : R := fold_right (fun x r => f x * r) 1 l.
Theorem C79_joint_log_likelihood : forall m s logstd ys particles, 0 < s -> ys <> [] -> particles <> [] ->
  (forall ms, In ms particles -> length ms = length ys) ->
  joint_log_likelihood s logstd ys particles =
  ln (average (fun ms => product (fun ym => normal_pdf (original m s (snd ym)) (exp logstd * s) (original m s (fst ym)))
                                 (combine ys ms)) particles) / INR (length ys).
Proof.
  intros m s logstd ys particles Hs Ny Np Hl. unfold joint_log_likelihood.
  assert (P : 0 < INR (length ys)) by (apply lt_0_INR; destruct ys; [contradiction|cbn; lia]).
  assert (Pp : 0 < INR (length particles)) by (apply lt_0_INR; destruct particles; [contradiction|cbn; lia]).
  set (g := fun ym : R * R => normal_pdf (original m s (snd ym)) (exp logstd * s) (original m s (fst ym))).
  assert (G : forall ym, 0 < g ym).
  { intros ym. unfold g, normal_pdf. pose proof (exp_pos logstd). pose proof PI_RGT_0.
    apply Rmult_lt_0_compat; [apply exp_pos|]. apply Rinv_0_lt_compat.
    repeat apply Rmult_lt_0_compat; try assumption. apply sqrt_lt_R0. lra. }
  assert (GP : forall l, 0 < product g l).
  { induction l as [|x l IH]; cbn; [lra|]. apply Rmult_lt_0_compat; [apply G|exact IH]. }
  rewrite log_mean_exp_any by (destruct particles; [contradiction|discriminate]).
  assert (E : average exp (map (fun ms => total (fun ym => normal_log_prob (snd ym) logstd (fst ym)) (combine ys ms)) particles)
     = exp (INR (length ys) * ln s) * average (fun ms => product g (combine ys ms)) particles).
  { unfold average. rewrite map_length, total_map.
    rewrite (total_ext _ (fun ms => exp (INR (length ys) * ln s) * product g (combine ys ms))).
    - rewrite total_scal. unfold Rdiv. ring.
    - intros ms Hms. specialize (Hl ms Hms).
      assert (L : length (combine ys ms) = length ys) by (rewrite combine_length; lia). rewrite <- L. clear - Hs.
      induction (combine ys ms) as [|x l IH]; cbn [total length product fold_right].
      + cbn [INR]. rewrite Rmult_0_l, exp_0. ring.
      + rewrite exp_plus, IH, (density_units m s) by exact Hs. fold (g x). fold (product g l). rewrite S_INR, Rmult_plus_distr_r, exp_plus, Rmult_1_l, exp_ln by exact Hs.
        ring. }
  rewrite E, ln_mult, ln_exp.
  - field. lra.
  - apply exp_pos.
  - unfold average. apply Rmult_lt_0_compat; [|now apply Rinv_0_lt_compat].
    apply total_pos; [exact Np|]. intros; apply GP.
Qed.
Print Assumptions C79_joint_log_likelihood.
