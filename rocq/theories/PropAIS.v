(** C43, C44: annealed importance sampling. *)
From Coq Require Import Reals Lra List Arith Lia.
From Verif Require Import ModelDist ModelAIS SpecDist SpecVI SpecAIS ProofDiscrete ProofVI ProofAIS.
Import ListNotations.
Local Open Scope R_scope.

(** ** C43: the schedule *)
Lemma map_t_incr n x y : (0 < n)%nat -> x < y -> map_t n x < map_t n y.
Proof.
  intros N L. unfold map_t. assert (Hn : 0 < INR n) by now apply lt_0_INR.
  pose proof (exp_pos (-4 * (2 * x / INR n - 1))). pose proof (exp_pos (-4 * (2 * y / INR n - 1))).
  assert (exp (-4 * (2 * y / INR n - 1)) < exp (-4 * (2 * x / INR n - 1))).
  { apply exp_increasing. assert (2 * x / INR n < 2 * y / INR n); [|lra].
    unfold Rdiv. apply Rmult_lt_compat_r; [now apply Rinv_0_lt_compat|lra]. }
  unfold Rdiv. rewrite !Rmult_1_l. apply Rinv_lt_contravar; [|lra]. apply Rmult_lt_0_compat; lra.
Qed.
Lemma map_t_sym n t : (0 < n)%nat -> map_t n (INR n - t) = 1 - map_t n t.
Proof.
  intros N. unfold map_t. assert (Hn : 0 < INR n) by now apply lt_0_INR.
  replace (-4 * (2 * (INR n - t) / INR n - 1)) with (- (-4 * (2 * t / INR n - 1))) by (field; lra).
  rewrite exp_Ropp. pose proof (exp_pos (-4 * (2 * t / INR n - 1))). field. lra.
Qed.
Lemma span n : (0 < n)%nat -> 0 < map_t n (INR n) - map_t n 0.
Proof. intros N. pose proof (map_t_incr n 0 (INR n) N (lt_0_INR _ N)). lra. Qed.

Theorem C43_start n : (0 < n)%nat -> schedule_t n 0 = 0.
Proof. intros N. pose proof (span n N). unfold schedule_t. field. lra. Qed.
Theorem C43_end n : (0 < n)%nat -> schedule_t n (INR n) = 1.
Proof. intros N. pose proof (span n N). unfold schedule_t. field. lra. Qed.
Theorem C43_increasing n x y : (0 < n)%nat -> x < y -> schedule_t n x < schedule_t n y.
Proof.
  intros N L. pose proof (span n N). pose proof (map_t_incr n x y N L). unfold schedule_t, Rdiv.
  apply Rmult_lt_compat_r; [now apply Rinv_0_lt_compat|lra].
Qed.
Theorem C43_symmetric n t : (0 < n)%nat -> schedule_t n (INR n - t) = 1 - schedule_t n t.
Proof.
  intros N. pose proof (span n N) as H. unfold schedule_t.
  assert (E : map_t n (INR n) = 1 - map_t n 0).
  { rewrite <- map_t_sym by easy. f_equal. ring. }
  rewrite map_t_sym by easy. rewrite E in *. field. lra.
Qed.
Print Assumptions C43_start.
Print Assumptions C43_end.
Print Assumptions C43_increasing.
Print Assumptions C43_symmetric.

(** What a run asks of the session, in order. *)
Inductive event := Init | Sample (T : R) | Density (T : R).
Definition w_ret (A : Type) (a : A) : list event * A := ([], a).
Definition w_bind (A B : Type) (m : list event * A) (f : A -> list event * B) : list event * B :=
  (fst m ++ fst (f (snd m)), snd (f (snd m))).
Lemma fst_bind A B m f : fst (w_bind A B m f) = fst m ++ fst (f (snd m)).
Proof. easy. Qed.
Lemma adapt_trace {S} (next : R -> S -> S * (list R * list R)) k T : forall s,
  fst (adapt w_ret w_bind (fun T s => ([Sample T], next T s)) k T s) = repeat (Sample T) k.
Proof. induction k as [|k IH]; intros s; [easy|]. cbn. now rewrite IH. Qed.
Lemma anneal_trace {S} (next : R -> S -> S * (list R * list R)) n fuel : forall num s lw,
  fst (anneal w_ret w_bind (fun T s => ([Sample T], next T s)) n fuel num s lw)
  = map (fun k => Sample (schedule_t n (INR (k + 1)))) (seq num fuel).
Proof. induction fuel as [|fuel IH]; intros num s lw; [easy|]. cbn [anneal seq map]. unfold w_bind at 1. cbn [fst snd]. now rewrite IH. Qed.

(** Adapt from a prior draw, draw from the prior again, take its density at temperature
    0, then one transition at each of n strictly increasing temperatures, the last of
    which is exactly 1. *)
Theorem C43_run_order {S} (init : S -> S) (next : R -> S -> S * (list R * list R)) (dens : R -> S -> list R) n n_adapt s :
  (0 < n)%nat ->
  exists adp temps,
    fst (ais_log_weights w_ret w_bind (fun s => ([Init], init s)) (fun T s => ([Sample T], next T s))
           (fun T s => ([Density T], dens T s)) n n_adapt s)
    = [Init] ++ repeat (Sample adp) n_adapt ++ [Init; Density 0] ++ map Sample temps /\
    0 < adp <= 1 /\ length temps = n /\ nth (n - 1) temps 0 = 1 /\
    (forall i j, (i < j < n)%nat -> nth i temps 0 < nth j temps 0) /\
    (forall i, (i < n)%nat -> 0 < nth i temps 0 <= 1).
Proof.
  intros N.
  set (temps := map (fun k => schedule_t n (INR (k + 1))) (seq 0 n)).
  assert (At : forall i, (i < n)%nat -> nth i temps 0 = schedule_t n (INR (i + 1))).
  { intros i Hi. unfold temps. rewrite nth_indep with (d' := (fun k => schedule_t n (INR (k + 1))) 0%nat) by (now rewrite map_length, seq_length).
    rewrite (map_nth (fun k => schedule_t n (INR (k + 1)))), seq_nth by easy. now cbn. }
  assert (Rg : forall t, 0 < t <= INR n -> 0 < schedule_t n t <= 1).
  { intros t [H0 H1]. split; [rewrite <- (C43_start n N); now apply C43_increasing|].
    rewrite <- (C43_end n N). destruct H1 as [H1| ->]; [|lra]. left. now apply C43_increasing. }
  exists (schedule_t n (if (1 <? n)%nat then 2 else 1)), temps.
  split.
  { unfold ais_log_weights. rewrite !fst_bind. cbn [fst snd]. rewrite adapt_trace, anneal_trace.
    unfold temps. now rewrite map_map. }
  split.
  { apply Rg. destruct (Nat.ltb_spec 1 n) as [H|H].
    - apply le_INR in H. cbn in H. lra.
    - assert (n = 1%nat) as -> by lia. cbn. lra. }
  split; [unfold temps; now rewrite map_length, seq_length|].
  split; [rewrite At by lia; replace (n - 1 + 1)%nat with n by lia; now apply C43_end|].
  split.
  - intros i j Hij. rewrite !At by lia. apply C43_increasing; [easy|]. apply lt_INR. lia.
  - intros i Hi. rewrite At by easy. apply Rg. split; [apply lt_0_INR; lia|apply le_INR; lia].
Qed.
Print Assumptions C43_run_order.

(** ** C44: the weights *)
Section Telescope.
Context {S X : Type} (log_prior log_joint : X -> R) (chains : S -> list X)
  (init : S -> S) (next : R -> S -> S).
Notation lf := (log_fn log_prior log_joint).
Let density (T : R) (s : S) : list R := map (lf T) (chains s).
Let sample (T : R) (s : S) : S * (list R * list R) :=
  (next T s, (map (lf T) (chains s), map (lf T) (chains (next T s)))).

(** The state reached before the k-th transition. *)
Fixpoint state_at (n : nat) (s : S) (k : nat) : S :=
  match k with
  | 0%nat => s
  | Datatypes.S k' => next (schedule_t n (INR (k' + 1))) (state_at n s k')
  end.
Definition increment (n : nat) (s : S) (d : X) (c k : nat) : R :=
  lf (schedule_t n (INR (k + 1))) (nth c (chains (state_at n s k)) d)
  - lf (schedule_t n (INR k)) (nth c (chains (state_at n s k)) d).

Lemma nth_add a b c : length a = length b -> nth c (add_arrays a b) 0 = nth c a 0 + nth c b 0.
Proof.
  revert b c. induction a as [|x a IH]; intros [|y b] c L; try discriminate.
  - cbn. destruct c; cbn; ring.
  - destruct c; cbn; [easy|]. apply IH. now injection L.
Qed.
Lemma nth_sub a b c : length a = length b -> nth c (sub_arrays a b) 0 = nth c a 0 - nth c b 0.
Proof.
  revert b c. induction a as [|x a IH]; intros [|y b] c L; try discriminate.
  - cbn. destruct c; cbn; ring.
  - destruct c; cbn; [easy|]. apply IH. now injection L.
Qed.
Lemma add_len a b : length a = length b -> length (add_arrays a b) = length a.
Proof. intros L. unfold add_arrays. rewrite map_length, combine_length. lia. Qed.
Lemma sub_len a b : length a = length b -> length (sub_arrays a b) = length a.
Proof. intros L. unfold sub_arrays. rewrite map_length, combine_length. lia. Qed.
Lemma nth_lf T xs c d : (c < length xs)%nat -> nth c (map (lf T) xs) 0 = lf T (nth c xs d).
Proof. intros H. rewrite nth_indep with (d' := lf T d) by (now rewrite map_length). apply map_nth. Qed.

Hypothesis sized : forall T s, length (chains (next T s)) = length (chains s).
Lemma state_len n s k : length (chains (state_at n s k)) = length (chains s).
Proof. induction k as [|k IH]; [easy|]. cbn. now rewrite sized. Qed.

Lemma anneal_weight n s d c (C : (c < length (chains s))%nat) fuel : forall num lw,
  (num + fuel = n)%nat -> (0 < fuel)%nat -> length lw = length (chains s) ->
  nth c (anneal id_ret id_bind sample n fuel num (state_at n s num) lw) 0
  = nth c lw 0 + lf (schedule_t n (INR num)) (nth c (chains (state_at n s num)) d)
    + total (increment n s d c) (seq num fuel).
Proof.
  induction fuel as [|fuel IH]; intros num lw N P L; [lia|].
  cbn [anneal seq total map sumR fold_right]. unfold id_bind at 1.
  change (fst (sample (schedule_t n (INR (num + 1))) (state_at n s num))) with (state_at n s (Datatypes.S num)).
  change (fst (snd (sample (schedule_t n (INR (num + 1))) (state_at n s num)))) with (map (lf (schedule_t n (INR (num + 1)))) (chains (state_at n s num))).
  change (snd (snd (sample (schedule_t n (INR (num + 1))) (state_at n s num)))) with (map (lf (schedule_t n (INR (num + 1)))) (chains (state_at n s (Datatypes.S num)))).
  pose proof (state_len n s num) as L1. pose proof (state_len n s (Datatypes.S num)) as L2.
  destruct fuel as [|fuel].
  - replace (Nat.ltb (num + 1) n) with false by (symmetry; apply Nat.ltb_ge; lia).
    cbn [anneal]. unfold id_ret. rewrite nth_add by (rewrite map_length; lia).
    rewrite (nth_lf _ _ c d) by lia. unfold increment. cbn. ring.
  - replace (Nat.ltb (num + 1) n) with true by (symmetry; apply Nat.ltb_lt; lia).
    rewrite IH; [|lia|lia|rewrite add_len; [easy|rewrite sub_len; rewrite !map_length; lia]].
    rewrite nth_add by (rewrite sub_len; rewrite !map_length; lia).
    rewrite nth_sub by (rewrite !map_length; lia).
    rewrite (nth_lf _ _ c d), (nth_lf _ (chains (state_at n s (Datatypes.S num))) c d) by lia.
    cbn [seq total]. unfold increment at 3. replace (num + 1)%nat with (Datatypes.S num) by lia. ring.
Qed.

(** Each chain's log weight is the sum over the transitions of the difference between
    the tempered log densities at the new and at the previous temperature, both at the
    state the chain is in when that transition starts. *)
Theorem C44_telescope n n_adapt s d c :
  (0 < n)%nat ->
  let start := init (adapt id_ret id_bind sample n_adapt (schedule_t n (if (1 <? n)%nat then 2 else 1)) (init s)) in
  (c < length (chains start))%nat ->
  nth c (ais_log_weights id_ret id_bind init sample density n n_adapt s) 0
  = total (fun k => log_fn log_prior log_joint (schedule_t n (INR (k + 1))) (nth c (chains (state_at n start k)) d)
                  - log_fn log_prior log_joint (schedule_t n (INR k)) (nth c (chains (state_at n start k)) d)) (seq 0 n).
Proof.
  intros N start C. unfold ais_log_weights. cbv beta delta [id_bind] in start |- *. fold start.
  change start with (state_at n start 0) at 1.
  rewrite (anneal_weight n start d c C); [|lia|easy|unfold density; now rewrite !map_length].
  change (state_at n start 0) with start. unfold density. cbn [INR].
  rewrite C43_start by easy.
  replace (nth c (map Ropp (map (lf 0) (chains start))) 0) with (- lf 0 (nth c (chains start) d)).
  - unfold increment. ring.
  - rewrite map_map. rewrite nth_indep with (d' := (fun x => - lf 0 x) d) by (now rewrite map_length).
    now rewrite (map_nth (fun x => - lf 0 x)).
Qed.
End Telescope.
Print Assumptions C44_telescope.

(** The reported value is the log of the mean weight, shifted for range only. *)
Theorem C44_log_mean_weight l : l <> [] -> lower_bound l = ln_mean_exp l.
Proof.
  intros H. unfold lower_bound, ln_mean_exp, mean. rewrite map_length. set (m := max_weight l).
  pose proof (len_pos l H) as P.
  replace (sumR (map (fun w => exp (w - m)) l)) with (exp (- m) * total (fun x => x) (map exp l)).
  - assert (Q : 0 < total (fun x => x) (map exp l)).
    { rewrite total_map. apply total_pos; [easy|]. intros; apply exp_pos. }
    pose proof (exp_pos (- m)).
    unfold Rdiv. rewrite Rmult_assoc, ln_mult; [|easy|apply Rmult_lt_0_compat; [easy|now apply Rinv_0_lt_compat]].
    rewrite ln_exp. ring.
  - rewrite total_map, <- total_scal, <- total_sumR. apply total_ext. intros w _. rewrite <- exp_plus. f_equal. ring.
Qed.
Print Assumptions C44_log_mean_weight.
Lemma lower_bound_tangent l Z : l <> [] -> 0 < Z -> lower_bound l <= ln Z - 1 + / Z * mean (map exp l).
Proof.
  intros H P. rewrite C44_log_mean_weight by easy. unfold ln_mean_exp.
  assert (Q : 0 < mean (map exp l)).
  { unfold mean. rewrite map_length, total_map. apply Rdiv_lt_0_compat; [|now apply len_pos].
    apply total_pos; [easy|]. intros; apply exp_pos. }
  pose proof (ln_tangent _ Z Q P). unfold Rdiv in *. lra.
Qed.

Section Estimate.
Context {X : Type} (Xs : list X) (log_prior log_joint : X -> R) (kernel : R -> X -> X -> R) (K n n_adapt : nat).
Hypothesis prior : distribution (fun x => exp (log_prior x)) Xs.
Hypothesis chains : (0 < K)%nat.
Hypothesis temperatures : (0 < n)%nat.
Hypothesis transitions : forall k, (1 <= k <= n)%nat -> transition Xs (kernel (schedule_t n (INR k))).
Hypothesis stationary : forall k, (1 <= k < n)%nat ->
  invariant Xs log_prior log_joint (schedule_t n (INR k)) (kernel (schedule_t n (INR k))).
Let weights (s : list X) : E (list R) :=
  ais_log_weights e_ret e_bind (draw_prior Xs log_prior K) (move Xs log_prior log_joint kernel)
    (report log_prior log_joint) n n_adapt s.
Let run (s : list X) : E R :=
  ais_run e_ret e_bind (draw_prior Xs log_prior K) (move Xs log_prior log_joint kernel)
    (report log_prior log_joint) n n_adapt s.
Let Z := total (fun x => exp (log_joint x)) Xs.

Lemma expectation_prior s : expectation (sized Xs K) (draw_prior Xs log_prior K s).
Proof.
  unfold draw_prior. rewrite <- (repeat_length (fun x => exp (log_prior x)) K) at 1.
  apply expectation_independent. apply Forall_forall. intros q Hq. apply repeat_spec in Hq. now subst.
Qed.
Lemma adapt_index : exists k, (1 <= k <= n)%nat /\ (if (1 <? n)%nat then 2 else 1) = INR k.
Proof.
  destruct (Nat.ltb_spec 1 n); [exists 2%nat|exists 1%nat]; (split; [lia|]); cbn; ring.
Qed.
Lemma expectation_phase s : sized Xs K s -> expectation (sized Xs K)
  (adapt e_ret e_bind (move Xs log_prior log_joint kernel) n_adapt (schedule_t n (if (1 <? n)%nat then 2 else 1)) s).
Proof. destruct adapt_index as [k [Hk ->]]. now apply (expectation_adapt Xs _ _ kernel K n). Qed.
Lemma expectation_weights s : expectation (fun l => length l = K) (weights s).
Proof.
  unfold weights, ais_log_weights.
  apply (expectation_bind (sized Xs K)); [apply expectation_prior|]. intros s1 S1.
  apply (expectation_bind (sized Xs K)); [now apply expectation_phase|]. intros s2 S2.
  apply (expectation_bind (sized Xs K)); [apply expectation_prior|]. intros s3 S3.
  apply (expectation_bind (fun l => length l = K)).
  - apply (expectation_ret (fun l => length l = K)). rewrite map_length. apply S3.
  - intros l Ll. apply (expectation_anneal Xs); [easy|easy|easy|now rewrite map_length].
Qed.

(** The mean weight is an unbiased estimate of the marginal likelihood. *)
Theorem C44_unbiased s : weights s (fun lw => mean (map exp lw)) = total (fun x => exp (log_joint x)) Xs.
Proof.
  rewrite (expectation_ext _ _ _ (fun lw => 0 + / INR K * total exp lw) (expectation_weights s)).
  2: { intros l L. unfold mean. rewrite map_length, total_map, L. change (total (fun x => exp x) l) with (total exp l). unfold Rdiv. ring. }
  rewrite (proj2 (expectation_weights s)).
  assert (KP : 0 < INR K) by now apply lt_0_INR.
  enough (weights s (total exp) = INR K * Z) as ->. { fold Z. field. lra. }
  unfold weights, ais_log_weights.
  destruct n as [|m] eqn:En; [lia|]. rewrite <- En in *.
  destruct (anneal_total Xs log_prior log_joint kernel K n) with (fuel := m) (num := 0%nat) as [h [Th Ah]];
    [easy|easy|now apply C43_end|lia|].
  rewrite <- En in Ah. change (fun l : list R => total exp l) with (total exp) in Ah.
  assert (Body : forall s2, draw_prior Xs log_prior K s2 (fun s3 =>
     report log_prior log_joint 0 s3 (fun l => anneal e_ret e_bind (move Xs log_prior log_joint kernel) n n 0 s3 (map Ropp l) (total exp)))
     = INR K * Z).
  { intros s2. rewrite (expectation_ext _ _ _ (fun xs => total (fun p => fst p (snd p))
      (combine (repeat (fun x => exp (- log_prior x) * h x) K) xs)) (expectation_prior s2)).
    - unfold draw_prior. rewrite independent_sum.
      + transitivity (INR K * expect (fun x => exp (log_prior x)) Xs (fun x => exp (- log_prior x) * h x)).
        * clear. induction K as [|k IH]; [cbn; ring|]. rewrite S_INR. cbn [repeat combine total fst snd]. rewrite IH. ring.
        * f_equal. unfold Z. transitivity (total h Xs).
          -- apply total_ext. intros x _. rewrite exp_Ropp. field. pose proof (exp_pos (log_prior x)). lra.
          -- rewrite Th. apply total_ext. intros x _. f_equal. unfold log_fn. ring.
      + apply Forall_forall. intros q Hq. apply repeat_spec in Hq. now subst.
      + now rewrite !repeat_length.
    - intros xs Sx. unfold report. rewrite Ah; [|easy|rewrite !map_length; apply Sx]. destruct Sx as [L _]. rewrite <- L. clear.
      induction xs as [|x xs IH]; [easy|]. cbn [length repeat map combine total fst snd]. rewrite IH. f_equal.
      f_equal. f_equal. unfold log_fn. ring. }
  unfold e_bind.
  rewrite (expectation_ext _ _ _ (fun _ => INR K * Z) (expectation_prior s)).
  - apply (expectation_const _ _ _ (expectation_prior s)).
  - intros s1 S1. rewrite (expectation_ext _ _ _ (fun _ => INR K * Z) (expectation_phase s1 S1)).
    + apply (expectation_const _ _ _ (expectation_phase s1 S1)).
    + intros s2 _. apply Body.
Qed.

(** In expectation the reported value does not exceed the log marginal likelihood. *)
Theorem C44_lower_bound s :
  run s (fun v => v) <= ln (total (fun x => exp (log_joint x)) Xs).
Proof.
  assert (XP : Xs <> []). { intros ->. destruct prior as [_ E0]. cbn in E0. lra. }
  fold Z. assert (ZP : 0 < Z) by (apply total_pos; [easy|intros; apply exp_pos]).
  unfold run, ais_run. unfold e_bind at 1. fold (weights s). unfold e_ret at 1.
  apply Rle_trans with (weights s (fun l => (ln Z - 1) + / Z * mean (map exp l))).
  - apply (proj1 (expectation_weights s)). intros l L. apply lower_bound_tangent; [|easy].
    intros ->. cbn in L. lia.
  - rewrite (proj2 (expectation_weights s)). rewrite C44_unbiased. fold Z. right. field. lra.
Qed.
End Estimate.
Print Assumptions C44_unbiased.
Print Assumptions C44_lower_bound.

(** Averaging over the data axes keeps the bound. *)
Theorem C44_data_mean {D} (value evidence : D -> R) data :
  (forall x, In x data -> value x <= evidence x) ->
  data_mean (map value data) <= data_mean (map evidence data).
Proof.
  intros H. unfold data_mean. rewrite !map_length, <- !total_sumR.
  destruct data as [|x data]; [cbn; lra|]. unfold Rdiv. apply Rmult_le_compat_r.
  - left. apply Rinv_0_lt_compat. now apply len_pos.
  - now apply total_le.
Qed.
Print Assumptions C44_data_mean.

Lemma resample_ok {X} (Xs : list X) log_prior log_joint T : Xs <> [] ->
  transition Xs (resample Xs log_prior log_joint T) /\
  invariant Xs log_prior log_joint T (resample Xs log_prior log_joint T).
Proof.
  intros H. assert (P : 0 < total (fun z => exp (log_fn log_prior log_joint T z)) Xs)
    by (apply total_pos; [easy|intros; apply exp_pos]).
  split.
  - intros x _. split.
    + intros z _. unfold resample. left. apply Rdiv_lt_0_compat; [apply exp_pos|easy].
    + unfold resample, Rdiv. rewrite total_scal_r. now apply Rinv_r, Rgt_not_eq.
  - intros y _. unfold resample. rewrite total_scal_r. field. lra.
Qed.

(** Every hypothesis of the two estimates is met by a model with two states, two
    chains, three temperatures and transitions that resample. *)
Example C44_case :
  let Xs := [true; false] in
  let log_prior (_ : bool) := - ln 2 in
  let log_joint (b : bool) := if b then 0 else 1 in
  let kernel := resample Xs log_prior log_joint in
  distribution (fun x => exp (log_prior x)) Xs /\
  (forall k, (1 <= k <= 3)%nat -> transition Xs (kernel (schedule_t 3 (INR k)))) /\
  (forall k, (1 <= k < 3)%nat ->
     invariant Xs log_prior log_joint (schedule_t 3 (INR k)) (kernel (schedule_t 3 (INR k)))) /\
  ais_log_weights e_ret e_bind (draw_prior Xs log_prior 2) (move Xs log_prior log_joint kernel)
    (report log_prior log_joint) 3 5 [] (fun lw => mean (map exp lw)) = 1 + exp 1.
Proof.
  intros Xs log_prior log_joint kernel.
  assert (H : Xs <> []) by discriminate.
  assert (D : distribution (fun x => exp (log_prior x)) Xs).
  { split; [intros; left; apply exp_pos|]. cbn. unfold log_prior. rewrite exp_Ropp, exp_ln by lra. lra. }
  assert (T : forall k, (1 <= k <= 3)%nat -> transition Xs (kernel (schedule_t 3 (INR k))))
    by (intros; now apply resample_ok).
  assert (I : forall k, (1 <= k < 3)%nat ->
     invariant Xs log_prior log_joint (schedule_t 3 (INR k)) (kernel (schedule_t 3 (INR k))))
    by (intros; now apply resample_ok).
  split; [easy|]. split; [easy|]. split; [easy|].
  rewrite C44_unbiased by (easy || lia). unfold Xs. cbn [total]. unfold log_joint. rewrite exp_0. ring.
Qed.

(** The run uses the same feed for the adaptation steps and for the annealing, so a
    sampler whose adaptation is on keeps adapting while the weights are accumulated.
    Then the estimate can be biased, although every kernel the sampler ever uses leaves
    its target invariant. *)
Theorem C44_adaptive_refuted :
  exists (Xs : list bool) (log_prior log_joint : bool -> R) (kernel : bool -> R -> bool -> bool -> R) (rule : list bool -> bool),
  distribution (fun x => exp (log_prior x)) Xs /\
  (forall a T, transition Xs (kernel a T) /\ invariant Xs log_prior log_joint T (kernel a T)) /\
  ais_log_weights e_ret e_bind (draw_prior_adaptive Xs log_prior 1) (move_adaptive Xs log_prior log_joint kernel rule)
    (report_adaptive log_prior log_joint) 3 0 ([], true) (fun lw => mean (map exp lw))
  <> total (fun x => exp (log_joint x)) Xs.
Proof.
  set (Xs := [true; false]). set (log_prior (_ : bool) := - ln 2). set (log_joint (b : bool) := if b then 0 else 1).
  set (kernel (a : bool) (T : R) (x y : bool) := if a then (if Bool.eqb x y then 1 else 0) else resample Xs log_prior log_joint T x y).
  exists Xs, log_prior, log_joint, kernel, (fun xs => hd true xs).
  split.
  { split; [intros; left; apply exp_pos|]. cbn. unfold log_prior. rewrite exp_Ropp, exp_ln by lra. lra. }
  split.
  { intros [|] T; [|now apply resample_ok]. split.
    - intros x _. split; [intros z _; unfold kernel; destruct x, z; cbn; lra|]. unfold kernel. destruct x; cbn; lra.
    - intros y _. unfold kernel. destruct y; cbn; ring. }
  unfold ais_log_weights. cbn [adapt anneal]. cbn [Nat.ltb Nat.leb Nat.add].
  pose proof (C43_end 3 ltac:(lia)) as T3.
  assert (T2 : schedule_t 3 (INR 2) < 1).
  { rewrite <- T3. apply C43_increasing; [lia|]. cbn; lra. }
  set (t1 := schedule_t 3 (INR 1)). set (t2 := schedule_t 3 (INR 2)) in *. rewrite T3.
  unfold e_bind, e_ret, draw_prior_adaptive, move_adaptive, report_adaptive, draw_prior, move, report, mean.
  cbn [fst snd repeat map independent hd]. 
  unfold Xs, expect. cbn [total fst snd map independent hd length].
  unfold kernel, resample. cbn [Bool.eqb]. unfold add_arrays, sub_arrays. cbn [combine map fst snd total length INR]. unfold Xs. cbn [total].
  assert (P0 : forall b, log_prior b = log_fn log_prior log_joint 0 b) by (intros; unfold log_fn; ring).
  assert (P1 : forall b, log_joint b = log_fn log_prior log_joint 1 b) by (intros; unfold log_fn; ring).
  rewrite (P0 true), (P0 false), (P1 true), (P1 false).
  assert (Ne : exp (log_fn log_prior log_joint t2 false) * exp (log_fn log_prior log_joint 1 true)
            <> exp (log_fn log_prior log_joint 1 false) * exp (log_fn log_prior log_joint t2 true)).
  { rewrite <- !exp_plus. intros H. apply exp_inv in H. unfold log_fn, log_prior, log_joint in H. lra. }
  clear P0 P1.
  pose proof (exp_pos (log_fn log_prior log_joint 0 true)) as A1.
  pose proof (exp_pos (log_fn log_prior log_joint 0 false)) as A2.
  pose proof (exp_pos (log_fn log_prior log_joint t1 true)) as A3.
  pose proof (exp_pos (log_fn log_prior log_joint t1 false)) as A4.
  pose proof (exp_pos (log_fn log_prior log_joint t2 true)) as A5.
  pose proof (exp_pos (log_fn log_prior log_joint t2 false)) as A6.
  pose proof (exp_pos (log_fn log_prior log_joint 1 true)) as A7.
  pose proof (exp_pos (log_fn log_prior log_joint 1 false)) as A8.
  unfold Rminus. rewrite !exp_plus, !exp_Ropp.
  set (g0 := exp (log_fn log_prior log_joint 0 true)) in *.
  set (b0 := exp (log_fn log_prior log_joint 0 false)) in *.
  set (g1 := exp (log_fn log_prior log_joint t1 true)) in *.
  set (b1 := exp (log_fn log_prior log_joint t1 false)) in *.
  set (g2 := exp (log_fn log_prior log_joint t2 true)) in *.
  set (b2 := exp (log_fn log_prior log_joint t2 false)) in *.
  set (g3 := exp (log_fn log_prior log_joint 1 true)) in *.
  set (b3 := exp (log_fn log_prior log_joint 1 false)) in *.
  intros H. apply Ne.
  match type of H with ?l = _ => assert (V : l = (g0 + b0) * (g3 + b2 * (g3 + b3) / (g2 + b2))) by (field; lra) end.
  rewrite V in H. replace (g0 + b0) with 1 in H.
  2: { unfold g0, b0, log_fn, log_prior. rewrite !Rmult_0_r, Rplus_0_r. replace (- ln 2 * (1 - 0)) with (- ln 2) by ring.
       rewrite exp_Ropp, exp_ln; lra. }
  apply Rmult_eq_reg_r with (/ (g2 + b2)); [|apply Rinv_neq_0_compat; lra].
  assert (H2 : b2 * (g3 + b3) / (g2 + b2) = b3) by lra.
  assert (H3 : b2 * (g3 + b3) = b3 * (g2 + b2)).
  { rewrite <- H2 at 2. field. lra. }
  f_equal. lra.
Qed.
Print Assumptions C44_adaptive_refuted.
