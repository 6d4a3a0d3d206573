(** C86: the variational dropout example. *)
From Coq Require Import List Arith Bool Reals Lra Lia Permutation.
From Coquelicot Require Import Coquelicot.
From Verif Require Import SpecDist ModelDist ModelVI SpecVI ProofDiscrete ProofVI PropELBO ModelTrain ModelExamples ProofExamples PropTowers SpecSSL PropSSL ModelDropout.
Import ListNotations.
Local Open Scope R_scope.

(** The [i]-th image's noise in the [k]-th particle, when all are drawn in one list. *)
Definition noise_at {E} (d : E) (B : nat) (es : list E) (i k : nat) : E := nth (k * B + i) es d.
(** The layers' log probabilities add up to those of [pe] and [q]. *)
Definition noise_densities {E} (Es : list E) (pe q : E -> R) (lpe lqe : list (E -> R)) : Prop :=
  distribution q Es /\ (forall e, In e Es -> 0 < pe e) /\
  (forall e, In e Es -> total (fun f => f e) lpe = ln (pe e)) /\
  (forall e, In e Es -> 0 < q e -> total (fun f => f e) lqe = ln (q e)).

Lemma sumR_map {A} (f : A -> R) l : sumR (map f l) = total f l.
Proof. unfold sumR. induction l as [|a l IH]; cbn [map fold_right total]; [reflexivity|]. now rewrite IH. Qed.
Lemma combine_seq_nth {X} (f : nat -> X -> R) dx (l : list X) : forall s,
  total (fun ix => f (fst ix) (snd ix)) (combine (seq s (length l)) l) = total (fun i => f (s + i)%nat (nth i l dx)) (seq 0 (length l)).
Proof.
  induction l as [|x l IH]; intros s; [reflexivity|]. cbn [length seq combine total fst snd nth]. rewrite Nat.add_0_r. f_equal.
  rewrite IH, <- seq_shift, total_map. apply total_ext. intros i _. cbn [nth]. now rewrite Nat.add_succ_r.
Qed.

Section Noise.
Context {E X : Type} (Es : list E) (pe q : E -> R) (lpe lqe : list (E -> R)) (d : E) (N : nat) (log_py : X -> E -> R).
Hypothesis (H : noise_densities Es pe q lpe lqe) (HN : (1 <= N)%nat).

Lemma noise_weight (f : E -> R) : expect q Es (fun e => total (fun g => g e) lpe + f e * INR N - total (fun g => g e) lqe) =
  INR N * expect q Es f - kl q pe Es.
Proof.
  destruct H as (D & P & Lp & Lq). unfold kl, expect. rewrite <- total_scal, <- total_minus. apply total_ext. intros e He.
  destruct D as [Q _]. destruct (Rle_lt_or_eq_dec 0 (q e) (Q e He)) as [Qe| <-]; [|ring].
  rewrite Lp, Lq by assumption. unfold Rdiv. rewrite ln_mult, ln_Rinv by (auto; apply Rinv_0_lt_compat; auto). ring.
Qed.

Lemma batch_mean K images : (1 <= K)%nat -> images <> [] ->
  expects q Es (K * length images) (fun es => dropout_bound N lpe lqe log_py K images (noise_at d (length images) es)) =
  mean (map (fun x => expect q Es (log_py x)) images) - kl q pe Es / INR N.
Proof.
  intros HK Ni. pose proof (proj1 H) as D.
  assert (PK : 0 < INR K) by (apply lt_0_INR; lia). assert (PN : 0 < INR N) by (apply lt_0_INR; lia).
  assert (exists dx : X, True) as [dx _] by (destruct images as [|dx rest]; [contradiction|now exists dx]).
  remember (length images) as B eqn:EB.
  assert (PB : 0 < INR B) by (apply lt_0_INR; subst B; destruct images; [contradiction|cbn; lia]).
  set (g := fun x e => total (fun f => f e) lpe + log_py x e * INR N - total (fun f => f e) lqe).
  rewrite (expects_ext q Es _ _ (fun es => total (fun i => total (fun k => g (nth i images dx) (nth (k * B + i) es d)) (seq 0 K)) (seq 0 B) * / (INR K * INR B * INR N))).
  2:{ intros es _. unfold dropout_bound, reduce_mean. rewrite combine_length, seq_length, Nat.min_id.
      rewrite (combine_seq_nth (fun i x => image_bound N lpe lqe (log_py x) (map (noise_at d B es i) (seq 0 K))) dx images 0).
      rewrite (total_ext _ (fun i => total (fun k => g (nth i images dx) (nth (k * B + i) es d)) (seq 0 K) * / INR K)).
      - rewrite total_scal_r. rewrite <- ?EB. field. lra.
      - intros i _. unfold image_bound, reduce_mean. rewrite map_length, seq_length, total_map. unfold Rdiv. f_equal.
        apply total_ext. intros k _. unfold g, noise_at, dropout_log_joint. cbn [Nat.add]. now rewrite !sumR_map. }
  rewrite expects_scal_r, expects_total.
  rewrite (total_ext _ (fun i => INR K * (INR N * expect q Es (log_py (nth i images dx)) - kl q pe Es))).
  2:{ intros i Hi. apply in_seq in Hi. rewrite expects_total. rewrite (total_ext _ (fun _ => INR N * expect q Es (log_py (nth i images dx)) - kl q pe Es)).
      - rewrite total_const, seq_length. ring.
      - intros k Hk. apply in_seq in Hk. rewrite (expects_nth q Es D (k * B + i) (K * B) d (g (nth i images dx))) by nia. apply noise_weight. }
  rewrite total_scal, total_minus, total_scal, total_const, seq_length. unfold mean. rewrite map_length, total_map.
  rewrite (total_nth dx (fun x => expect q Es (log_py x)) images). rewrite <- ?EB. field. lra.
Qed.
End Noise.

(** Log of the likelihood of all images when one noise is shared by them. *)
Definition all_images {E X} (log_py : X -> E -> R) (data : list X) (e : E) : R := total (fun x => log_py x e) data.
(** Their joint density with that noise. *)
Definition shared_joint {E X} (pe : E -> R) (log_py : X -> E -> R) (data : list X) (e : E) : R := pe e * exp (all_images log_py data e).

(** For every number of particles, the mean of the bound of a batch is the batch mean of the expected
    log-likelihoods, minus a share 1/N of the divergence of the noise from its prior. *)
Theorem C86_batch : forall {E X} (Es : list E) pe q lpe lqe (d : E) N (log_py : X -> E -> R) K images,
  noise_densities Es pe q lpe lqe -> (1 <= N)%nat -> (1 <= K)%nat -> images <> [] ->
  expects q Es (K * length images) (fun es => dropout_bound N lpe lqe log_py K images (noise_at d (length images) es)) =
  mean (map (fun x => expect q Es (log_py x)) images) - kl q pe Es / INR N.
Proof. intros. now apply batch_mean. Qed.
Print Assumptions C86_batch.

(** Over an epoch of batches that use up the data, in any order, the mean of these is 1/N of the
    evidence lower bound of the model in which all images share one noise: at most 1/N of its log
    evidence. *)
Theorem C86_epoch : forall {E X} (Es : list E) pe q lpe lqe (d : E) (log_py : X -> E -> R) K B data order,
  noise_densities Es pe q lpe lqe -> (1 <= K)%nat -> (1 <= B)%nat -> data <> [] -> Permutation data order -> (length data mod B = 0)%nat ->
  let N := length data in
  let reported := mean (map (fun images => expects q Es (K * B) (fun es => dropout_bound N lpe lqe log_py K images (noise_at d B es))) (full_batches B order)) in
  reported = (expect q Es (all_images log_py data) - kl q pe Es) / INR N /\
  reported = (ln (evidence (shared_joint pe log_py data) Es) - kl q (posterior (shared_joint pe log_py data) Es) Es) / INR N /\
  reported <= ln (evidence (shared_joint pe log_py data) Es) / INR N.
Proof.
  intros E X Es pe q lpe lqe d log_py K B data order H HK HB Nd Hp HM N reported. pose proof H as (D & P & Lp & Lq).
  assert (PN : (1 <= N)%nat) by (unfold N; destruct data; [contradiction|cbn; lia]). assert (PNr : 0 < INR N) by (apply lt_0_INR; lia).
  pose proof (Permutation_length Hp) as EL.
  destruct (C73_full_batches order B ltac:(lia)) as [C1 C2].
  assert (DM := Nat.div_mod (length order) B ltac:(lia)). rewrite <- EL, HM, Nat.add_0_r in DM.
  assert (C3 : concat (full_batches B order) = order) by (rewrite C1, firstn_all2; [reflexivity|]; rewrite <- EL; lia).
  assert (NB : full_batches B order <> []) by (intros F; rewrite F in C3; cbn in C3; subst order; destruct data; [contradiction|discriminate]).
  assert (R1 : reported = (expect q Es (all_images log_py data) - kl q pe Es) / INR N).
  { unfold reported.
    rewrite (map_ext_in _ (fun images => mean (map (fun x => expect q Es (log_py x)) images) - kl q pe Es / INR N)).
    2:{ intros images Hi. rewrite <- (C2 images Hi). apply batch_mean; try assumption. intros ->. specialize (C2 [] Hi). cbn in C2. lia. }
    unfold mean at 1. rewrite map_length, total_map, total_minus, total_const.
    assert (PL : 0 < INR (length (full_batches B order))) by (apply lt_0_INR; destruct (full_batches B order); [contradiction|cbn; lia]).
    replace ((total (fun x => mean (map (fun y => expect q Es (log_py y)) x)) (full_batches B order) - kl q pe Es / INR N * INR (length (full_batches B order))) / INR (length (full_batches B order)))
      with (total (fun x => mean (map (fun y => expect q Es (log_py y)) x)) (full_batches B order) / INR (length (full_batches B order)) - kl q pe Es / INR N) by (field; lra).
    rewrite (mean_of_means (fun x => expect q Es (log_py x)) _ B) by (auto; lia). rewrite C3.
    unfold mean. rewrite map_length, total_map, <- EL. fold N. rewrite <- (total_perm _ data order Hp).
    replace (total (fun x => expect q Es (log_py x)) data) with (expect q Es (all_images log_py data)); [field; lra|].
    unfold expect, all_images. symmetry. rewrite (total_swap (fun x e => q e * log_py x e) data Es). apply total_ext. intros e _. now rewrite total_scal. }
  assert (PJ : forall e, In e Es -> 0 < shared_joint pe log_py data e) by (intros e He; apply Rmult_lt_0_compat; [auto|apply exp_pos]).
  assert (R2 : expect q Es (all_images log_py data) - kl q pe Es = ln (evidence (shared_joint pe log_py data) Es) - kl q (posterior (shared_joint pe log_py data) Es) Es).
  { rewrite <- (expect_log_weight Es q (Quantity (fun _ e => ln (shared_joint pe log_py data e)) (fun _ => 0)) [Quantity (fun _ e => ln (q e)) (fun _ => 0)] 0 (shared_joint pe log_py data) D).
    - unfold kl, expect. rewrite <- total_minus. apply total_ext. intros e He. unfold log_weight, log_q. cbn. rewrite Rplus_0_r.
      unfold shared_joint. rewrite ln_mult, ln_exp by (auto; apply exp_pos).
      destruct D as [Q _]. destruct (Rle_lt_or_eq_dec 0 (q e) (Q e He)) as [Qe| <-]; [|ring].
      unfold Rdiv. rewrite ln_mult, ln_Rinv by (auto; apply Rinv_0_lt_compat; auto). ring.
    - split; [discriminate|]. intros e _ _. unfold log_q. cbn. ring.
    - intros e He. split; [now apply PJ|reflexivity]. }
  assert (K0 : 0 <= kl q (posterior (shared_joint pe log_py data) Es) Es).
  { destruct (dist_nonempty _ _ D) as [e0 He0].
    assert (E0 : 0 < evidence (shared_joint pe log_py data) Es) by (unfold evidence; apply total_pos; [now intros ->|exact PJ]).
    apply kl_nonneg; [exact D|intros e He; apply Rdiv_lt_0_compat; auto|].
    unfold posterior, Rdiv. rewrite total_scal_r. fold (evidence (shared_joint pe log_py data) Es). field. lra. }
  split; [exact R1|]. split; [now rewrite R1, R2|]. rewrite R1, R2. unfold Rdiv. apply Rmult_le_compat_r; [left; now apply Rinv_0_lt_compat|lra].
Qed.
Print Assumptions C86_epoch.

(** The network that is built gives every image a noise of its own. For that model the reported
    number is no lower bound of the mean log-likelihood: two images, noise of two values, one image
    per batch. *)
Theorem C86_own_noise_refuted :
  let Bs := [true; false] in
  let pe := fun _ : bool => 1 / 2 in
  let q := fun e : bool => if e then 1 else 0 in
  let log_py := fun (_ : bool) (e : bool) => if e then 0 else - ln 4 in
  let lpe := [fun _ : bool => - ln 2] in
  let lqe := [fun _ : bool => 0] in
  noise_densities Bs pe q lpe lqe /\
  forall K, (1 <= K)%nat ->
  mean (map (fun x => ln (evidence (fun e => pe e * exp (log_py x e)) Bs)) Bs) <
  mean (map (fun images => expects q Bs (K * 1) (fun es => dropout_bound 2 lpe lqe log_py K images (noise_at true 1 es))) (full_batches 1 Bs)).
Proof.
  intros Bs pe q log_py lpe lqe.
  assert (H : noise_densities Bs pe q lpe lqe).
  { split; [split; [intros e _; unfold q; destruct e; lra|unfold Bs, q; cbn; lra]|]. split; [intros; unfold pe; lra|]. split.
    - intros e _. unfold lpe, pe. cbn. rewrite Rplus_0_r. unfold Rdiv. rewrite Rmult_1_l, ln_Rinv by lra. reflexivity.
    - intros e _ Q. unfold lqe, q in *. cbn. destruct e; [rewrite ln_1; ring|lra]. }
  split; [exact H|]. intros K HK.
  destruct (C86_epoch Bs pe q lpe lqe true log_py K 1 Bs Bs H HK ltac:(lia) ltac:(discriminate) (Permutation_refl _) eq_refl) as (R & _).
  change (length Bs) with 2%nat in R. rewrite R. clear R.
  assert (EV : forall x : bool, evidence (fun e => pe e * exp (log_py x e)) Bs = 5 / 8).
  { intros x. unfold evidence, Bs, pe, log_py. cbn. rewrite exp_0, exp_Ropp, exp_ln by lra. lra. }
  unfold mean. rewrite map_length, total_map, (total_ext _ (fun _ => ln (5 / 8))) by (intros x _; now rewrite EV).
  unfold kl, expect, all_images, Bs, log_py, q, pe. cbn [total length INR].
  replace (1 / (1 / 2)) with 2 by field.
  assert (ln (5 / 8 * (5 / 8)) < ln (/ 2)) by (apply ln_increasing; lra). rewrite ln_mult, ln_Rinv in * by lra. lra.
Qed.
Print Assumptions C86_own_noise_refuted.
Example C86_epoch_case : noise_densities [true; false] (fun _ => 1 / 2) (fun e : bool => if e then 1 else 0) [fun _ => - ln 2] [fun _ => 0].
Proof. exact (proj1 C86_own_noise_refuted). Qed.

(** The noise never degenerates, and its variance is at most that of the prior up to 1e-10. *)
Theorem C86_std : forall a, 1 / 100000 < noise_std a /\ noise_std a ^ 2 < 1 + 1 / 10000000000 /\ noise_std a ^ 2 = / (1 + exp (- a)) + 1 / 10000000000.
Proof.
  intros a. pose proof (exp_pos (- a)) as P. assert (S0 : 0 < / (1 + exp (- a))) by (apply Rinv_0_lt_compat; lra).
  assert (S1 : / (1 + exp (- a)) < 1) by (rewrite <- Rinv_1; apply Rinv_lt_contravar; lra).
  unfold noise_std, sigmoid. replace (1 / (1 + exp (- a))) with (/ (1 + exp (- a))) by (unfold Rdiv; ring).
  assert (Q : sqrt (/ (1 + exp (- a)) + 1 / 10000000000) ^ 2 = / (1 + exp (- a)) + 1 / 10000000000) by (apply pow2_sqrt; lra).
  split; [|split; [|exact Q]].
  - rewrite <- (sqrt_square (1 / 100000)) by lra. apply sqrt_lt_1; lra.
  - rewrite Q. lra.
Qed.
Print Assumptions C86_std.

(** The learning rate of every epoch, whatever the frequency. *)
Theorem C86_rate : forall rate0 factor freq epoch, (1 <= freq)%nat -> rate_in_epoch rate0 factor freq epoch = rate0 * factor ^ (epoch / freq).
Proof.
  intros r f n e Hn. induction e as [|e IH]; [rewrite Nat.div_0_l by lia; cbn; ring|].
  cbn [rate_in_epoch]. rewrite IH. pose proof (Nat.div_mod e n ltac:(lia)) as D. pose proof (Nat.mod_upper_bound e n ltac:(lia)) as B.
  destruct (Nat.eqb_spec (S e mod n) 0) as [M|M].
  - assert (E : (S e / n = S (e / n))%nat).
    { pose proof (Nat.div_mod (S e) n ltac:(lia)) as D'. rewrite M in D'. nia. }
    rewrite E. cbn. ring.
  - assert (E : (S e / n = e / n)%nat); [|now rewrite E].
    pose proof (Nat.div_mod (S e) n ltac:(lia)) as D'. pose proof (Nat.mod_upper_bound (S e) n ltac:(lia)) as B'. nia.
Qed.
Print Assumptions C86_rate.
Example C86_rate_case : rate_in_epoch (1 / 1000) (3 / 4) 100 250 = 1 / 1000 * (3 / 4 * (3 / 4 * 1)).
Proof. now rewrite C86_rate by lia. Qed.

(** The averaged prediction is a distribution over the classes. *)
Theorem C86_prediction : forall n_class y_logit, (1 <= n_class)%nat -> y_logit <> [] -> (forall l, In l y_logit -> length l = n_class) ->
  length (h_pred n_class y_logit) = n_class /\ positive_distribution (h_pred n_class y_logit).
Proof.
  intros C ls HC N L. assert (PL : 0 < INR (length ls)) by (apply len_pos; exact N).
  assert (LS : forall l, In l ls -> length (softmax l) = C) by (intros l Hl; unfold softmax; rewrite map_length; auto).
  split; [unfold h_pred; now rewrite map_length, seq_length|]. split.
  - intros p Hp. apply in_map_iff in Hp as (c & <- & Hc). apply in_seq in Hc. unfold reduce_mean. apply Rdiv_lt_0_compat; [|exact PL].
    apply total_pos; [exact N|]. intros l Hl. apply (softmax_pos l). apply nth_In. rewrite LS by exact Hl. lia.
  - unfold h_pred. rewrite total_map. unfold reduce_mean, Rdiv. rewrite total_scal_r, total_swap.
    rewrite (total_ext _ (fun _ => 1)).
    + rewrite total_const. field. lra.
    + intros l Hl. assert (l <> []) by (intros ->; specialize (L [] Hl); cbn in L; lia).
      rewrite <- (softmax_total l) by assumption. rewrite (total_nth 0 (fun p => p) (softmax l)). now rewrite LS.
Qed.
Print Assumptions C86_prediction.
Example C86_prediction_case : positive_distribution (h_pred 2 [[0; 1]; [3; -1]]).
Proof. apply C86_prediction; [lia|discriminate|]. intros l [<-|[<-|[]]]; reflexivity. Qed.
