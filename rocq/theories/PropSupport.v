(** C18: samples lie in the support. C19: parameterisations agree.
    C20: related distributions are consistent. *)
From Coq Require Import List Reals Arith Lia Lra.
From Verif Require Import ModelShape SpecShape ModelTensor SpecTensor ProofTensor ModelDist SpecDist ProofDiscrete PropDiscrete.
Import ListNotations.
Local Open Scope R_scope.

(** ** C18 *)
Definition finite (l : logp) : Prop := exists r, l = Fin r.

Theorem C18_uniform u minval maxval : minval < maxval -> 0 <= u < 1 ->
  minval <= uniform_sample u minval maxval < maxval /\
  finite (uniform_lp (uniform_sample u minval maxval) minval maxval).
Proof.
  intros L [U0 U1]. assert (H : minval <= uniform_sample u minval maxval < maxval).
  { unfold uniform_sample. split.
    - assert (0 <= u * (maxval - minval)) by (apply Rmult_le_pos; lra). lra.
    - assert (u * (maxval - minval) < 1 * (maxval - minval)) by (apply Rmult_lt_compat_r; lra). lra. }
  split; [assumption|]. unfold uniform_lp, uniform_prob.
  destruct (Rle_dec minval _); [|lra]. destruct (Rlt_dec _ maxval); [|lra].
  destruct (Req_EM_T _ 0) as [E|E]; [|eexists; reflexivity].
  exfalso. rewrite Rmult_1_r in E. unfold Rdiv in E. rewrite Rmult_1_l in E.
  apply (Rinv_neq_0_compat (maxval - minval)); lra.
Qed.
Print Assumptions C18_uniform.

Theorem C18_bernoulli u logits : bernoulli_sample u logits = 0 \/ bernoulli_sample u logits = 1.
Proof. unfold bernoulli_sample. destruct (Rlt_dec _ _); auto. Qed.
Print Assumptions C18_bernoulli.

Lemma sigmoid_range x : 0 < sigmoid x < 1.
Proof.
  unfold sigmoid. pose proof (exp_pos (- x)). split.
  - apply Rdiv_lt_0_compat; lra.
  - apply Rmult_lt_reg_r with (1 + exp (- x)); [lra|]. field_simplify; lra.
Qed.
Theorem C18_bin_concrete u temperature logits : 0 < bin_concrete_sample u temperature logits < 1.
Proof. apply sigmoid_range. Qed.
Print Assumptions C18_bin_concrete.

(** Positive standard gamma draws give positive samples and a Beta sample in (0,1). *)
Theorem C18_gamma_family g g' beta : 0 < g -> 0 < g' -> 0 < beta ->
  0 < g / beta /\ 0 < inverse_gamma_sample (g / beta) /\ 0 < beta_sample g g' < 1.
Proof.
  intros G G' B. assert (0 < g / beta) by (apply Rdiv_lt_0_compat; lra). split; [assumption|]. split.
  - unfold inverse_gamma_sample. apply Rdiv_lt_0_compat; lra.
  - unfold beta_sample. split; [apply Rdiv_lt_0_compat; lra|].
    apply Rmult_lt_reg_r with (g + g'); [lra|]. field_simplify; lra.
Qed.
Print Assumptions C18_gamma_family.

(** The open simplex. *)
Definition simplex (l : list R) : Prop := (forall x, In x l -> 0 < x) /\ sumR l = 1.
Lemma sumR_scal c l : sumR (map (fun x => x / c) l) = sumR l / c.
Proof. induction l; simpl; [unfold Rdiv; ring|]. rewrite IHl. unfold Rdiv. ring. Qed.
Lemma sumR_pos l : l <> [] -> (forall x, In x l -> 0 < x) -> 0 < sumR l.
Proof. intros N H. rewrite sumR_total. now apply total_pos. Qed.
Lemma scaled_simplex l : l <> [] -> (forall x, In x l -> 0 < x) -> simplex (map (fun x => x / sumR l) l).
Proof.
  intros N H. pose proof (sumR_pos l N H). split.
  - intros x Hx. apply in_map_iff in Hx. destruct Hx as [y [<- Hy]]. apply Rdiv_lt_0_compat; auto.
  - rewrite sumR_scal. field. lra.
Qed.
Lemma softmax_simplex l : l <> [] -> simplex (softmax l).
Proof.
  intros N. unfold softmax.
  rewrite <- (map_map exp (fun x => x / sumR (map exp l))). apply scaled_simplex.
  - destruct l; simpl; congruence.
  - intros x Hx. apply in_map_iff in Hx. destruct Hx as [y [<- _]]. apply exp_pos.
Qed.
Lemma softmax_exp_log l : l <> [] -> softmax l = map exp (log_softmax l).
Proof.
  intros N. unfold softmax, log_softmax. rewrite map_map. apply map_ext. intros x.
  now rewrite exp_minus, exp_lse.
Qed.
Lemma noisy_nonempty us t logits : length us = length logits -> logits <> [] -> concrete_noisy us t logits <> [].
Proof. intros L N. unfold concrete_noisy. destruct us, logits; simpl in *; congruence. Qed.

Theorem C18_concrete us temperature logits : length us = length logits -> logits <> [] ->
  simplex (concrete_sample us temperature logits) /\
  simplex (map exp (exp_concrete_sample us temperature logits)).
Proof.
  intros L N. pose proof (noisy_nonempty us temperature logits L N) as NN. split.
  - now apply softmax_simplex.
  - unfold exp_concrete_sample. rewrite <- softmax_exp_log by assumption. now apply softmax_simplex.
Qed.
Print Assumptions C18_concrete.
Theorem C18_dirichlet gs : gs <> [] -> (forall g, In g gs -> 0 < g) -> simplex (dirichlet_sample gs).
Proof. apply scaled_simplex. Qed.
Print Assumptions C18_dirichlet.

(** Binomial: 0 <= sample <= n_experiments, whichever 0/1 values the draws take. *)
Theorem C18_binomial {A U} (pick : list A -> U -> nat) (noise : nat -> nat -> U) (two : A -> list A)
  known logits n_exp n t : (forall l u, (pick l u < 2)%nat) -> (forall a, length (two a) = 2%nat) ->
  (known = true -> length (t_shape logits) = 1%nat) ->
  binomial_sample pick noise two known logits n_exp n = Some t ->
  forall i, valid (t_shape t) i -> (t_at t i <= n_exp)%nat.
Proof.
  intros P T K E i V. destruct (binomial_ok pick noise two known logits n_exp n T K) as [t' [E' [S H]]].
  rewrite E in E'. inversion E'; subst t'. rewrite S in V. destruct i as [|s i]; [destruct V; discriminate|].
  apply valid_cons in V. destruct V as [Hs Vi]. rewrite H by assumption.
  rewrite <- (seq_length n_exp 0) at 2. clear - P. induction (seq 0 n_exp) as [|e l IH]; simpl; [lia|].
  pose proof (P (two (t_at logits i)) (noise (ravel (t_shape logits) i) (e * n + s)%nat)). lia.
Qed.
Print Assumptions C18_binomial.

Lemma list_sum_swap {X Y} (f : X -> Y -> nat) l cs :
  list_sum (map (fun c => list_sum (map (fun e => f e c) l)) cs) =
  list_sum (map (fun e => list_sum (map (f e) cs)) l).
Proof.
  induction l as [|e l IH]; simpl.
  - induction cs; simpl; auto.
  - rewrite <- IH. clear. induction cs as [|c cs IH]; simpl; [reflexivity|]. rewrite IH. lia.
Qed.
(** Multinomial: the counts of one draw add up to n_experiments. *)
Theorem C18_multinomial {A U} (pick : list A -> U -> nat) (noise : nat -> nat -> U)
  known (logits : tensor A) batch k n_exp n t : (forall l u, length l = k -> (pick l u < k)%nat) ->
  t_shape logits = batch ++ [k] -> (0 < k)%nat -> (known = true -> length batch = 1%nat) ->
  multinomial_sample pick noise known logits n_exp n = Some t ->
  forall s b, (s < n)%nat -> valid batch b -> list_sum (row t (s :: b)) = n_exp.
Proof.
  intros P S Hk K E s b Hs Vb. destruct (multinomial_ok pick noise known logits batch k n_exp n S Hk K) as [t' [E' [St H]]].
  rewrite E in E'. inversion E'; subst t'. unfold row. rewrite St.
  replace (last (n :: batch ++ [k]) 0%nat) with k by (symmetry; apply (last_last (n :: batch))).
  rewrite (map_ext_in _ (fun c => list_sum (map (fun e => if Nat.eqb (pick (row logits b) (noise (ravel batch b) (s * n_exp + e)%nat)) c
                                                         then 1 else 0)%nat (seq 0 n_exp)))).
  2:{ intros c Hc. apply in_seq in Hc. simpl app. rewrite H by (auto; lia). reflexivity. }
  assert (Lr : length (row logits b) = k) by (unfold row; rewrite S, last_last, map_length, seq_length; reflexivity).
  assert (One : forall j, (j < k)%nat -> list_sum (map (fun c => if Nat.eqb j c then 1 else 0)%nat (seq 0 k)) = 1%nat).
  { intros j Hj. clear - Hj. assert (G : forall m s, list_sum (map (fun c => if Nat.eqb j c then 1 else 0)%nat (seq s m))
      = if andb (Nat.leb s j) (Nat.ltb j (s + m)) then 1%nat else 0%nat).
    { induction m as [|m IH]; intros s; cbn [seq map].
      - destruct (Nat.leb_spec s j), (Nat.ltb_spec j (s + 0)); cbn; lia.
      - cbn [list_sum fold_right]. fold (list_sum (map (fun c => if Nat.eqb j c then 1 else 0)%nat (seq (S s) m))).
        rewrite IH. destruct (Nat.eqb_spec j s), (Nat.leb_spec s j), (Nat.leb_spec (Datatypes.S s) j),
          (Nat.ltb_spec j (Datatypes.S s + m)), (Nat.ltb_spec j (s + Datatypes.S m)); cbn [andb]; lia. }
    rewrite G. simpl. destruct (Nat.ltb_spec j k); lia. }
  rewrite (list_sum_swap (fun e c => if Nat.eqb (pick (row logits b) (noise (ravel batch b) (s * n_exp + e)%nat)) c
                                     then 1 else 0)%nat).
  rewrite (map_ext _ (fun _ => 1%nat)) by (intros e; now apply One, P).
  rewrite <- (seq_length n_exp 0) at 2. clear. induction (seq 0 n_exp); simpl; auto.
Qed.
Print Assumptions C18_multinomial.

(** OnehotCategorical: each draw is the one-hot vector of its category. *)
Theorem C18_onehot {A U} (pick : list A -> U -> nat) (noise : nat -> nat -> U)
  known (logits : tensor A) batch k n t : (forall l u, length l = k -> (pick l u < k)%nat) ->
  t_shape logits = batch ++ [k] -> (0 < k)%nat -> (known = true -> length batch = 1%nat) ->
  onehot_sample pick noise 1 0 known logits n = Some t ->
  forall s b, (s < n)%nat -> valid batch b ->
    exists c, (c < k)%nat /\ row t (s :: b) = onehot k c.
Proof.
  intros P S Hk K E s b Hs Vb. destruct (onehot_ok pick noise 1 0 known logits batch k n S Hk K) as [t' [E' [St H]]].
  rewrite E in E'. inversion E'; subst t'. exists (pick (row logits b) (noise (ravel batch b) s)). split.
  - apply P. unfold row. now rewrite S, last_last, map_length, seq_length.
  - unfold row at 1, onehot. rewrite St.
    replace (last (n :: batch ++ [k]) 0%nat) with k by (symmetry; apply (last_last (n :: batch))).
    apply map_ext_in. intros c Hc. apply in_seq in Hc. simpl app. rewrite H by (auto; lia).
    now rewrite Nat.eqb_sym.
Qed.
Print Assumptions C18_onehot.

(** FoldNormal: the support is [0, +inf), but the sampler never folds: for every
    mean and std > 0 a whole half-line of noise values gives samples of density 0. *)
Theorem C18_foldnormal_refuted mean std logstd : 0 < std ->
  forall z, z < - mean / std ->
    foldnormal_sample z mean std < 0 /\ expp (foldnormal_lp (foldnormal_sample z mean std) mean logstd) = 0.
Proof.
  intros S z Z. assert (H : foldnormal_sample z mean std < 0).
  { unfold foldnormal_sample. apply (Rmult_lt_compat_r std) in Z; [|assumption].
    replace (- mean / std * std) with (- mean) in Z by (field; lra). lra. }
  split; [assumption|]. unfold foldnormal_lp. destruct (Rle_dec 0 _); [lra|reflexivity].
Qed.
Print Assumptions C18_foldnormal_refuted.
Example C18_foldnormal_ex : exists z, z < - 0 / 1 /\ foldnormal_sample z 0 1 < 0.
Proof. exists (-1). unfold foldnormal_sample. split; lra. Qed.

(** ** C19 *)
Theorem C19_normal mean std : 0 < std ->
  normal_new mean (Some std) None = normal_new mean None (Some (ln std)) /\
  foldnormal_new mean (Some std) None = foldnormal_new mean None (Some (ln std)).
Proof. intros H. unfold normal_new, foldnormal_new, std_logstd. now rewrite exp_ln. Qed.
Print Assumptions C19_normal.
Theorem C19_normal_exactly_one mean std logstd :
  (normal_new mean std logstd = None <-> (std = None <-> logstd = None)) /\
  (foldnormal_new mean std logstd = None <-> (std = None <-> logstd = None)).
Proof.
  unfold normal_new, foldnormal_new, std_logstd. destruct std, logstd; simpl; split; split; intros H; try discriminate; try tauto;
    try (split; congruence); exfalso; destruct H as [H1 H2]; try (now specialize (H1 eq_refl)); now specialize (H2 eq_refl).
Qed.
Print Assumptions C19_normal_exactly_one.

Definition shift (c : R) (l : list R) : list R := map (fun x => x + c) l.
Lemma lse_shift c l : l <> [] -> logsumexp (shift c l) = logsumexp l + c.
Proof.
  intros N. unfold logsumexp, shift. rewrite map_map.
  rewrite (map_ext _ (fun x => exp c * exp x)) by (intros; rewrite exp_plus; ring).
  rewrite <- total_sumR, total_scal, total_sumR, ln_mult, ln_exp; [ring|apply exp_pos|now apply sumexp_pos].
Qed.
Lemma centred_shift c l : l <> [] ->
  map (fun x => x - logsumexp (shift c l)) (shift c l) = map (fun x => x - logsumexp l) l.
Proof. intros N. rewrite lse_shift by assumption. unfold shift. rewrite map_map. apply map_ext. intros; ring. Qed.
Theorem C19_logits_shift c k logits : logits <> [] ->
  categorical_lp k (shift c logits) = categorical_lp k logits /\
  (forall given, onehot_lp given (shift c logits) = onehot_lp given logits) /\
  (forall lgamma n given, multinomial_lp lgamma true n given (shift c logits) = multinomial_lp lgamma true n given logits) /\
  (forall given, unnormalized_multinomial_lp true given (shift c logits) = unnormalized_multinomial_lp true given logits).
Proof.
  intros N. split; [|split; [|split]].
  - unfold categorical_lp. rewrite lse_shift by assumption. unfold shift. rewrite nth_error_map.
    destruct (nth_error logits k); simpl; [|reflexivity]. f_equal. ring.
  - intros. unfold onehot_lp. now rewrite centred_shift.
  - intros. unfold multinomial_lp. cbn [normalized]. now rewrite centred_shift.
  - intros. unfold unnormalized_multinomial_lp. cbn [normalized]. now rewrite centred_shift.
Qed.
Print Assumptions C19_logits_shift.

Lemma combine_shift {X} (f : X -> R -> R) (g : list X) c l : 
  (forall x y, f x (y + c) = f x y + c) ->
  map (fun p => f (fst p) (snd p)) (combine g (shift c l)) = shift c (map (fun p => f (fst p) (snd p)) (combine g l)).
Proof.
  intros H. revert l. induction g as [|x g IH]; intros [|y l]; simpl; try reflexivity. rewrite H. f_equal. apply IH.
Qed.
Lemma sumR_shift c l : sumR (shift c l) = sumR l + INR (length l) * c.
Proof. induction l; [simpl; ring|]. cbn [length]. rewrite S_INR. simpl in *. rewrite IHl. ring. Qed.
Lemma shift_length c l : length (shift c l) = length l.
Proof. apply map_length. Qed.
Theorem C19_concrete_log_prob_shift lgamma c given temperature logits :
  length given = length logits -> logits <> [] ->
  concrete_lp lgamma given temperature (shift c logits) = concrete_lp lgamma given temperature logits /\
  exp_concrete_lp lgamma given temperature (shift c logits) = exp_concrete_lp lgamma given temperature logits.
Proof.
  intros L N. assert (NC : forall f : R -> R -> R, map (fun p : R * R => f (fst p) (snd p)) (combine given logits) <> []).
  { intros f. destruct given, logits; simpl in *; congruence. }
  split.
  - unfold concrete_lp. rewrite shift_length.
    rewrite (combine_shift (fun x l => l - temperature * ln x)) by (intros; ring).
    set (t := map (fun p => snd p - temperature * ln (fst p)) (combine given logits)).
    assert (Nt : t <> []) by (apply (NC (fun x l => l - temperature * ln x))).
    assert (Lt : length t = length logits) by (unfold t; rewrite map_length, combine_length; lia).
    rewrite lse_shift by assumption.
    assert (G : sumR (map (fun p => fst p - ln (snd p)) (combine (shift c t) given))
                = sumR (map (fun p => fst p - ln (snd p)) (combine t given)) + INR (length t) * c).
    { assert (Lg : length t = length given) by congruence. revert Lg. clearbody t. clear. revert given.
      induction t as [|a t IH]; intros [|g given] L; try discriminate; [simpl; ring|].
      cbn [length]. rewrite S_INR. simpl. rewrite IH by (simpl in L; lia). ring. }
    rewrite G, Lt. ring.
  - unfold exp_concrete_lp. rewrite shift_length.
    rewrite (combine_shift (fun x l => l - temperature * x)) by (intros; ring).
    set (t := map (fun p => snd p - temperature * fst p) (combine given logits)).
    assert (Nt : t <> []) by (apply (NC (fun x l => l - temperature * x))).
    assert (Lt : length t = length logits) by (unfold t; rewrite map_length, combine_length; lia).
    rewrite lse_shift, sumR_shift, Lt by assumption. ring.
Qed.
Print Assumptions C19_concrete_log_prob_shift.
Lemma log_softmax_shift c l : l <> [] -> log_softmax (shift c l) = log_softmax l.
Proof. apply centred_shift. Qed.
Lemma softmax_shift c l : l <> [] -> softmax (shift c l) = softmax l.
Proof.
  intros N. rewrite !softmax_exp_log, log_softmax_shift; auto. destruct l; simpl; congruence.
Qed.
Theorem C19_concrete_sample_shift c us temperature logits : length us = length logits -> logits <> [] ->
  temperature <> 0 ->
  concrete_sample us temperature (shift c logits) = concrete_sample us temperature logits /\
  exp_concrete_sample us temperature (shift c logits) = exp_concrete_sample us temperature logits.
Proof.
  intros L N T. unfold concrete_sample, exp_concrete_sample.
  assert (E : concrete_noisy us temperature (shift c logits) = shift (c / temperature) (concrete_noisy us temperature logits)).
  { unfold concrete_noisy. clear -T. revert logits. induction us as [|u us IH]; intros [|l ls]; simpl; try reflexivity.
    f_equal; [field; assumption|apply IH]. }
  rewrite E, softmax_shift, log_softmax_shift by now apply noisy_nonempty. auto.
Qed.
Print Assumptions C19_concrete_sample_shift.
Example C19_ex : shift 2 [0; 1] = [2; 3] /\ logsumexp [0; 1] <> 0.
Proof.
  split; [unfold shift; simpl; repeat f_equal; ring|]. unfold logsumexp. simpl. rewrite exp_0, Rplus_0_r.
  pose proof (exp_pos 1). intros E. apply (f_equal exp) in E. rewrite exp_ln, exp_0 in E by lra. lra.
Qed.

(** ** C20 *)
(** If X ~ Gamma(alpha, beta) then Y = 1/X has density f_X(1/y) |d(1/y)/dy|,
    and 1/y^2 is that derivative's absolute value. *)
Theorem C20_inverse_gamma lgamma x alpha beta : 0 < x ->
  exp (inverse_gamma_lp lgamma x alpha beta) = exp (gamma_lp lgamma (1 / x) alpha beta) * (1 / (x * x)).
Proof.
  intros H. replace (1 / (x * x)) with (exp (- (2 * ln x))).
  - rewrite <- exp_plus. f_equal. unfold inverse_gamma_lp, gamma_lp.
    replace (ln (1 / x)) with (- ln x) by (unfold Rdiv; rewrite Rmult_1_l, ln_Rinv; auto). field. lra.
  - rewrite exp_Ropp. replace (2 * ln x) with (ln x + ln x) by ring. rewrite exp_plus, exp_ln by assumption. field. lra.
Qed.
Print Assumptions C20_inverse_gamma.

(** Concrete is the law of exp(ExpConcrete): same noise, exponentiated sample;
    densities related by the Jacobian prod exp(y_i). *)
Theorem C20_concrete_exp us temperature logits : length us = length logits -> logits <> [] ->
  concrete_sample us temperature logits = map exp (exp_concrete_sample us temperature logits).
Proof. intros. now apply softmax_exp_log, noisy_nonempty. Qed.
Print Assumptions C20_concrete_exp.
Theorem C20_concrete_exp_log_prob lgamma ys temperature logits : length ys = length logits ->
  concrete_lp lgamma (map exp ys) temperature logits = exp_concrete_lp lgamma ys temperature logits - sumR ys.
Proof.
  intros L. unfold concrete_lp, exp_concrete_lp.
  assert (E : map (fun p => snd p - temperature * ln (fst p)) (combine (map exp ys) logits)
              = map (fun p => snd p - temperature * fst p) (combine ys logits)).
  { clear. revert logits. induction ys as [|y ys IH]; intros [|l ls]; simpl; try reflexivity. rewrite ln_exp. f_equal. apply IH. }
  rewrite E. set (t := map (fun p => snd p - temperature * fst p) (combine ys logits)).
  assert (Lt : length t = length ys) by (unfold t; rewrite map_length, combine_length; lia).
  assert (G : sumR (map (fun p => fst p - ln (snd p)) (combine t (map exp ys))) = sumR t - sumR ys).
  { revert Lt. clearbody t. clear. revert ys. induction t as [|a t IH]; intros [|y ys] L; try discriminate; [simpl; ring|].
    simpl. rewrite ln_exp, IH by (simpl in L; lia). ring. }
  rewrite G. ring.
Qed.
Print Assumptions C20_concrete_exp_log_prob.

(** BinConcrete(T, l) is the first coordinate of Concrete(T, [l, 0]). *)
Theorem C20_bin_concrete lgamma x temperature logits : lgamma_factorial lgamma ->
  concrete_lp lgamma [x; 1 - x] temperature [logits; 0] = bin_concrete_lp x temperature logits.
Proof.
  intros L. unfold concrete_lp, bin_concrete_lp. simpl.
  assert (L2 : lgamma (1 + 1) = 0) by (pose proof (L 1%nat) as E; simpl in E; rewrite E; apply ln_1).
  rewrite L2. set (a := logits - temperature * ln x). set (b := 0 - temperature * ln (1 - x)).
  assert (G : logsumexp [a; b] = a + softplus (b - a)).
  { unfold logsumexp, softplus. simpl. rewrite Rplus_0_r. pose proof (exp_pos (b - a)).
    replace (exp a + exp b) with (exp a * (1 + exp (b - a))).
    - rewrite ln_mult, ln_exp; [ring|apply exp_pos|lra].
    - rewrite Rmult_plus_distr_l, <- exp_plus. replace (a + (b - a)) with b by ring. ring. }
  rewrite G.
  replace (temperature * (ln x - ln (1 - x)) - logits) with (b - a) by (unfold a, b; ring).
  ring.
Qed.
Print Assumptions C20_bin_concrete.
(** Its sampler is the same map of the logistic noise log u - log(1-u), which for
    Concrete is the difference of the two Gumbel variates. *)
Theorem C20_bin_concrete_sample u u1 u2 temperature logits : temperature <> 0 ->
  ln u - ln (1 - u) = gumbel u1 - gumbel u2 ->
  nth 0 (concrete_sample [u1; u2] temperature [logits; 0]) 0 = bin_concrete_sample u temperature logits.
Proof.
  intros T E. unfold concrete_sample, bin_concrete_sample, softmax, concrete_noisy, sigmoid. simpl. rewrite E.
  set (a := (logits + gumbel u1) / temperature). set (b := (0 + gumbel u2) / temperature).
  replace (- ((logits + (gumbel u1 - gumbel u2)) / temperature)) with (b - a) by (unfold a, b; field; assumption).
  rewrite exp_minus. pose proof (exp_pos a). pose proof (exp_pos b). field. lra.
Qed.
Print Assumptions C20_bin_concrete_sample.

Theorem C20_dirichlet_beta lgamma x alpha beta :
  dirichlet_lp lgamma [x; 1 - x] [alpha; beta] = beta_lp lgamma x alpha beta.
Proof. unfold dirichlet_lp, beta_lp, lbeta. simpl. rewrite !Rplus_0_r. ring. Qed.
Print Assumptions C20_dirichlet_beta.
Theorem C20_dirichlet_beta_sample g1 g2 : nth 0 (dirichlet_sample [g1; g2]) 0 = beta_sample g1 g2.
Proof. unfold dirichlet_sample, beta_sample. simpl. now rewrite Rplus_0_r. Qed.
Print Assumptions C20_dirichlet_beta_sample.

Theorem C20_onehot_categorical logits k : (k < length logits)%nat ->
  categorical_lp k logits = Some (onehot_lp (onehot (length logits) k) logits).
Proof.
  intros H. rewrite onehot_lp_at by assumption. unfold categorical_lp. now rewrite (nth_error_nth' _ 0).
Qed.
Print Assumptions C20_onehot_categorical.

Lemma onehot_counts n k : (k < n)%nat -> exists ks, onehot n k = map INR ks /\ list_sum ks = 1%nat /\
  forall j, In j ks -> (j = 0 \/ j = 1)%nat.
Proof.
  intros H. exists (map (fun j => if Nat.eqb j k then 1 else 0)%nat (seq 0 n)). split; [|split].
  - unfold onehot. rewrite map_map. apply map_ext. intros j. destruct (Nat.eqb j k); reflexivity.
  - assert (G : forall m s, list_sum (map (fun j => if Nat.eqb j k then 1 else 0)%nat (seq s m))
      = if andb (Nat.leb s k) (Nat.ltb k (s + m)) then 1%nat else 0%nat).
    { clear. induction m as [|m IH]; intros s; cbn [seq map].
      - destruct (Nat.leb_spec s k), (Nat.ltb_spec k (s + 0)); cbn; lia.
      - cbn [list_sum fold_right]. fold (list_sum (map (fun j => if Nat.eqb j k then 1 else 0)%nat (seq (S s) m))).
        rewrite IH. destruct (Nat.eqb_spec s k), (Nat.leb_spec s k), (Nat.leb_spec (S s) k),
          (Nat.ltb_spec k (S s + m)), (Nat.ltb_spec k (s + S m)); cbn [andb]; lia. }
    rewrite G. simpl. destruct (Nat.ltb_spec k n); lia.
  - intros j Hj. apply in_map_iff in Hj. destruct Hj as [i [<- _]]. destruct (Nat.eqb i k); auto.
Qed.
Theorem C20_multinomial_one lgamma n_experiments logits k : lgamma_factorial lgamma -> (k < length logits)%nat ->
  n_experiments = None \/ n_experiments = Some 1 ->
  multinomial_lp lgamma true n_experiments (onehot (length logits) k) logits
  = onehot_lp (onehot (length logits) k) logits.
Proof.
  intros L H Hn. destruct (onehot_counts (length logits) k H) as [ks [E [S Z]]]. rewrite E.
  rewrite multinomial_n by (rewrite S; exact Hn). rewrite S.
  unfold onehot_lp. rewrite Ropp_involutive. cbn [normalized].
  assert (LC : log_combination lgamma (INR 1) (map INR ks) = 0).
  { unfold log_combination. rewrite L, map_map. simpl. rewrite ln_1.
    rewrite (map_ext_in _ (fun _ => 0)).
    - clear. induction ks; simpl in *; [ring|]. lra.
    - intros j Hj. rewrite L. destruct (Z j Hj) as [-> | ->]; simpl; apply ln_1. }
  rewrite LC. ring.
Qed.
Print Assumptions C20_multinomial_one.

Theorem C20_binomial_one lgamma x logits : lgamma_factorial lgamma -> x = 0 \/ x = 1 ->
  binomial_lp lgamma x logits 1 = bernoulli_lp x logits.
Proof.
  intros L H. unfold binomial_lp, bernoulli_lp. rewrite xent_softplus.
  assert (L1 : lgamma (0 + 1) = 0) by (pose proof (L 0%nat) as E; simpl in E; rewrite E; apply ln_1).
  assert (L2 : lgamma (1 + 1) = 0) by (pose proof (L 1%nat) as E; simpl in E; rewrite E; apply ln_1).
  destruct H as [-> | ->].
  - replace (1 - 0 + 1) with (1 + 1) by ring. rewrite L1, L2. ring.
  - replace (1 - 1 + 1) with (0 + 1) by ring. rewrite L1, L2. ring.
Qed.
Print Assumptions C20_binomial_one.

Theorem C20_unnormalized lgamma normalize n_experiments given logits :
  multinomial_lp lgamma normalize n_experiments given logits =
  unnormalized_multinomial_lp normalize given logits
  + log_combination lgamma (match n_experiments with Some n => n | None => sumR given end) given.
Proof. unfold multinomial_lp, unnormalized_multinomial_lp. ring. Qed.
Print Assumptions C20_unnormalized.

Theorem C20_foldnormal x mean logstd : 0 <= x ->
  expp (foldnormal_lp x mean logstd) = exp (normal_lp x mean logstd) + exp (normal_lp (- x) mean logstd).
Proof.
  intros H. unfold foldnormal_lp. destruct (Rle_dec 0 x); [|lra]. cbn [expp]. rewrite exp_plus, exp_softplus.
  assert (LP : ln (2 * PI) = ln 2 + ln PI) by (apply ln_mult; [lra|apply PI_RGT_0]).
  unfold normal_lp. rewrite LP, Rmult_plus_distr_l, Rmult_1_r. f_equal; [f_equal; ring|].
  rewrite <- exp_plus. f_equal. unfold square. field.
Qed.
Print Assumptions C20_foldnormal.
