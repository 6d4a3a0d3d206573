(** Supporting lemmas for gradients of samples and log densities. *)
From Coq Require Import List Arith Lia Bool Reals Lra FunctionalExtensionality.
From Coquelicot Require Import Coquelicot.
From Verif Require Import ModelTensor ModelDist ModelChol ModelGrad SpecDist SpecChol SpecGrad ProofDist ProofChol ProofDiscrete.
Import List ListNotations.
Local Open Scope R_scope.

Section Lemmas.
Variables lgamma digamma : R -> R.
Variables draw ddraw : R -> R -> R.
Variable pois : R -> R -> R.
Notation value := (value lgamma draw).
Notation grad := (grad lgamma digamma draw ddraw).
Notation held := (held lgamma draw).
Notation regular := (regular lgamma digamma draw ddraw).

Lemma held_value e m : held e e m = value e m.
Proof. induction m; simpl; congruence. Qed.

Lemma softplus_derive x : is_derive softplus x (sigmoid x).
Proof.
  unfold softplus, sigmoid. pose proof (exp_pos x). pose proof (exp_pos (- x)). auto_derive; [lra|].
  rewrite exp_Ropp. field. lra.
Qed.
Lemma sigmoid_derive x : is_derive sigmoid x (sigmoid x * (1 - sigmoid x)).
Proof.
  unfold sigmoid. pose proof (exp_pos (- x)). auto_derive; [lra|]. field. lra.
Qed.
Lemma abs_derive x : x <> 0 -> is_derive Rabs x (sign x).
Proof.
  intros N. unfold sign. destruct (Rlt_dec 0 x) as [P|P].
  - apply is_derive_ext_loc with (fun y => y).
    + exists (mkposreal x P). intros y Hy. apply Rabs_def2 in Hy. simpl in Hy. unfold minus, plus, opp in Hy. simpl in Hy.
      rewrite Rabs_pos_eq; lra.
    + auto_derive; auto.
  - destruct (Rlt_dec x 0) as [Q|Q]; [|lra].
    assert (P' : 0 < - x) by lra.
    apply is_derive_ext_loc with (fun y => - y).
    + exists (mkposreal (- x) P'). intros y Hy. apply Rabs_def2 in Hy. simpl in Hy. unfold minus, plus, opp in Hy. simpl in Hy.
      rewrite Rabs_left; lra.
    + auto_derive; auto.
Qed.
Lemma ln_derive x : 0 < x -> is_derive ln x (/ x).
Proof. intros H. auto_derive; [assumption|]. field. lra. Qed.

Theorem grad_sound path t v m : moves path t v -> regular (path t) m ->
  is_derive (fun s => held (path t) (path s) m) t (grad (path t) v m).
Proof.
  intros M. induction m; intros G; simpl in G |- *;
    try solve [apply M | apply (is_derive_const (K := R_AbsRing) (V := R_NormedModule))];
    try (destruct G as [G1 G2]); rewrite <- ?(held_value (path t)) in *.
  - apply (is_derive_opp (K := R_AbsRing) (V := R_NormedModule)). auto.
  - apply (is_derive_plus (K := R_AbsRing) (V := R_NormedModule)); auto.
  - apply (is_derive_minus (K := R_AbsRing) (V := R_NormedModule)); auto.
  - apply (is_derive_mult (K := R_AbsRing) (fun s => held (path t) (path s) m1) (fun s => held (path t) (path s) m2));
      auto. intros; apply Rmult_comm.
  - destruct G2 as [G2 G3]. apply is_derive_div; auto.
  - apply (is_derive_comp exp (fun s => held (path t) (path s) m)); [apply is_derive_exp | auto].
  - apply (is_derive_comp ln (fun s => held (path t) (path s) m)); [apply ln_derive; assumption | auto].
  - apply (is_derive_comp square (fun s => held (path t) (path s) m)); [unfold square; auto_derive; auto; ring | auto].
  - apply (is_derive_comp Rabs (fun s => held (path t) (path s) m)); [apply abs_derive; assumption | auto].
  - apply (is_derive_comp softplus (fun s => held (path t) (path s) m)); [apply softplus_derive | auto].
  - apply (is_derive_comp sigmoid (fun s => held (path t) (path s) m)); [apply sigmoid_derive | auto].
  - apply (is_derive_comp lgamma (fun s => held (path t) (path s) m)); [assumption | auto].
  - apply (is_derive_comp (draw u) (fun s => held (path t) (path s) m)); [assumption | auto].
Qed.

(** ** Values *)
Lemma held_tsum e0 e l : held e0 e (tsum l) = sumR (map (held e0 e) l).
Proof. induction l; simpl; congruence. Qed.
Lemma held_tsumn e0 e n f : held e0 e (tsumn n f) = rsum n (fun i => held e0 e (f i)).
Proof. unfold tsumn. rewrite held_tsum, map_map. apply sumR_map_seq. Qed.
Lemma held_tlse e0 e l : held e0 e (tlse l) = logsumexp (map (held e0 e) l).
Proof. unfold tlse, logsumexp. simpl. now rewrite held_tsum, !map_map. Qed.
Lemma held_log_softmax e0 e l : map (held e0 e) (tlog_softmax l) = log_softmax (map (held e0 e) l).
Proof.
  unfold tlog_softmax, log_softmax. rewrite !map_map. apply map_ext. intros a.
  cbn [SpecGrad.held]. now rewrite held_tlse.
Qed.
Lemma held_softmax e0 e l : map (held e0 e) (tsoftmax l) = softmax (map (held e0 e) l).
Proof.
  unfold tsoftmax, softmax. rewrite !map_map. apply map_ext. intros a. cbn [SpecGrad.held].
  rewrite held_tsum. now rewrite map_map.
Qed.
Lemma held_nth e0 e l k : held e0 e (nth k l (Cst 0)) = nth k (map (held e0 e) l) 0.
Proof. change 0 with (held e0 e (Cst 0)) at 2. now rewrite map_nth. Qed.
Lemma tfsub_length L y n : length (tfsub L y n) = n.
Proof. induction n; simpl; [reflexivity|]. rewrite app_length, IHn. simpl. lia. Qed.
Lemma held_tfsub e0 e L y n :
  map (held e0 e) (tfsub L y n) = fsub (fun i j => held e0 e (L i j)) (fun i => held e0 e (y i)) n.
Proof.
  induction n; [reflexivity|]. cbn [tfsub fsub]. rewrite map_app, IHn. f_equal. cbn [map SpecGrad.held].
  do 3 f_equal. rewrite held_tsumn, sumn_rsum. apply rsum_ext. intros k Hk. cbn [SpecGrad.held].
  now rewrite held_nth, IHn.
Qed.

(** The value a parameter has inside [_log_prob] and [_sample]. *)
Definition in_log_prob (d : gdist) (e0 e : nat -> R) (a : tm) : R :=
  if g_path d && documents_path (g_class d) then value e0 a else held e0 e a.
Definition in_sample (d : gdist) (e0 e : nat -> R) (a : tm) : R :=
  match g_class d with
  | GBernoulli _ | GPoisson _ => value e0 a
  | c => if takes_reparam c && negb (g_reparam d) then value e0 a else held e0 e a
  end.

Lemma map_nth_seq {A} (l : list A) d : map (fun k => nth k l d) (seq 0 (length l)) = l.
Proof.
  apply nth_ext with (d := d) (d' := d); rewrite map_length, seq_length; [reflexivity|].
  intros k Hk. now apply (nth_map_seq (fun k => nth k l d)).
Qed.
Lemma combine_nth_seq {A B} (x : list A) (y : list B) dx dy : length x = length y ->
  combine x y = map (fun k => (nth k x dx, nth k y dy)) (seq 0 (length y)).
Proof.
  intros E. apply nth_ext with (d := (dx, dy)) (d' := (dx, dy)).
  - rewrite combine_length, map_length, seq_length. lia.
  - intros k Hk. rewrite combine_length in Hk. rewrite combine_nth by assumption.
    symmetry. apply (nth_map_seq (fun k => (nth k x dx, nth k y dy))). lia.
Qed.
Lemma sumR_rsum_nth f l : sumR (map f l) = rsum (length l) (fun k => f (nth k l 0)).
Proof.
  rewrite <- sumR_map_seq, <- (map_map (fun k => nth k l 0) f), map_nth_seq. reflexivity.
Qed.

Lemma path_held d e0 e a : documents_path (g_class d) = true ->
  held e0 e (path_param d a) = in_log_prob d e0 e a.
Proof. intros D. unfold path_param, in_log_prob. rewrite D. destruct (g_path d); reflexivity. Qed.
Lemma nopath_held d e0 e a : documents_path (g_class d) = false ->
  in_log_prob d e0 e a = held e0 e a.
Proof. intros D. unfold in_log_prob. rewrite D, andb_false_r. reflexivity. Qed.

Lemma in_lp_nth d e0 e l k : nth k (map (in_log_prob d e0 e) l) 0 = in_log_prob d e0 e (nth k l (Cst 0)).
Proof.
  replace 0 with (in_log_prob d e0 e (Cst 0)) at 1 by (unfold in_log_prob; now destruct (g_path d && _)).
  apply map_nth.
Qed.
Lemma foldnormal_fin x m l : 0 <= x -> finite (foldnormal_lp x m l) =
  - (1/2) * (ln 2 + ln PI) - (l + 1/2 * exp (-2 * l) * square (x - m))
  + softplus (-2 * m * x * exp (-2 * l)).
Proof. intros H. unfold foldnormal_lp. destruct (Rle_dec 0 x); [reflexivity|lra]. Qed.
Lemma uniform_fin x a b : a <= x < b -> finite (uniform_lp x a b) = ln (1 / (b - a) * 1).
Proof.
  intros H. unfold uniform_lp, uniform_prob.
  destruct (Rle_dec a x); [|lra]. destruct (Rlt_dec x b); [|lra].
  destruct (Req_EM_T (1 / (b - a) * 1) 0) as [E|E]; [|reflexivity].
  exfalso. assert (0 < / (b - a)) by (apply Rinv_0_lt_compat; lra). lra.
Qed.
Lemma xent_softplus z x : sigmoid_cross_entropy z x = softplus x - x * z.
Proof.
  unfold sigmoid_cross_entropy, softplus. unfold Rmax, Rabs.
  destruct (Rcase_abs x); destruct (Rle_dec x 0); try lra.
  - rewrite Ropp_involutive. lra.
  - assert (x = 0) by lra. subst. rewrite Ropp_0. lra.
  - replace (1 + exp x) with (exp x * (1 + exp (- x))).
    + rewrite ln_mult, ln_exp; [lra| apply exp_pos |]. pose proof (exp_pos (- x)). lra.
    + rewrite Rmult_plus_distr_l, <- exp_plus, Rplus_opp_r, exp_0. lra.
Qed.

Lemma held_log_prob d e0 e given : fits_class (g_class d) given ->
  inside (in_log_prob d e0 e) (g_class d) (map (held e0 e) given) ->
  inside (value e0) (g_class d) (map (value e0) given) ->
  held e0 e (g_log_prob d given) = density lgamma (in_log_prob d e0 e) (g_class d) (map (held e0 e) given).
Proof.
  intros F I I0.
  assert (P := fun D a => path_held d e0 e a D). assert (Q := fun D a => nopath_held d e0 e a D).
  unfold fits_class, inside, g_log_prob, density, tnth in *.
  destruct (g_class d) eqn:C; cbn [documents_path] in P, Q;
    try specialize (P eq_refl); try specialize (Q eq_refl).
  - cbn [SpecGrad.held]. rewrite !P, held_nth. reflexivity.
  - rewrite foldnormal_fin by lra. cbn [SpecGrad.held ModelGrad.value]. rewrite !P, held_nth.
    unfold log_mask_ge0. change 0 with (value e0 (Cst 0)) in I0 at 2. rewrite map_nth in I0.
    cbn [map nth]. destruct (Rle_dec 0 (value e0 (nth 0 given (Cst 0)))); [|lra].
    rewrite ln_1. lra.
  - rewrite !Q in I. rewrite !Q. rewrite uniform_fin by lra. cbn [SpecGrad.held ModelGrad.value].
    unfold uniform_mask. change 0 with (value e0 (Cst 0)) in I0. rewrite map_nth in I0.
    cbn [map nth].
    destruct (Rle_dec (value e0 minval) (value e0 (nth 0 given (Cst 0)))); [|lra].
    destruct (Rlt_dec (value e0 (nth 0 given (Cst 0))) (value e0 maxval)); [|lra]. reflexivity.
  - cbn [SpecGrad.held]. rewrite !P, held_nth. reflexivity.
  - cbn [SpecGrad.held]. rewrite !P, held_nth. reflexivity.
  - unfold exp_concrete_lp. cbn [SpecGrad.held]. rewrite !P, held_tsum, held_tlse, !map_map, map_length.
    assert (E : map (fun k => held e0 e (Sb (path_param d (nth k logits (Cst 0)))
                    (Mu (path_param d temperature) (nth k given (Cst 0))))) (seq 0 (length logits))
      = map (fun p => snd p - in_log_prob d e0 e temperature * fst p)
          (combine (map (held e0 e) given) (map (in_log_prob d e0 e) logits))).
    { rewrite (combine_nth_seq _ _ 0 0) by (now rewrite !map_length). rewrite map_map, map_length.
      apply map_ext. intros k. cbn [SpecGrad.held fst snd]. rewrite !P, held_nth. f_equal.
      now rewrite in_lp_nth. }
    rewrite !E. reflexivity.
  - unfold concrete_lp. cbn [SpecGrad.held]. rewrite !P, held_tsum, held_tlse, !map_map, map_length.
    assert (E : map (fun k => held e0 e (Sb (path_param d (nth k logits (Cst 0)))
                    (Mu (path_param d temperature) (Lg (nth k given (Cst 0)))))) (seq 0 (length logits))
      = map (fun p => snd p - in_log_prob d e0 e temperature * ln (fst p))
          (combine (map (held e0 e) given) (map (in_log_prob d e0 e) logits))).
    { rewrite (combine_nth_seq _ _ 0 0) by (now rewrite !map_length). rewrite map_map, map_length.
      apply map_ext. intros k. cbn [SpecGrad.held fst snd]. rewrite !P, held_nth. f_equal.
      now rewrite in_lp_nth. }
    rewrite !E. f_equal. f_equal. f_equal. rewrite <- E.
    rewrite (combine_nth_seq _ (map (held e0 e) given) 0 0) by (rewrite !map_length, seq_length; symmetry; exact F).
    rewrite map_map, map_length, F. apply map_ext_in. intros k Hk. apply in_seq in Hk. cbn [fst snd].
    rewrite (nth_map_seq (fun k => held e0 e _)) by lia. cbn [SpecGrad.held]. now rewrite !held_nth.
  - unfold mvn_formula. cbn [SpecGrad.held]. rewrite held_tsumn, held_tsum, map_map.
    rewrite (rsum_ext n (fun i => held e0 e (Lg (path_param d (cov_tril i i)))) (fun i => ln (in_log_prob d e0 e (cov_tril i i))))
      by (intros; cbn [SpecGrad.held]; now rewrite P).
    rewrite <- (map_map (held e0 e) square), held_tfsub.
    rewrite (fsub_ext _ (fun i j => in_log_prob d e0 e (cov_tril i j)) _
               (fun i => nth i (map (held e0 e) given) 0 - in_log_prob d e0 e (mean i))).
    + lra.
    + intros; apply P.
    + intros; cbn [SpecGrad.held]. now rewrite P, held_nth.
  - unfold mvmn_formula. cbn [SpecGrad.held]. rewrite !held_tsumn.
    rewrite (rsum_ext nr (fun i => held e0 e (Lg (path_param d (u_tril i i)))) (fun i => ln (in_log_prob d e0 e (u_tril i i))))
      by (intros; cbn [SpecGrad.held]; now rewrite P).
    rewrite (rsum_ext nc (fun i => held e0 e (Lg (path_param d (v_tril i i)))) (fun i => ln (in_log_prob d e0 e (v_tril i i))))
      by (intros; cbn [SpecGrad.held]; now rewrite P).
    match goal with |- _ + - (1/2) * ?a = _ - 1/2 * ?b => replace a with b; [lra|] end.
    apply rsum_ext. intros c Hc. rewrite held_tsumn. apply rsum_ext. intros r Hr. cbn [SpecGrad.held].
    rewrite held_nth, held_tfsub. f_equal. f_equal. symmetry. apply fsub_ext; [intros; apply P|].
    intros c' Hc'. rewrite held_nth, held_tfsub. f_equal. apply fsub_ext; [intros; apply P|].
    intros r' Hr'. cbn [SpecGrad.held]. now rewrite P, held_nth.
  - cbn [SpecGrad.held]. rewrite !Q, held_nth. unfold bernoulli_lp. now rewrite xent_softplus.
  - cbn [SpecGrad.held]. rewrite !Q, held_nth. reflexivity.
  - cbn [SpecGrad.held]. rewrite !Q, held_nth. reflexivity.
  - cbn [SpecGrad.held]. rewrite !Q, held_nth. reflexivity.
  - cbn [SpecGrad.held]. rewrite !Q, held_nth. reflexivity.
  - unfold dirichlet_lp, lbeta. rewrite (map_ext (in_log_prob d e0 e) (held e0 e)) by apply Q.
    cbn [SpecGrad.held]. rewrite !held_tsum, !map_map. f_equal.
    rewrite (combine_nth_seq _ _ 0 0) by (now rewrite !map_length). rewrite map_map, map_length.
    f_equal. apply map_ext. intros k. cbn [SpecGrad.held fst snd]. now rewrite !held_nth.
Qed.

Lemma block_held d e0 e a : takes_reparam (g_class d) = true ->
  held e0 e (block d a) = in_sample d e0 e a.
Proof.
  intros D. unfold block, in_sample. destruct (g_class d); try discriminate; simpl;
    destruct (g_reparam d); reflexivity.
Qed.
Lemma noblock_held d e0 e a : takes_reparam (g_class d) = false ->
  match g_class d with GBernoulli _ | GPoisson _ => False | _ => True end ->
  in_sample d e0 e a = held e0 e a.
Proof. intros D H. unfold in_sample. destruct (g_class d); try discriminate; try contradiction; reflexivity. Qed.
Lemma in_s_nth d e0 e l k : nth k (map (in_sample d e0 e) l) 0 = in_sample d e0 e (nth k l (Cst 0)).
Proof.
  replace 0 with (in_sample d e0 e (Cst 0)) at 1.
  - apply map_nth.
  - unfold in_sample. destruct (g_class d); try reflexivity; destruct (takes_reparam _ && _); reflexivity.
Qed.

Lemma held_noisy d e0 e z temperature logits : takes_reparam (g_class d) = true ->
  map (held e0 e) (map (fun k => Dv (Ad (block d (nth k logits (Cst 0))) (Cst (gumbel (z k)))) (block d temperature))
                       (seq 0 (length logits)))
  = concrete_noisy (map z (seq 0 (length logits))) (in_sample d e0 e temperature) (map (in_sample d e0 e) logits).
Proof.
  intros D. unfold concrete_noisy.
  rewrite (combine_nth_seq _ _ (z 0%nat) 0) by (now rewrite !map_length, seq_length).
  rewrite !map_map, map_length. apply map_ext_in. intros k Hk. apply in_seq in Hk. cbn [SpecGrad.held fst snd].
  rewrite !(block_held d e0 e _ D), in_s_nth, (nth_map_seq z) by lia. reflexivity.
Qed.

Lemma held_sample d e0 e z :
  map (held e0 e) (g_sample pois d z) = sampler draw pois (in_sample d e0 e) (g_class d) z.
Proof.
  assert (P := fun D a => block_held d e0 e a D). assert (Q := fun D H a => noblock_held d e0 e a D H).
  unfold g_sample, sampler in *.
  destruct (g_class d) eqn:C; cbn [takes_reparam] in P, Q;
    try specialize (P eq_refl); try specialize (Q eq_refl I).
  - cbn [map SpecGrad.held]. now rewrite !P.
  - cbn [map SpecGrad.held]. now rewrite !P.
  - cbn [map SpecGrad.held]. now rewrite !P.
  - cbn [map SpecGrad.held]. now rewrite !P.
  - cbn [map SpecGrad.held]. now rewrite !P.
  - rewrite held_log_softmax, held_noisy by (now rewrite C). reflexivity.
  - rewrite held_softmax, held_noisy by (now rewrite C). reflexivity.
  - rewrite map_map. apply map_ext. intros i. cbn [SpecGrad.held]. rewrite P, held_tsumn, Rplus_comm. f_equal.
    apply rsum_ext. intros. cbn [SpecGrad.held]. now rewrite P.
  - rewrite map_map. apply map_ext. intros i. cbn [SpecGrad.held]. rewrite P, held_tsumn. f_equal.
    apply rsum_ext. intros. cbn [SpecGrad.held]. rewrite P, held_tsumn. f_equal.
    apply rsum_ext. intros. cbn [SpecGrad.held]. now rewrite P.
  - cbn [map SpecGrad.held ModelGrad.value]. unfold in_sample. rewrite C. reflexivity.
  - cbn [map SpecGrad.held ModelGrad.value]. unfold in_sample. rewrite C. reflexivity.
  - cbn [map SpecGrad.held]. now rewrite !Q.
  - cbn [map SpecGrad.held]. now rewrite !Q.
  - cbn [map SpecGrad.held]. now rewrite !Q.
  - unfold dirichlet_sample. rewrite !map_map. apply map_ext. intros k. cbn [SpecGrad.held].
    rewrite held_tsum, !map_map, Q. f_equal. f_equal. apply map_ext. intros k'. cbn [SpecGrad.held]. now rewrite Q.
Qed.

(** ** Differentiability *)
Hypothesis lgamma_derive : forall x, 0 < x -> is_derive lgamma x (digamma x).

Lemma regular_tsum e l : Forall (regular e) l -> regular e (tsum l).
Proof. induction 1; simpl; auto. Qed.
Lemma value_tsum e l : value e (tsum l) = sumR (map (value e) l).
Proof. rewrite <- held_value, held_tsum. f_equal. apply map_ext. intros. apply held_value. Qed.
Lemma regular_nth e l k : Forall (regular e) l -> regular e (nth k l (Cst 0)).
Proof.
  intros F. destruct (Nat.lt_ge_cases k (length l)) as [H|H].
  - now apply Forall_forall with (1 := F), nth_In.
  - rewrite nth_overflow by assumption. exact I.
Qed.
Lemma sum_exp_pos l : l <> [] -> 0 < sumR (map exp l).
Proof.
  destruct l as [|a l]; [congruence|]. intros _. simpl. pose proof (exp_pos a).
  assert (0 <= sumR (map exp l)); [|lra]. induction l as [|b l IH]; simpl; [lra|]. pose proof (exp_pos b). lra.
Qed.
Lemma regular_sum_exp e l : Forall (regular e) l -> regular e (tsum (map Ex l)).
Proof. intros F. apply regular_tsum. apply Forall_map. exact F. Qed.
Lemma value_sum_exp e l : l <> [] -> 0 < value e (tsum (map Ex l)).
Proof.
  intros N. rewrite value_tsum, map_map. change (fun x => value e (Ex x)) with (fun x => exp (value e x)).
  rewrite <- (map_map (value e) exp). apply sum_exp_pos. destruct l; [congruence|discriminate].
Qed.
Lemma regular_tlse e l : l <> [] -> Forall (regular e) l -> regular e (tlse l).
Proof. intros N F. split; [now apply regular_sum_exp | now apply value_sum_exp]. Qed.
Lemma Forall_seq (P : nat -> Prop) n : (forall k, (k < n)%nat -> P k) -> Forall P (seq 0 n).
Proof. intros H. apply Forall_forall. intros k Hk. apply in_seq in Hk. apply H. lia. Qed.
Lemma Forall_map_seq {A} (P : A -> Prop) f n : (forall k, (k < n)%nat -> P (f k)) -> Forall P (map f (seq 0 n)).
Proof. intros H. apply Forall_map, Forall_seq, H. Qed.
Lemma regular_tsumn e n f : (forall k, (k < n)%nat -> regular e (f k)) -> regular e (tsumn n f).
Proof. intros H. apply regular_tsum, Forall_map_seq, H. Qed.
Lemma regular_tfsub e L y n : (forall i j, (j <= i < n)%nat -> regular e (L i j)) ->
  (forall i, (i < n)%nat -> regular e (y i)) -> (forall i, (i < n)%nat -> value e (L i i) <> 0) ->
  Forall (regular e) (tfsub L y n).
Proof.
  induction n; intros HL Hy D; [constructor|]. cbn [tfsub]. apply Forall_app.
  assert (F : Forall (regular e) (tfsub L y n)) by (apply IHn; intros; [apply HL | apply Hy | apply D]; lia).
  split; [exact F|]. constructor; [|constructor]. split; [|split].
  2: { apply HL; lia. } 2: { apply D; lia. }
  split; [apply Hy; lia|].
  apply regular_tsumn. intros k Hk. split; [apply HL; lia | now apply regular_nth].
Qed.
Lemma regular_path e d a : regular e a -> regular e (path_param d a).
Proof. unfold path_param. destruct (g_path d); simpl; auto. Qed.
Lemma regular_block e d a : regular e a -> regular e (block d a).
Proof. unfold block. destruct (g_reparam d); simpl; auto. Qed.
Lemma value_path e d a : value e (path_param d a) = value e a.
Proof. unfold path_param. now destruct (g_path d). Qed.
Lemma value_block e d a : value e (block d a) = value e a.
Proof. unfold block. now destruct (g_reparam d). Qed.
Lemma value_nth e l k : value e (nth k l (Cst 0)) = nth k (map (value e) l) 0.
Proof. change 0 with (value e (Cst 0)) at 2. now rewrite map_nth. Qed.
Lemma map_seq_nonnil {A B} (f : nat -> B) (l : list A) : l <> [] -> map f (seq 0 (length l)) <> [].
Proof. destruct l; [congruence|discriminate]. Qed.

Ltac splits := repeat match goal with |- _ /\ _ => split end.
Lemma regular_log_prob e d given : fits_class (g_class d) given ->
  (forall m, parameters (g_class d) m -> regular e m) -> Forall (regular e) given ->
  differentiable_at (value e) (g_class d) (map (value e) given) ->
  regular e (g_log_prob d given).
Proof.
  intros F RP RG D. unfold fits_class, differentiable_at, g_log_prob, tnth in *.
  assert (RX := regular_nth e given 0 RG).
  assert (VX := value_nth e given 0).
  destruct (g_class d) eqn:C; cbn [parameters] in RP.
  - cbn [SpecGrad.regular]. splits; auto using regular_path.
  - cbn [SpecGrad.regular]. splits; auto using regular_path.
  - cbn [SpecGrad.regular ModelGrad.value map]. rewrite VX.
    splits; auto; [lra|]. unfold uniform_mask. cbn [nth].
    destruct (Rle_dec _ _); [|lra]. destruct (Rlt_dec _ _); [|lra].
    apply Rmult_lt_0_compat; [|lra]. apply Rdiv_lt_0_compat; lra.
  - cbn [SpecGrad.regular ModelGrad.value]. rewrite !value_path, VX. splits; auto using regular_path; lra.
  - cbn [SpecGrad.regular ModelGrad.value]. rewrite !value_path, VX. splits; auto using regular_path; lra.
  - destruct D as [D N].
    assert (T : Forall (regular e) (map (fun k => Sb (path_param d (nth k logits (Cst 0))) (Mu (path_param d temperature) (nth k given (Cst 0)))) (seq 0 (length logits)))).
    { apply Forall_map_seq. intros k Hk. cbn [SpecGrad.regular]. splits; auto using regular_path, regular_nth.
      apply regular_path, RP. right. now apply nth_In. }
    cbn [SpecGrad.regular ModelGrad.value]. rewrite value_path. splits; auto using regular_path.
    + apply lgamma_derive. destruct logits; [congruence|]. apply lt_0_INR. simpl. lia.
    + now apply regular_tsum.
    + apply regular_tlse; [now apply map_seq_nonnil | exact T].
  - destruct D as [D [N Pos]].
    assert (PosK : forall k, (k < length logits)%nat -> 0 < value e (nth k given (Cst 0))).
    { intros k Hk. rewrite value_nth. rewrite Forall_forall in Pos. apply Pos, nth_In. rewrite map_length. lia. }
    assert (T : Forall (regular e) (map (fun k => Sb (path_param d (nth k logits (Cst 0))) (Mu (path_param d temperature) (Lg (nth k given (Cst 0))))) (seq 0 (length logits)))).
    { apply Forall_map_seq. intros k Hk. cbn [SpecGrad.regular]. splits; auto using regular_path, regular_nth.
      apply regular_path, RP. right. now apply nth_In. }
    cbn [SpecGrad.regular ModelGrad.value]. rewrite value_path. splits; auto using regular_path.
    + apply lgamma_derive. destruct logits; [congruence|]. apply lt_0_INR. simpl. lia.
    + apply regular_tsum, Forall_map_seq. intros k Hk. cbn [SpecGrad.regular]. splits; auto using regular_path, regular_nth.
      apply regular_path, RP. right. now apply nth_In.
    + apply regular_tlse; [now apply map_seq_nonnil | exact T].
  - cbn [SpecGrad.regular ModelGrad.value].
    assert (RC : forall i j, (i < n)%nat -> (j < n)%nat -> regular e (path_param d (cov_tril i j))).
    { intros i j Hi Hj. apply regular_path, RP. exists i, j. auto. }
    splits; auto.
    + apply regular_tsumn. intros k Hk. split; auto. rewrite value_path. auto.
    + apply regular_tsum, Forall_map. apply (Forall_impl _ (fun a (H : regular e a) => H : regular e (Sq a))).
      apply regular_tfsub.
      * intros i j Hij. apply RC; lia.
      * intros i Hi. split; [now apply regular_nth|]. apply regular_path, RP. exists i, i. auto.
      * intros i Hi. rewrite value_path. specialize (D i Hi). lra.
  - destruct D as [Du Dv'].
    assert (RM : forall i j, (i < nr)%nat -> (j < nc)%nat -> regular e (path_param d (mean i j))).
    { intros i j Hi Hj. apply regular_path, RP. left. exists i, j. auto. }
    assert (RU : forall i j, (i < nr)%nat -> (j < nr)%nat -> regular e (path_param d (u_tril i j))).
    { intros i j Hi Hj. apply regular_path, RP. right; left. exists i, j. auto. }
    assert (RV : forall i j, (i < nc)%nat -> (j < nc)%nat -> regular e (path_param d (v_tril i j))).
    { intros i j Hi Hj. apply regular_path, RP. right; right. exists i, j. auto. }
    cbn [SpecGrad.regular ModelGrad.value]. splits; auto.
    + apply regular_tsumn. intros k Hk. split; auto. rewrite value_path. auto.
    + apply regular_tsumn. intros k Hk. split; auto. rewrite value_path. auto.
    + apply regular_tsumn. intros c Hc. apply regular_tsumn. intros r Hr. cbn [SpecGrad.regular].
      apply regular_nth, regular_tfsub.
      * intros i j Hij. apply RV; lia.
      * intros c' Hc'. apply regular_nth, regular_tfsub.
        { intros i j Hij. apply RU; lia. }
        { intros r' Hr'. split; [now apply regular_nth | now apply RM]. }
        { intros i Hi. rewrite value_path. specialize (Du i Hi). lra. }
      * intros i Hi. rewrite value_path. specialize (Dv' i Hi). lra.
  - cbn [SpecGrad.regular]. splits; auto.
  - cbn [SpecGrad.regular ModelGrad.value]. rewrite VX. splits; auto; try lra. apply lgamma_derive. lra.
  - cbn [SpecGrad.regular ModelGrad.value]. rewrite VX. splits; auto; try lra. apply lgamma_derive. lra.
  - cbn [SpecGrad.regular ModelGrad.value]. rewrite VX. splits; auto; try lra. apply lgamma_derive. lra.
  - cbn [SpecGrad.regular ModelGrad.value]. rewrite VX. splits; auto; try lra; apply lgamma_derive; lra.
  - destruct D as [N [PA PG]].
    assert (RA : Forall (regular e) alpha) by (apply Forall_forall; auto).
    assert (LA : Forall (regular e) (map Lga alpha)).
    { apply Forall_map, Forall_forall. intros a Ha. split; auto. apply lgamma_derive.
      rewrite Forall_forall in PA. auto. }
    cbn [SpecGrad.regular]. splits.
    + now apply regular_tsum.
    + now apply regular_tsum.
    + apply lgamma_derive. rewrite value_tsum.
      destruct alpha as [|a l]; [congruence|]. simpl. inversion_clear PA as [|? ? Pa Pl].
      assert (0 <= sumR (map (value e) l)); [|lra].
      clear - Pl. induction Pl; simpl; [lra|]. lra.
    + apply regular_tsum, Forall_map_seq. intros k Hk. cbn [SpecGrad.regular]. splits; auto using regular_nth.
      rewrite value_nth. rewrite Forall_forall in PG. apply PG, nth_In. rewrite map_length. lia.
Qed.

Lemma regular_sample e d z : takes_reparam (g_class d) = true ->
  (forall m, parameters (g_class d) m -> regular e m) ->
  sampler_differentiable (value e) (g_class d) ->
  Forall (regular e) (g_sample pois d z).
Proof.
  intros T RP D. unfold sampler_differentiable, g_sample in *.
  destruct (g_class d) eqn:C; cbn [parameters] in RP; try discriminate.
  - repeat constructor; auto using regular_block.
  - repeat constructor; auto using regular_block.
  - repeat constructor; auto using regular_block.
  - repeat constructor; auto using regular_block.
  - repeat constructor; auto using regular_block. now rewrite value_block.
  - assert (N : Forall (regular e) (map (fun k => Dv (Ad (block d (nth k logits (Cst 0))) (Cst (gumbel (z k)))) (block d temperature)) (seq 0 (length logits)))).
    { apply Forall_map_seq. intros k Hk. cbn [SpecGrad.regular]. rewrite value_block.
      splits; auto using regular_block. apply regular_block, RP. right. now apply nth_In. }
    unfold tlog_softmax. apply Forall_map. apply Forall_forall. intros a Ha. split.
    + rewrite Forall_forall in N. auto.
    + apply regular_tlse; [|exact N]. intros E. rewrite E in Ha. destruct Ha.
  - assert (N : Forall (regular e) (map (fun k => Dv (Ad (block d (nth k logits (Cst 0))) (Cst (gumbel (z k)))) (block d temperature)) (seq 0 (length logits)))).
    { apply Forall_map_seq. intros k Hk. cbn [SpecGrad.regular]. rewrite value_block.
      splits; auto using regular_block. apply regular_block, RP. right. now apply nth_In. }
    unfold tsoftmax. apply Forall_map. apply Forall_forall. intros a Ha. split; [|split].
    + rewrite Forall_forall in N. exact (N _ Ha).
    + now apply regular_sum_exp.
    + apply Rgt_not_eq, value_sum_exp. intros E. rewrite E in Ha. destruct Ha.
  - apply Forall_map_seq. intros i Hi. split.
    + apply regular_tsumn. intros k Hk. split; [|exact I]. apply regular_block, RP. exists i, k. auto.
    + apply regular_block, RP. exists i, i. auto.
  - apply Forall_map_seq. intros i Hi.
    assert (Hnc : (0 < nc)%nat) by (destruct nc; lia).
    assert (Hr : (i / nc < nr)%nat) by (apply Nat.div_lt_upper_bound; lia).
    assert (Hc : (i mod nc < nc)%nat) by (apply Nat.mod_upper_bound; lia).
    split.
    + apply regular_block, RP. left. exists (i / nc)%nat, (i mod nc)%nat. auto.
    + apply regular_tsumn. intros l Hl. split.
      * apply regular_tsumn. intros j Hj. split; [|exact I]. apply regular_block, RP. right; left.
        exists (i / nc)%nat, j. auto.
      * apply regular_block, RP. right; right. exists (i mod nc)%nat, l. auto.
Qed.

(** ** Nodes through which nothing flows *)
Definition flat (m : tm) : Prop := forall e de, grad e de m = 0.
Ltac flat := intros e de; simpl; unfold flat in *;
  repeat match goal with H : forall e de, _ = 0 |- _ => rewrite H; clear H end; unfold Rdiv; ring.
Lemma flat_cst c : flat (Cst c). Proof. flat. Qed.
Lemma flat_ad a b : flat a -> flat b -> flat (Ad a b). Proof. intros; flat. Qed.
Lemma flat_sb a b : flat a -> flat b -> flat (Sb a b). Proof. intros; flat. Qed.
Lemma flat_mu a b : flat a -> flat b -> flat (Mu a b). Proof. intros; flat. Qed.
Lemma flat_dv a b : flat a -> flat b -> flat (Dv a b). Proof. intros; flat. Qed.
Lemma flat_ex a : flat a -> flat (Ex a). Proof. intros; flat. Qed.
Lemma flat_lg a : flat a -> flat (Lg a). Proof. intros; flat. Qed.
Lemma flat_sg a : flat a -> flat (Sg a). Proof. intros; flat. Qed.
Lemma flat_stop a : flat (Stop a). Proof. flat. Qed.
Lemma flat_tsum l : Forall flat l -> flat (tsum l).
Proof. induction 1; simpl; auto using flat_cst, flat_ad. Qed.
Lemma flat_block d a : g_reparam d = false -> flat (block d a).
Proof. intros E. unfold block. rewrite E. apply flat_stop. Qed.

Lemma flat_sample d z : takes_reparam (g_class d) = true -> g_reparam d = false -> Forall flat (g_sample pois d z).
Proof.
  intros T E. assert (B := fun a => flat_block d a E). unfold g_sample.
  destruct (g_class d); try discriminate.
  - repeat constructor; auto using flat_ad, flat_mu, flat_cst.
  - repeat constructor; auto using flat_ad, flat_mu, flat_cst.
  - repeat constructor; auto using flat_ad, flat_sb, flat_mu, flat_cst.
  - repeat constructor; auto 6 using flat_ad, flat_sb, flat_mu, flat_cst.
  - repeat constructor; auto 6 using flat_ad, flat_sg, flat_dv, flat_cst.
  - assert (N : Forall flat (map (fun k => Dv (Ad (block d (nth k logits (Cst 0))) (Cst (gumbel (z k)))) (block d temperature)) (seq 0 (length logits))))
      by (apply Forall_map_seq; auto using flat_dv, flat_ad, flat_cst).
    unfold tlog_softmax, tlse. apply Forall_map. revert N. generalize (map (fun k => Dv (Ad (block d (nth k logits (Cst 0))) (Cst (gumbel (z k)))) (block d temperature)) (seq 0 (length logits))).
    intros l N. apply (Forall_impl _ (P := flat)); [|exact N]. intros a Ha. apply flat_sb; auto.
    apply flat_lg, flat_tsum, Forall_map. apply (Forall_impl _ flat_ex N).
  - assert (N : Forall flat (map (fun k => Dv (Ad (block d (nth k logits (Cst 0))) (Cst (gumbel (z k)))) (block d temperature)) (seq 0 (length logits))))
      by (apply Forall_map_seq; auto using flat_dv, flat_ad, flat_cst).
    unfold tsoftmax. apply Forall_map. revert N. generalize (map (fun k => Dv (Ad (block d (nth k logits (Cst 0))) (Cst (gumbel (z k)))) (block d temperature)) (seq 0 (length logits))).
    intros l N. apply (Forall_impl _ (P := flat)); [|exact N]. intros a Ha. apply flat_dv; auto using flat_ex.
    apply flat_tsum, Forall_map. apply (Forall_impl _ flat_ex N).
  - apply Forall_map_seq. intros i Hi. apply flat_ad; auto. apply flat_tsum, Forall_map_seq. auto using flat_mu, flat_cst.
  - apply Forall_map_seq. intros i Hi. apply flat_ad; auto. apply flat_tsum, Forall_map_seq. intros k Hk.
    apply flat_mu; auto. apply flat_tsum, Forall_map_seq. auto using flat_mu, flat_cst.
Qed.

(** ** Splitting a gradient between two sets of leaves *)
Definition splits3 (e de : nat -> R) (m m1 m2 : tm) : Prop :=
  value e m1 = value e m /\ value e m2 = value e m /\ grad e de m = grad e de m1 + grad e de m2.
Ltac split3 := unfold splits3; intros;
  repeat match goal with H : _ /\ _ |- _ => destruct H end; simpl;
  repeat match goal with H : value _ _ = value _ _ |- _ => rewrite H; clear H end;
  repeat match goal with H : grad _ _ _ = _ |- _ => rewrite H; clear H end;
  splits; try reflexivity; unfold Rdiv; try ring.
Section Split.
Variables e de : nat -> R.
Notation sp := (splits3 e de).
Lemma sp_cst c : sp (Cst c) (Cst c) (Cst c). Proof. split3. Qed.
Lemma sp_opq f l l' l'' : map (value e) l' = map (value e) l -> map (value e) l'' = map (value e) l ->
  sp (Opq f l) (Opq f l') (Opq f l'').
Proof. intros A B. unfold splits3. simpl. rewrite A, B. splits; try reflexivity. lra. Qed.
Lemma sp_ad a b a1 b1 a2 b2 : sp a a1 a2 -> sp b b1 b2 -> sp (Ad a b) (Ad a1 b1) (Ad a2 b2). Proof. split3. Qed.
Lemma sp_sb a b a1 b1 a2 b2 : sp a a1 a2 -> sp b b1 b2 -> sp (Sb a b) (Sb a1 b1) (Sb a2 b2). Proof. split3. Qed.
Lemma sp_mu a b a1 b1 a2 b2 : sp a a1 a2 -> sp b b1 b2 -> sp (Mu a b) (Mu a1 b1) (Mu a2 b2). Proof. split3. Qed.
Lemma sp_dv a b a1 b1 a2 b2 : sp a a1 a2 -> sp b b1 b2 -> sp (Dv a b) (Dv a1 b1) (Dv a2 b2). Proof. split3. Qed.
Lemma sp_ex a a1 a2 : sp a a1 a2 -> sp (Ex a) (Ex a1) (Ex a2). Proof. split3. Qed.
Lemma sp_lg a a1 a2 : sp a a1 a2 -> sp (Lg a) (Lg a1) (Lg a2). Proof. split3. Qed.
Lemma sp_sq a a1 a2 : sp a a1 a2 -> sp (Sq a) (Sq a1) (Sq a2). Proof. split3. Qed.
Lemma sp_ab a a1 a2 : sp a a1 a2 -> sp (Ab a) (Ab a1) (Ab a2). Proof. split3. Qed.
Lemma sp_sp a a1 a2 : sp a a1 a2 -> sp (Sp a) (Sp a1) (Sp a2). Proof. split3. Qed.
Lemma sp_lga a a1 a2 : sp a a1 a2 -> sp (Lga a) (Lga a1) (Lga a2). Proof. split3. Qed.
Lemma sp_left a : sp a (Stop a) a. Proof. split3. Qed.
Lemma sp_right a : sp a a (Stop a). Proof. split3. Qed.
Lemma sp_tsum {X} (f f1 f2 : X -> tm) l : (forall k, In k l -> sp (f k) (f1 k) (f2 k)) ->
  sp (tsum (map f l)) (tsum (map f1 l)) (tsum (map f2 l)).
Proof.
  induction l as [|a l IH]; simpl; intros H; [apply sp_cst|]. apply sp_ad; auto.
Qed.
Lemma sp_tlse {X} (f f1 f2 : X -> tm) l : (forall k, In k l -> sp (f k) (f1 k) (f2 k)) ->
  sp (tlse (map f l)) (tlse (map f1 l)) (tlse (map f2 l)).
Proof. intros H. unfold tlse. apply sp_lg. rewrite !map_map. apply sp_tsum. auto using sp_ex. Qed.
Lemma sp_nth l l1 l2 k : Forall2 (fun a p => sp a (fst p) (snd p)) l (combine l1 l2) ->
  length l1 = length l -> length l2 = length l ->
  sp (nth k l (Cst 0)) (nth k l1 (Cst 0)) (nth k l2 (Cst 0)).
Proof.
  revert l1 l2 k. induction l as [|a l IH]; intros [|a1 l1] [|a2 l2] k F L1 L2; try discriminate.
  - destruct k; apply sp_cst.
  - simpl in F. inversion_clear F. destruct k; simpl; [assumption|]. apply IH; auto.
Qed.
Lemma Forall2_app3 l l1 l2 a a1 a2 : Forall2 (fun a p => sp a (fst p) (snd p)) l (combine l1 l2) ->
  length l1 = length l -> length l2 = length l -> sp a a1 a2 ->
  Forall2 (fun a p => sp a (fst p) (snd p)) (l ++ [a]) (combine (l1 ++ [a1]) (l2 ++ [a2])).
Proof.
  revert l1 l2. induction l as [|b l IH]; intros [|b1 l1] [|b2 l2] F L1 L2 A; try discriminate; simpl.
  - constructor; [exact A|constructor].
  - simpl in F. inversion_clear F. constructor; [assumption|]. apply IH; auto.
Qed.
Lemma sp_tfsub L L1 L2 y y1 y2 n :
  (forall i j, sp (L i j) (L1 i j) (L2 i j)) -> (forall i, sp (y i) (y1 i) (y2 i)) ->
  Forall2 (fun a p => sp a (fst p) (snd p)) (tfsub L y n) (combine (tfsub L1 y1 n) (tfsub L2 y2 n)).
Proof.
  intros HL Hy. induction n; [constructor|]. cbn [tfsub].
  apply Forall2_app3; auto; rewrite ?tfsub_length; auto.
  apply sp_dv; auto. apply sp_sb; auto. apply sp_tsum. intros k _. apply sp_mu; auto.
  apply sp_nth; auto; rewrite !tfsub_length; reflexivity.
Qed.
Lemma sp_nth_tfsub L L1 L2 y y1 y2 n k :
  (forall i j, sp (L i j) (L1 i j) (L2 i j)) -> (forall i, sp (y i) (y1 i) (y2 i)) ->
  sp (nth k (tfsub L y n) (Cst 0)) (nth k (tfsub L1 y1 n) (Cst 0)) (nth k (tfsub L2 y2 n) (Cst 0)).
Proof. intros. apply sp_nth; [now apply sp_tfsub| |]; now rewrite !tfsub_length. Qed.
Lemma sp_squares l l1 l2 : Forall2 (fun a p => sp a (fst p) (snd p)) l (combine l1 l2) ->
  length l1 = length l -> length l2 = length l -> sp (tsum (map Sq l)) (tsum (map Sq l1)) (tsum (map Sq l2)).
Proof.
  revert l1 l2. induction l as [|a l IH]; intros [|a1 l1] [|a2 l2] F L1 L2; try discriminate; simpl.
  - apply sp_cst.
  - simpl in F. inversion_clear F. apply sp_ad; [now apply sp_sq|]. apply IH; auto.
Qed.
Lemma sp_nth_given given k : sp (nth k given (Cst 0)) (nth k given (Cst 0)) (nth k (map Stop given) (Cst 0)).
Proof.
  destruct (Nat.lt_ge_cases k (length given)) as [H|H].
  - rewrite (nth_indep (map Stop given) _ (Stop (Cst 0))) by (now rewrite map_length). rewrite map_nth. apply sp_right.
  - rewrite !nth_overflow by (rewrite ?map_length; assumption). apply sp_cst.
Qed.
End Split.

Lemma split_log_prob e de c given r : documents_path c = true ->
  splits3 e de (g_log_prob (GDist c r false) given) (g_log_prob (GDist c r true) given)
    (g_log_prob (GDist c r false) (map Stop given)).
Proof.
  intros D. assert (G := sp_nth_given e de given).
  pose proof (sp_left e de) as Lf. pose proof (sp_cst e de) as Cs.
  unfold g_log_prob, tnth, path_param. cbn [g_class g_path].
  destruct c; try discriminate.
  - auto 12 using sp_sb, sp_mu, sp_ex, sp_sq.
  - assert (O : splits3 e de (Opq log_mask_ge0 [nth 0 given (Cst 0)]) (Opq log_mask_ge0 [nth 0 given (Cst 0)]) (Opq log_mask_ge0 [nth 0 (map Stop given) (Cst 0)])).
    { apply sp_opq; [reflexivity|]. simpl. now rewrite (proj1 (proj2 (G 0%nat))). }
    auto 12 using sp_ad, sp_sb, sp_mu, sp_ex, sp_sq, sp_sp.
  - auto 12 using sp_sb, sp_dv, sp_lg, sp_ab.
  - auto 12 using sp_ad, sp_sb, sp_mu, sp_lg, sp_sp.
  - assert (T : forall k, In k (seq 0 (length logits)) -> splits3 e de
       (Sb (nth k logits (Cst 0)) (Mu temperature (nth k given (Cst 0))))
       (Sb (Stop (nth k logits (Cst 0))) (Mu (Stop temperature) (nth k given (Cst 0))))
       (Sb (nth k logits (Cst 0)) (Mu temperature (nth k (map Stop given) (Cst 0)))))
      by (intros; auto using sp_sb, sp_mu).
    apply sp_sb; [apply sp_ad; [apply sp_ad|]|apply sp_mu]; auto using sp_mu, sp_lg, sp_lga.
    + now apply sp_tsum.
    + now apply sp_tlse.
  - assert (T : forall k, In k (seq 0 (length logits)) -> splits3 e de
       (Sb (nth k logits (Cst 0)) (Mu temperature (Lg (nth k given (Cst 0)))))
       (Sb (Stop (nth k logits (Cst 0))) (Mu (Stop temperature) (Lg (nth k given (Cst 0)))))
       (Sb (nth k logits (Cst 0)) (Mu temperature (Lg (nth k (map Stop given) (Cst 0))))))
      by (intros; auto using sp_sb, sp_mu, sp_lg).
    apply sp_sb; [apply sp_ad; [apply sp_ad|]|apply sp_mu]; auto using sp_mu, sp_lg, sp_lga.
    + apply sp_tsum. intros k Hk. apply sp_sb; auto using sp_lg.
    + now apply sp_tlse.
  - apply sp_ad; [apply sp_sb; auto; apply sp_dv; auto; apply sp_mu; auto; apply sp_tsum; auto using sp_lg|].
    apply sp_mu; auto.
    apply sp_squares; [|now rewrite !tfsub_length|now rewrite !tfsub_length].
    apply sp_tfsub; auto. intros i. apply sp_sb; auto.
  - apply sp_ad.
    + apply sp_sb; [apply sp_sb|]; auto; apply sp_mu; auto; apply sp_mu; auto; apply sp_tsum; auto using sp_lg.
    + apply sp_mu; auto. apply sp_tsum. intros c _. apply sp_tsum. intros r' _. apply sp_sq.
      apply sp_nth_tfsub; auto. intros c'. apply sp_nth_tfsub; auto. intros r''. apply sp_sb; auto.
Qed.
End Lemmas.
