(** C87: the sigmoid belief network examples. *)
From Coq Require Import List Arith Bool Reals Lra Lia ZArith.
From Coquelicot Require Import Coquelicot.
From Verif Require Import SpecDist ModelDist ModelShape SpecShape ModelVI SpecVI ProofDiscrete PropDiscrete ProofVI PropELBO PropIW PropVimco ProofGrad ModelSBN.
Import ListNotations.
Local Open Scope R_scope.

(** All rows of [n] bits, and all states of the hidden layers. *)
Fixpoint all_bits (n : nat) : list (list R) :=
  match n with O => [[]] | S k => map (cons 0) (all_bits k) ++ map (cons 1) (all_bits k) end.
Definition all_hidden (n : nat) : list hidden :=
  flat_map (fun h1 => flat_map (fun h2 => map (fun h3 => (h1, h2, h3)) (all_bits n)) (all_bits n)) (all_bits n).

Lemma total_flat_map {X Y} (f : Y -> R) (g : X -> list Y) l : total f (flat_map g l) = total (fun x => total f (g x)) l.
Proof. induction l as [|x l IH]; [reflexivity|]. cbn [flat_map total]. now rewrite total_app, IH. Qed.
Lemma total_hidden n f : total f (all_hidden n) = total (fun h1 => total (fun h2 => total (fun h3 => f (h1, h2, h3)) (all_bits n)) (all_bits n)) (all_bits n).
Proof.
  unfold all_hidden. rewrite total_flat_map. apply total_ext. intros h1 _. rewrite total_flat_map. apply total_ext. intros h2 _. now rewrite total_map.
Qed.
Lemma log_bits_cons a l b h : log_bits (a :: l) (b :: h) = bernoulli_lp b a + log_bits l h.
Proof. reflexivity. Qed.
Lemma layer_one l : total (fun h => exp (log_bits l h)) (all_bits (length l)) = 1.
Proof.
  induction l as [|a l IH]; [unfold log_bits; cbn; rewrite exp_0; ring|].
  cbn [length all_bits]. rewrite total_app, !total_map.
  rewrite (total_ext (fun h => exp (log_bits (a :: l) (0 :: h))) (fun h => exp (bernoulli_lp 0 a) * exp (log_bits l h))) by (intros; now rewrite log_bits_cons, exp_plus).
  rewrite (total_ext (fun h => exp (log_bits (a :: l) (1 :: h))) (fun h => exp (bernoulli_lp 1 a) * exp (log_bits l h))) by (intros; now rewrite log_bits_cons, exp_plus).
  rewrite !total_scal, IH, bernoulli_lp_0, bernoulli_lp_1. ring.
Qed.
Lemma dense_length w h : length (dense w h) = length w.
Proof. unfold dense. apply map_length. Qed.
Lemma layer_dense n w h : length w = n -> total (fun b => exp (log_bits (dense w h) b)) (all_bits n) = 1.
Proof. intros <-. rewrite <- (dense_length w h). apply layer_one. Qed.

(** p(x) *)
Definition sbn_prob n w2 w1 wx x : R := evidence (fun h => exp (sbn_log_joint n w2 w1 wx x h)) (all_hidden n).
Lemma all_bits_inhabited n : exists h, In h (all_bits n).
Proof. induction n as [|n [h H]]; [exists []; now left|]. exists (0 :: h). cbn. apply in_or_app. left. now apply in_map. Qed.
Lemma hidden_inhabited n : all_hidden n <> [].
Proof.
  destruct (all_bits_inhabited n) as [h H]. assert (I : In (h, h, h) (all_hidden n)).
  { unfold all_hidden. apply in_flat_map. exists h. split; [exact H|]. apply in_flat_map. exists h. split; [exact H|]. now apply (in_map (fun h3 => (h, h, h3))). }
  intros E. rewrite E in I. contradiction.
Qed.

(** For all weights the model is a distribution over images: positive probabilities that sum to 1. *)
Theorem C87_model : forall n dx w2 w1 wx, length w2 = n -> length w1 = n -> length wx = dx ->
  total (sbn_prob n w2 w1 wx) (all_bits dx) = 1 /\ forall x, 0 < sbn_prob n w2 w1 wx x.
Proof.
  intros n dx w2 w1 wx L2 L1 Lx. split.
  - unfold sbn_prob, evidence. rewrite total_swap, total_hidden.
    rewrite (total_ext _ (fun h1 => total (fun h2 => total (fun h3 => exp (log_bits (repeat 0 n) h3) * (exp (log_bits (dense w2 h3) h2) * exp (log_bits (dense w1 h2) h1))) (all_bits n)) (all_bits n))).
    2:{ intros h1 _. apply total_ext. intros h2 _. apply total_ext. intros h3 _.
        rewrite (total_ext _ (fun x => exp (log_bits (repeat 0 n) h3) * (exp (log_bits (dense w2 h3) h2) * exp (log_bits (dense w1 h2) h1)) * exp (log_bits (dense wx h1) x))).
        - rewrite total_scal, (layer_dense dx) by exact Lx. ring.
        - intros x _. unfold sbn_log_joint. rewrite !exp_plus. ring. }
    rewrite total_swap. rewrite (total_ext _ (fun h2 => total (fun h3 => exp (log_bits (repeat 0 n) h3) * exp (log_bits (dense w2 h3) h2)) (all_bits n))).
    2:{ intros h2 _. rewrite total_swap. apply total_ext. intros h3 _.
        rewrite (total_ext _ (fun h1 => exp (log_bits (repeat 0 n) h3) * exp (log_bits (dense w2 h3) h2) * exp (log_bits (dense w1 h2) h1))) by (intros; ring).
        rewrite total_scal, (layer_dense n) by exact L1. ring. }
    rewrite total_swap. rewrite (total_ext _ (fun h3 => exp (log_bits (repeat 0 n) h3))).
    + pose proof (layer_one (repeat 0 n)) as H. now rewrite repeat_length in H.
    + intros h3 _. rewrite total_scal, (layer_dense n) by exact L2. ring.
  - intros x. unfold sbn_prob, evidence. apply total_pos; [apply hidden_inhabited|]. intros. apply exp_pos.
Qed.
Print Assumptions C87_model.
Example C87_model_case : total (sbn_prob 2 [([1; -2], 3); ([0; 1], 0)] [([1; 1], -1); ([5; 1], 0)] [([2; 2], 1)]) (all_bits 1) = 1.
Proof. apply (C87_model 2 1); reflexivity. Qed.

(** q(h1, h2, h3 | x) *)
Definition q_hidden v1 v2 v3 x h : R := exp (q_h1 v1 x h) * exp (q_h2 v2 h) * exp (q_h3 v3 h).
Lemma proposal_sum n v1 v2 v3 x : length v1 = n -> length v2 = n -> length v3 = n -> total (q_hidden v1 v2 v3 x) (all_hidden n) = 1.
Proof.
  intros L1 L2 L3. rewrite total_hidden. rewrite (total_ext _ (fun h1 => exp (log_bits (dense v1 x) h1))); [now apply layer_dense|].
  intros h1 _. rewrite (total_ext _ (fun h2 => exp (log_bits (dense v1 x) h1) * exp (log_bits (dense v2 h1) h2))).
  - rewrite total_scal, (layer_dense n) by exact L2. ring.
  - intros h2 _. unfold q_hidden, q_h1, q_h2, q_h3. rewrite total_scal, (layer_dense n) by exact L3. ring.
Qed.

(** Weights that move with a parameter: one curve per weight and bias. *)
Definition curves := list (list (R -> R) * (R -> R)).
Definition at_time (t : R) (c : curves) : list (list R * R) := map (fun u => (map (fun f => f t) (fst u), snd u t)) c.
Definition smooth (theta : R) (c : curves) : Prop := forall u, In u c -> (forall f, In f (fst u) -> ex_derive f theta) /\ ex_derive (snd u) theta.

Lemma ex_derive_dot theta fs : (forall f, In f fs -> ex_derive f theta) -> forall h, ex_derive (fun t => dot (map (fun f => f t) fs) h) theta.
Proof.
  intros H. induction fs as [|f fs IH]; intros [|a h]; try (apply (ex_derive_ext (fun _ => 0)); [reflexivity|apply ex_derive_const]).
  apply (ex_derive_ext (fun t => f t * a + dot (map (fun f => f t) fs) h)); [reflexivity|].
  apply (ex_derive_plus (K := R_AbsRing) (V := R_NormedModule) (fun t => f t * a)).
  - apply ex_derive_mult; [apply H; now left|apply ex_derive_const].
  - apply IH. intros; apply H; now right.
Qed.
Lemma bernoulli_lp_form x l : bernoulli_lp x l = l * x - softplus l.
Proof. unfold bernoulli_lp. rewrite xent_softplus. ring. Qed.
Lemma ex_derive_bernoulli x l theta : ex_derive l theta -> ex_derive (fun t => bernoulli_lp x (l t)) theta.
Proof.
  intros H. apply (ex_derive_ext (fun t => l t * x - softplus (l t))); [intros; symmetry; apply bernoulli_lp_form|].
  apply (ex_derive_minus (K := R_AbsRing) (V := R_NormedModule) (fun t => l t * x) (fun t => softplus (l t))).
  - apply ex_derive_mult; [exact H|apply ex_derive_const].
  - apply (ex_derive_comp softplus l); [eexists; apply softplus_derive|exact H].
Qed.
Lemma ex_derive_layer theta c : smooth theta c -> forall h b, ex_derive (fun t => log_bits (dense (at_time t c) h) b) theta.
Proof.
  intros S h. induction c as [|u c IH]; intros [|a b]; try (apply (ex_derive_ext (fun _ => 0)); [reflexivity|apply ex_derive_const]).
  apply (ex_derive_ext (fun t => bernoulli_lp a (dot (map (fun f => f t) (fst u)) h + snd u t) + log_bits (dense (at_time t c) h) b)); [reflexivity|].
  apply (ex_derive_plus (K := R_AbsRing) (V := R_NormedModule)).
  - apply ex_derive_bernoulli. destruct (S u (or_introl eq_refl)) as [S1 S2].
    apply (ex_derive_plus (K := R_AbsRing) (V := R_NormedModule)); [now apply ex_derive_dot|exact S2].
  - apply IH. intros v Hv. apply S. now right.
Qed.

(** A function of parameter and hidden state with its derivative. *)
Definition with_derivative (theta : R) (f : R -> hidden -> R) : quantity := Quantity f (fun h => Derive (fun t => f t h) theta).
Definition proposal_terms theta (v1 v2 v3 : curves) x : list (@quantity hidden) :=
  [with_derivative theta (fun t => q_h1 (at_time t v1) x); with_derivative theta (fun t => q_h2 (at_time t v2)); with_derivative theta (fun t => q_h3 (at_time t v3))].
Definition joint_term theta n (w2 w1 wx : curves) x : @quantity hidden :=
  with_derivative theta (fun t => sbn_log_joint n (at_time t w2) (at_time t w1) (at_time t wx) x).

Lemma proposal_family n theta v1 v2 v3 x : length v1 = n -> length v2 = n -> length v3 = n ->
  smooth theta v1 -> smooth theta v2 -> smooth theta v3 ->
  family (all_hidden n) (fun t => q_hidden (at_time t v1) (at_time t v2) (at_time t v3) x) (proposal_terms theta v1 v2 v3 x) theta.
Proof.
  intros L1 L2 L3 S1 S2 S3. split.
  - intros t h _. unfold q_hidden. repeat apply Rmult_lt_0_compat; apply exp_pos.
  - intros t. apply proposal_sum; unfold at_time; now rewrite map_length.
  - intros t. split; [discriminate|]. intros h _ _. unfold log_q, proposal_terms, with_derivative, q_hidden. cbn [total at_param].
    rewrite <- !exp_plus, ln_exp. ring.
  - intros lq [<-|[<-|[<-|[]]]] h _; apply Derive_correct; destruct h as [[h1 h2] h3]; cbn [at_param with_derivative]; now apply ex_derive_layer.
Qed.
Lemma joint_differentiable n theta w2 w1 wx x : smooth theta w2 -> smooth theta w1 -> smooth theta wx ->
  differentiable theta (all_hidden n) (joint_term theta n w2 w1 wx x).
Proof.
  intros S2 S1 Sx [[h1 h2] h3] _. apply Derive_correct. cbn [at_param joint_term with_derivative]. unfold sbn_log_joint.
  pose proof (ex_derive_layer theta w2 S2 h3 h2) as D2. pose proof (ex_derive_layer theta w1 S1 h2 h1) as D1. pose proof (ex_derive_layer theta wx Sx h1 x) as Dx.
  pose proof (ex_derive_const (K := R_AbsRing) (V := R_NormedModule) (log_bits (repeat 0 n) h3) theta) as D0.
  exact (ex_derive_plus _ _ _ (ex_derive_plus _ _ _ (ex_derive_plus _ _ _ D0 D2) D1) Dx).
Qed.

(** For all weights, images and numbers of particles: the mean of the bound is at most log p(x), which
    is at most 0, and more particles never loosen it. *)
Theorem C87_bound : forall n dx w2 w1 wx v1 v2 v3 x theta, length w2 = n -> length w1 = n -> length wx = dx -> In x (all_bits dx) ->
  length v1 = n -> length v2 = n -> length v3 = n -> smooth theta v1 -> smooth theta v2 -> smooth theta v3 ->
  let bound_of v K := forall hs, length hs = K ->
    iw_objective true (tensor_of theta (joint_term theta n w2 w1 wx x) hs) (entropy_of theta (proposal_terms theta v1 v2 v3 x) hs) = Some (v hs) in
  let q := q_hidden (at_time theta v1) (at_time theta v2) (at_time theta v3) x in
  forall K K' v v', (1 <= K <= K')%nat -> bound_of v K -> bound_of v' K' ->
  expects q (all_hidden n) K (fun hs => val (v hs)) <= expects q (all_hidden n) K' (fun hs => val (v' hs)) <= ln (sbn_prob n (at_time theta w2) (at_time theta w1) (at_time theta wx) x) /\
  ln (sbn_prob n (at_time theta w2) (at_time theta w1) (at_time theta wx) x) <= 0.
Proof.
  intros n dx w2 w1 wx v1 v2 v3 x theta L2 L1 Lx Hx M1 M2 M3 S1 S2 S3 bound_of q K K' v v' HK V V'.
  destruct (proposal_family n theta v1 v2 v3 x M1 M2 M3 S1 S2 S3) as [P S Lq D].
  assert (DQ : distribution q (all_hidden n)) by (split; [intros h Hh; left; now apply (P theta)|apply (S theta)]).
  split; [split|].
  - apply (C35_monotone (all_hidden n) q (joint_term theta n w2 w1 wx x) (proposal_terms theta v1 v2 v3 x) theta K K' v v' DQ ltac:(discriminate) HK V V').
  - unfold sbn_prob. apply (C35_lower_bound (all_hidden n) q (joint_term theta n w2 w1 wx x) (proposal_terms theta v1 v2 v3 x) theta _ K' v' DQ (Lq theta)); [|lia|exact V'].
    intros h _. split; [apply exp_pos|]. symmetry. apply ln_exp.
  - destruct (C87_model n dx (at_time theta w2) (at_time theta w1) (at_time theta wx)) as [T Q]; try (unfold at_time; now rewrite map_length).
    rewrite <- ln_1. apply ln_le; [apply Q|]. rewrite <- T.
    apply in_split in Hx as (l1 & l2 & ->). rewrite total_app. cbn [total].
    assert (0 <= total (sbn_prob n (at_time theta w2) (at_time theta w1) (at_time theta wx)) l1) by (apply total_nonneg; intros; left; apply Q).
    assert (0 <= total (sbn_prob n (at_time theta w2) (at_time theta w1) (at_time theta wx)) l2) by (apply total_nonneg; intros; left; apply Q). lra.
Qed.
Print Assumptions C87_bound.

(** Training with vimco: whatever weights of the model and of q a parameter moves, the mean of the
    gradient is that of the bound. *)
Theorem C87_vimco : forall n w2 w1 wx v1 v2 v3 x theta K s i (log_joint ent : list hidden -> tensor dual),
  length v1 = n -> length v2 = n -> length v3 = n ->
  (forall c, In c [w2; w1; wx; v1; v2; v3] -> smooth theta c) -> (2 <= K)%nat -> hd 0%nat s = K -> (0 < length s)%nat -> valid (drop_axis 0 s) i ->
  (forall hs, length hs = K -> t_shape (log_joint hs) = s /\ t_shape (ent hs) = s /\
     along 0 (log_joint hs) i = tensor_of theta (joint_term theta n w2 w1 wx x) hs /\
     Some (along 0 (ent hs) i) = entropy_of theta (proposal_terms theta v1 v2 v3 x) hs) ->
  exists cost, (forall hs, length hs = K -> exists c, vimco 0 (log_joint hs) (Some (ent hs)) = Some c /\ t_at c i = cost hs) /\
    is_derive (fun t => expects (q_hidden (at_time t v1) (at_time t v2) (at_time t v3) x) (all_hidden n) K (fun hs =>
        ln_mean_exp (map (fun h => sbn_log_joint n (at_time t w2) (at_time t w1) (at_time t wx) x h - ln (q_hidden (at_time t v1) (at_time t v2) (at_time t v3) x h)) hs))) theta
      (- expects (q_hidden (at_time theta v1) (at_time theta v2) (at_time theta v3) x) (all_hidden n) K (fun hs => tan (cost hs))).
Proof.
  intros n w2 w1 wx v1 v2 v3 x theta K s i lj ent M1 M2 M3 S HK Hs HL Hv HT.
  assert (F := proposal_family n theta v1 v2 v3 x M1 M2 M3 ltac:(apply S; cbn; tauto) ltac:(apply S; cbn; tauto) ltac:(apply S; cbn; tauto)).
  assert (D := joint_differentiable n theta w2 w1 wx x ltac:(apply S; cbn; tauto) ltac:(apply S; cbn; tauto) ltac:(apply S; cbn; tauto)).
  destruct (C36_unbiased (all_hidden n) _ _ _ theta K 0 s i lj ent F D HK HL ltac:(destruct s; exact Hs) Hv HT) as (cost & C & E).
  exists cost. split; [exact C|]. eapply is_derive_ext; [|exact E]. intros t. cbn beta. apply expects_ext. intros hs _. f_equal. apply map_ext. intros h.
  unfold log_weight, log_q, proposal_terms, joint_term, with_derivative, q_hidden. cbn [total at_param]. rewrite <- !exp_plus, ln_exp. ring.
Qed.
Print Assumptions C87_vimco.
Example C87_smooth_case : smooth 1 [([fun t => t; fun _ => 3], fun t => t * t)].
Proof.
  intros u [<-|[]]. cbn [fst snd]. split.
  - intros f [<-|[<-|[]]]; [apply ex_derive_id|apply ex_derive_const].
  - apply ex_derive_mult; apply ex_derive_id.
Qed.

Example C87_vimco_case : let c := [([fun t : R => t], fun _ : R => 0)] in
  let log_joint := fun hs => Tensor [2%nat] (fun i => nth (hd 0%nat i) (tensor_of 1 (joint_term 1 1 c c c [1]) hs) (dconst 0)) in
  let ent := fun hs => Tensor [2%nat] (fun i => nth (hd 0%nat i) (match entropy_of 1 (proposal_terms 1 c c c [1]) hs with Some l => l | None => [] end) (dconst 0)) in
  exists cost, forall hs, length hs = 2%nat -> exists d, vimco 0 (log_joint hs) (Some (ent hs)) = Some d /\ t_at d [] = cost hs.
Proof.
  intros c log_joint ent.
  assert (S : smooth 1 c).
  { intros u [<-|[]]. cbn [fst snd]. split; [intros f [<-|[]]; apply ex_derive_id|apply ex_derive_const]. }
  destruct (C87_vimco 1 c c c c c c [1] 1 2 [2%nat] [] log_joint ent) as (cost & H & _); try reflexivity; try (cbn; lia).
  - intros d Hd. assert (d = c) as -> by (cbn in Hd; intuition auto). exact S.
  - unfold valid. cbn. now constructor.
  - intros [|a [|b [|]]] E; try discriminate. repeat split.
  - now exists cost.
Qed.

(** A pixel j/n with draws k/n, k < n, is lit with probability exactly its value; pixels are multiples
    of 1/256 and n is 2^23. *)
Theorem C87_binarize : forall n j, (1 <= n)%nat -> (j <= n)%nat ->
  mean (map (fun u => binarize u (INR j / INR n)) (uniform_draws n)) = INR j / INR n.
Proof.
  intros n j Hn Hj. assert (PN : 0 < INR n) by (apply lt_0_INR; lia). unfold mean, uniform_draws.
  rewrite !map_length, seq_length, !total_map. f_equal.
  replace n with (j + (n - j))%nat at 1 by lia. rewrite seq_app, total_app.
  rewrite (total_ext _ (fun _ => 1)), total_const, seq_length.
  - rewrite (total_zero _ (seq (0 + j) (n - j))); [ring|]. intros k Hk. apply in_seq in Hk. unfold binarize. destruct (Rlt_dec _ _) as [H|H]; [|reflexivity].
    apply Rmult_lt_reg_r in H; [|now apply Rinv_0_lt_compat]. apply INR_lt in H. lia.
  - intros k Hk. apply in_seq in Hk. unfold binarize. destruct (Rlt_dec _ _) as [H|H]; [reflexivity|]. exfalso. apply H.
    apply Rmult_lt_compat_r; [now apply Rinv_0_lt_compat|]. apply lt_INR. lia.
Qed.
Print Assumptions C87_binarize.
Example C87_binarize_case : mean (map (fun u => binarize u (INR 3 / INR 8)) (uniform_draws 8)) = INR 3 / INR 8.
Proof. apply C87_binarize; lia. Qed.
(** With <= instead of <, every pixel below 1 is lit too often by 1/n: black ones are lit at times. *)
Theorem C87_binarize_conv_refuted : forall n j, (1 <= n)%nat -> (j < n)%nat ->
  mean (map (fun u => binarize_conv u (INR j / INR n)) (uniform_draws n)) = INR j / INR n + / INR n.
Proof.
  intros n j Hn Hj. assert (PN : 0 < INR n) by (apply lt_0_INR; lia).
  replace (INR j / INR n + / INR n) with (INR (S j) / INR n) by (rewrite S_INR; field; lra).
  rewrite <- (C87_binarize n (S j)) by lia. f_equal. unfold uniform_draws. rewrite !map_map. apply map_ext_in. intros k Hk. apply in_seq in Hk.
  unfold binarize, binarize_conv. assert (PI : 0 < / INR n) by now apply Rinv_0_lt_compat.
  destruct (le_lt_dec k j) as [L|L].
  - destruct (Rle_dec _ _) as [|N1]; [|exfalso; apply N1; apply Rmult_le_compat_r; [lra|now apply le_INR]].
    destruct (Rlt_dec _ _) as [|N2]; [reflexivity|]. exfalso; apply N2. apply Rmult_lt_compat_r; [exact PI|]. apply lt_INR. lia.
  - destruct (Rle_dec _ _) as [N1|]; [exfalso; apply Rmult_le_reg_r in N1; [|exact PI]; apply INR_le in N1; lia|].
    destruct (Rlt_dec _ _) as [N2|]; [|reflexivity]. exfalso. apply Rmult_lt_reg_r in N2; [|exact PI]. apply INR_lt in N2. lia.
Qed.
Print Assumptions C87_binarize_conv_refuted.
