(** C46: the deprecated distributions. *)
From Coq Require Import Reals Lra List ZArith Lia Arith.
From Verif Require Import ModelExt ModelShape ModelTensor SpecShape ProofShape ProofTensor ModelSpecial.
Import ListNotations.
Local Open Scope R_scope.

Theorem C46_empirical_rejects {A} n (given : tensor A) :
  @empirical_sample A n = ValueError /\ empirical_log_prob given = ValueError /\ empirical_prob given = ValueError.
Proof. easy. Qed.
Print Assumptions C46_empirical_rejects.

(** Sampling an implicit distribution returns the stored samples, whatever they are; a
    number of samples other than the Python int 1 is rejected, a Tensor always. *)
Theorem C46_sample {V} (samples : tensor V) :
  (exists t, implicit_sample samples NoSamples = Answer t /\ t_shape t = t_shape samples /\ forall i, t_at t i = t_at samples i) /\
  (exists t, implicit_sample samples (IntSamples 1) = Answer t /\ t_shape t = 1%nat :: t_shape samples /\ forall i, t_at t (0%nat :: i) = t_at samples i) /\
  (forall n, n <> 1%Z -> implicit_sample samples (IntSamples n) = ValueError) /\
  (forall n, implicit_sample samples (TensorSamples n) = ValueError).
Proof.
  split; [eexists; split; [reflexivity|easy]|]. split; [eexists; split; [reflexivity|easy]|].
  split; [|easy]. intros n H. cbn. unfold implicit_draw. destruct (Z.eqb_spec n 1); [easy|reflexivity].
Qed.
Print Assumptions C46_sample.

Section Implicit.
Context {V : Type} (eqb : V -> V -> bool) (samples given : tensor V).
Hypothesis same : t_shape given = t_shape samples.

Lemma ungrouped continuous : exists p, implicit_prob eqb samples continuous 0 given = Answer p /\
  t_shape p = t_shape samples /\ forall i, valid (t_shape samples) i ->
    t_at p i = implicit_prob1 eqb continuous (t_at given i) (t_at samples i).
Proof.
  unfold implicit_prob, elementwise. rewrite same, bshape_refl. unfold reduce_last. cbn [t_shape Nat.leb of_op].
  rewrite Nat.sub_0_r. eexists. split; [reflexivity|]. cbn [t_shape t_at]. split; [apply firstn_all|].
  intros i Vi. rewrite skipn_all. cbn [big]. rewrite app_nil_r. now rewrite bindex_self.
Qed.

(** Discrete values: probability one for the stored sample, zero for anything else,
    and the log probability to match. *)
Theorem C46_discrete : exists p l,
  implicit_prob eqb samples false 0 given = Answer p /\ implicit_log_prob eqb samples false 0 given = Answer l /\
  t_shape p = t_shape samples /\ t_shape l = t_shape samples /\
  forall i, valid (t_shape samples) i ->
    if eqb (t_at given i) (t_at samples i) then t_at p i = Fi 1 /\ t_at l i = Fi 0 else t_at p i = Fi 0 /\ t_at l i = MInf.
Proof.
  destruct (ungrouped false) as [p [Ep [Sp Ap]]]. exists p. unfold implicit_log_prob. rewrite Ep.
  unfold reduce_last. cbn [t_shape Nat.leb of_op]. rewrite Nat.sub_0_r. eexists. split; [reflexivity|]. split; [reflexivity|].
  split; [easy|]. cbn [t_shape t_at]. split; [now rewrite firstn_all|]. intros i Vi.
  rewrite skipn_all. cbn [big]. rewrite app_nil_r, (Ap i Vi). unfold implicit_prob1.
  destruct (eqb (t_at given i) (t_at samples i)); (split; [easy|]); cbn.
  - destruct (Rlt_dec 0 1) as [_|N]; [now rewrite ln_1|lra].
  - destruct (Rlt_dec 0 0) as [N|_]; [lra|]. now destruct (Req_EM_T 0 0).
Qed.

Lemma plus_inf : emul (esub (emul (Fi 2) (Fi 1)) (Fi 1)) PInf = PInf.
Proof. cbn. destruct (Rlt_dec 0 (2 * 1 + - (1))) as [|N]; [easy|lra]. Qed.
Lemma minus_inf : emul (esub (emul (Fi 2) (Fi 0)) (Fi 1)) PInf = MInf.
Proof. cbn. destruct (Rlt_dec 0 (2 * 0 + - (1))) as [N|_]; [lra|]. destruct (Rlt_dec (2 * 0 + - (1)) 0) as [|N]; [easy|lra]. Qed.

(** Continuous values: at the stored sample the density is +inf, but at every other
    value it is -inf, and its logarithm NaN: a density is never negative, and the value
    cannot be used in a sum of log probabilities. *)
Theorem C46_continuous_refuted : exists p l,
  implicit_prob eqb samples true 0 given = Answer p /\ implicit_log_prob eqb samples true 0 given = Answer l /\
  forall i, valid (t_shape samples) i ->
    if eqb (t_at given i) (t_at samples i) then t_at p i = PInf /\ t_at l i = PInf else t_at p i = MInf /\ t_at l i = NaN.
Proof.
  destruct (ungrouped true) as [p [Ep [Sp Ap]]]. exists p. unfold implicit_log_prob. rewrite Ep.
  unfold reduce_last. cbn [t_shape Nat.leb of_op]. rewrite Nat.sub_0_r. eexists. split; [reflexivity|]. split; [reflexivity|].
  cbn [t_shape t_at]. intros i Vi.
  rewrite skipn_all. cbn [big]. rewrite app_nil_r, (Ap i Vi). unfold implicit_prob1.
  destruct (eqb (t_at given i) (t_at samples i)); rewrite ?plus_inf, ?minus_inf; easy.
Qed.
End Implicit.
Print Assumptions C46_discrete.
Print Assumptions C46_continuous_refuted.

(** Grouped continuous vectors: the product of the factors is +inf whenever an even
    number of coordinates differ from the stored sample, so a wrong value can get the
    density of the right one. *)
Definition mismatches {V} (eqb : V -> V -> bool) (a b : nat -> V) (d : nat) : nat :=
  length (filter (fun k => negb (eqb (a k) (b k))) (seq 0 d)).
Theorem C46_grouped_refuted {V} (eqb : V -> V -> bool) (a b : nat -> V) d : (0 < d)%nat ->
  exists p, implicit_prob eqb (Tensor [d] (fun i => b (hd 0%nat i))) true 1 (Tensor [d] (fun i => a (hd 0%nat i))) = Answer p /\
  t_shape p = [] /\ t_at p [] = if Nat.even (mismatches eqb a b d) then PInf else MInf.
Proof.
  intros D. unfold implicit_prob, elementwise. cbn [t_shape]. rewrite bshape_refl. unfold reduce_last. cbn [t_shape length Nat.leb of_op Nat.sub].
  eexists. split; [reflexivity|]. cbn [t_shape t_at firstn skipn app]. split; [easy|].
  assert (G : forall l, (forall k, In k l -> (k < d)%nat) -> l <> [] ->
    fold_right (fun i acc => emul (big emul (Fi 1) [] (fun j => implicit_prob1 eqb true (a (hd 0%nat (bindex [d] (i :: j)))) (b (hd 0%nat (bindex [d] (i :: j)))))) acc) (Fi 1) l
    = if Nat.even (length (filter (fun k => negb (eqb (a k) (b k))) l)) then PInf else MInf).
  { induction l as [|k l IH]; intros Hk Hn; [easy|]. cbn [fold_right big filter].
    assert (Ek : hd 0%nat (bindex [d] [k]) = k).
    { rewrite bindex_self; [easy|]. split; [easy|]. intros [|j] Hj; [|cbn in Hj; lia]. cbn. apply Hk. now left. }
    rewrite Ek.
    assert (L : fold_right (fun i acc => emul (big emul (Fi 1) [] (fun j => implicit_prob1 eqb true (a (hd 0%nat (bindex [d] (i :: j)))) (b (hd 0%nat (bindex [d] (i :: j)))))) acc) (Fi 1) l
      = if Nat.even (length (filter (fun k => negb (eqb (a k) (b k))) l)) then match l with [] => Fi 1 | _ => PInf end else MInf).
    { destruct l as [|k' l']; [easy|]. apply IH; [|easy]. intros j Hj. apply Hk. now right. }
    cbn [big] in L. rewrite L. unfold implicit_prob1. cbn [negb].
    destruct (eqb (a k) (b k)); rewrite ?plus_inf, ?minus_inf; cbn [negb length].
    - destruct (Nat.even _), l; cbn; try easy; destruct (Rlt_dec 0 1); try easy; lra.
    - rewrite Nat.even_succ, <- Nat.negb_even. destruct (Nat.even _) eqn:Ev, l; cbn; try easy; destruct (Rlt_dec 0 1); try easy; try lra; discriminate. }
  cbn [big]. apply G; [|destruct d; easy]. intros k Hk. apply in_seq in Hk. lia.
Qed.
Print Assumptions C46_grouped_refuted.
Example C46_two_wrong : Nat.even (mismatches Nat.eqb (fun k => k) (fun k => S k) 2) = true.
Proof. easy. Qed.

(** The log density reduces the grouped axes twice: its rank is 2 group_ndims less than
    that of the values instead of group_ndims less, and it fails when there are not
    that many axes. *)
Theorem C46_log_prob_rank_refuted {V} (eqb : V -> V -> bool) (samples given : tensor V) continuous g :
  t_shape given = t_shape samples ->
  match implicit_log_prob eqb samples continuous g given with
  | Answer l => (2 * g <= length (t_shape samples))%nat /\ length (t_shape l) = (length (t_shape samples) - 2 * g)%nat
  | ValueError => False
  | OpError => (length (t_shape samples) < 2 * g)%nat
  end.
Proof.
  intros E. unfold implicit_log_prob, implicit_prob, elementwise. rewrite E, bshape_refl. unfold reduce_last at 1. cbn [t_shape].
  destruct (Nat.leb_spec g (length (t_shape samples))) as [L|L]; cbn [of_op]; [|lia].
  unfold reduce_last. cbn [t_shape]. rewrite firstn_length.
  destruct (Nat.leb_spec g (Nat.min (length (t_shape samples) - g) (length (t_shape samples)))) as [M|M]; cbn [of_op t_shape]; [|lia].
  rewrite firstn_length, firstn_length. lia.
Qed.
Print Assumptions C46_log_prob_rank_refuted.
(** What comes out of that second reduction for a batch of grouped discrete events: the
    log probability of the whole batch, 0 when every event is the stored one and
    -infinity as soon as one of them is not - a single number for the batch. *)
Theorem C46_log_prob_collapses {V} (eqb : V -> V -> bool) (samples given : tensor V) n d :
  t_shape samples = [n; d] -> t_shape given = [n; d] ->
  exists l, implicit_log_prob eqb samples false 1 given = Answer l /\ t_shape l = [] /\
    ((forall i k, (i < n)%nat -> (k < d)%nat -> eqb (t_at given [i; k]) (t_at samples [i; k]) = true) -> t_at l [] = Fi 0) /\
    ((exists i k, (i < n)%nat /\ (k < d)%nat /\ eqb (t_at given [i; k]) (t_at samples [i; k]) = false) -> t_at l [] = MInf).
Proof.
  intros Es Eg. unfold implicit_log_prob, implicit_prob, elementwise. rewrite Es, Eg, bshape_refl. cbn -[seq bindex implicit_prob1 elog].
  eexists. split; [reflexivity|]. cbn -[seq bindex implicit_prob1 elog]. split; [easy|].
  assert (P : forall i, (i < n)%nat -> forall ks, (forall k, In k ks -> (k < d)%nat) ->
      let q := fold_right (fun k acc => emul (implicit_prob1 eqb false (t_at given (bindex [n; d] [i; k])) (t_at samples (bindex [n; d] [i; k]))) acc) (Fi 1) ks in
      q = if forallb (fun k => eqb (t_at given [i; k]) (t_at samples [i; k])) ks then Fi 1 else Fi 0).
  { intros i Hi ks H. induction ks as [|k ks IH]; cbn -[bindex implicit_prob1]; [easy|].
    cbn zeta in IH. rewrite IH by (intros; apply H; now right). rewrite bindex_self
      by (split; [easy|]; intros [|[|?]] Q; cbn in *; [apply H; now left|easy|lia]).
    unfold implicit_prob1. destruct (eqb _ _); destruct (forallb _ _); cbn; f_equal; lra. }
  assert (L0 : elog (Fi 0) = MInf) by (cbn; destruct (Rlt_dec 0 0) as [N|_]; [lra|]; now destruct (Req_EM_T 0 0)).
  assert (L1 : elog (Fi 1) = Fi 0) by (cbn; destruct (Rlt_dec 0 1) as [_|N]; [now rewrite ln_1|lra]).
  assert (Q : forall is, (forall i, In i is -> (i < n)%nat) ->
      fold_right (fun i acc => eadd (elog (fold_right (fun k acc => emul (implicit_prob1 eqb false (t_at given (bindex [n; d] [i; k])) (t_at samples (bindex [n; d] [i; k]))) acc) (Fi 1) (seq 0 d))) acc) (Fi 0) is
      = if forallb (fun i => forallb (fun k => eqb (t_at given [i; k]) (t_at samples [i; k])) (seq 0 d)) is then Fi 0 else MInf).
  { intros is H. induction is as [|i is IH]; cbn -[seq bindex implicit_prob1 elog]; [easy|].
    rewrite IH by (intros; apply H; now right). rewrite P; [|apply H; now left|intros k Hk; apply in_seq in Hk; lia].
    destruct (forallb _ (seq 0 d)); rewrite ?L0, ?L1; destruct (forallb _ is); cbn; try easy; f_equal; lra. }
  rewrite Q by (intros i Hi; apply in_seq in Hi; lia). split.
  - intros A. rewrite (proj2 (forallb_forall _ _)); [easy|]. intros i Hi. apply in_seq in Hi. apply forallb_forall.
    intros k Hk. apply in_seq in Hk. apply A; lia.
  - intros (i & k & Hi & Hk & E). destruct (forallb _ (seq 0 n)) eqn:F; [|easy]. exfalso.
    rewrite forallb_forall in F. specialize (F i ltac:(apply in_seq; lia)). rewrite forallb_forall in F.
    specialize (F k ltac:(apply in_seq; lia)). congruence.
Qed.
Print Assumptions C46_log_prob_collapses.
Example C46_collapse_case : exists l, (* two events, the second one wrong *)
  implicit_log_prob Nat.eqb (Tensor [2%nat; 1%nat] (fun i => hd 0%nat i)) false 1 (Tensor [2%nat; 1%nat] (fun _ => 0%nat)) = Answer l /\ t_at l [] = MInf.
Proof.
  destruct (C46_log_prob_collapses Nat.eqb (Tensor [2%nat; 1%nat] (fun i => hd 0%nat i)) (Tensor [2%nat; 1%nat] (fun _ => 0%nat)) 2 1) as (l & E & _ & _ & M); [easy|easy|].
  exists l. split; [exact E|]. apply M. exists 1%nat, 0%nat. repeat split; lia.
Qed.
Example C46_rank_case : (* a batch of vectors grouped into events has no log density *)
  implicit_log_prob Nat.eqb (Tensor [3%nat] (fun i => hd 0%nat i)) true 1 (Tensor [3%nat] (fun i => hd 0%nat i)) = OpError.
Proof. reflexivity. Qed.
