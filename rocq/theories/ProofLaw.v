(** Counting independent categorical draws gives the multinomial law. *)
From Coq Require Import List Reals Arith Lia Lra Bool.
From Verif Require Import ModelDist SpecDist ProofDiscrete SpecLaw.
Import ListNotations.
Local Open Scope R_scope.

Lemma words_length K n w : In w (words K n) -> length w = n.
Proof.
  revert w. induction n as [|n IH]; simpl; intros w.
  - intros [<-|[]]. reflexivity.
  - rewrite in_flat_map. intros (k & _ & H). apply in_map_iff in H. destruct H as (v & <- & H). simpl. f_equal. auto.
Qed.
Lemma words_below K n w k : In w (words K n) -> In k w -> (k < K)%nat.
Proof.
  revert w. induction n as [|n IH]; simpl; intros w.
  - intros [<-|[]] [].
  - rewrite in_flat_map. intros (j & J & H) I. apply in_map_iff in H. destruct H as (v & <- & H).
    destruct I as [<-|I]; [apply in_seq in J; lia|eauto].
Qed.
Lemma chance_ext K n p t t' : (forall w, In w (words K n) -> t w = t' w) -> chance K n p t = chance K n p t'.
Proof. intros H. unfold chance. apply total_ext. intros w I. now rewrite H. Qed.
Lemma chance_law K n p p' t : (forall k, (k < K)%nat -> p k = p' k) -> chance K n p t = chance K n p' t.
Proof.
  intros H. unfold chance. apply total_ext. intros w I. destruct (t w); [|reflexivity].
  assert (B : forall k, In k w -> (k < K)%nat) by (intros; eapply words_below; eassumption). clear I.
  induction w; simpl; [reflexivity|]. rewrite H by (apply B; simpl; auto). rewrite IHw; auto. intros; apply B; simpl; auto.
Qed.
Lemma chance_S K n p t : chance K (S n) p t = total (fun k => p k * chance K n p (fun w => t (k :: w))) (seq 0 K).
Proof.
  unfold chance. simpl words. rewrite total_flat_map. apply total_ext. intros k _. rewrite total_map, <- total_scal.
  apply total_ext. intros w _. simpl. destruct (t (k :: w)); ring.
Qed.
Lemma chance_false K n p : chance K n p (fun _ => false) = 0.
Proof. unfold chance. induction (words K n); simpl; [reflexivity|rewrite IHl; ring]. Qed.

(** Counts of a sequence. *)
Definition tally (K : nat) (w : list nat) : list nat := map (count_occ Nat.eq_dec w) (seq 0 K).
Fixpoint decr (k : nat) (cs : list nat) : list nat :=
  match cs, k with
  | [], _ => []
  | c :: cs', O => pred c :: cs'
  | c :: cs', S k' => c :: decr k' cs'
  end.
Lemma decr_length k cs : length (decr k cs) = length cs.
Proof. revert k; induction cs; intros [|k]; simpl; auto. Qed.
Lemma decr_nth k cs j : nth j (decr k cs) 0%nat = if Nat.eqb j k then pred (nth j cs 0%nat) else nth j cs 0%nat.
Proof.
  revert k j; induction cs as [|c cs IH]; intros k j.
  - assert (E : forall m, nth m (@nil nat) 0%nat = 0%nat) by (intros [|m]; reflexivity).
    assert (D : decr k [] = []) by (destruct k; reflexivity). rewrite D, E. destruct (Nat.eqb j k); reflexivity.
  - destruct k as [|k], j as [|j]; simpl; auto.
Qed.
Lemma decr_sum k cs : (0 < nth k cs 0)%nat -> list_sum cs = S (list_sum (decr k cs)).
Proof.
  revert k; induction cs as [|c cs IH]; intros [|k] H; simpl in *; try lia.
  specialize (IH k H). unfold list_sum in *. lia.
Qed.
Lemma list_nth_eq (a b : list nat) : length a = length b -> (forall j, (j < length a)%nat -> nth j a 0%nat = nth j b 0%nat) -> a = b.
Proof. intros L H. now apply (nth_ext a b 0%nat 0%nat). Qed.
Lemma tally_nth K w j : (j < K)%nat -> nth j (tally K w) 0%nat = count_occ Nat.eq_dec w j.
Proof.
  intros H. unfold tally. rewrite (nth_indep _ 0%nat (count_occ Nat.eq_dec w 0%nat)) by (now rewrite map_length, seq_length).
  rewrite map_nth, seq_nth by assumption. reflexivity.
Qed.
Lemma tally_length K w : length (tally K w) = K.
Proof. unfold tally. now rewrite map_length, seq_length. Qed.
Lemma tally_cons K k w cs : length cs = K -> (k < K)%nat ->
  nats_eqb (tally K (k :: w)) cs = Nat.ltb 0 (nth k cs 0%nat) && nats_eqb (tally K w) (decr k cs).
Proof.
  intros L H. unfold nats_eqb.
  destruct (list_eq_dec Nat.eq_dec (tally K (k :: w)) cs) as [E|E].
  - assert (P : nth k cs 0%nat = S (count_occ Nat.eq_dec w k)).
    { rewrite <- E, tally_nth by assumption. now rewrite count_occ_cons_eq. }
    rewrite P. simpl. destruct (list_eq_dec _ _ _) as [Q|Q]; [reflexivity|]. destruct Q.
    apply list_nth_eq; [now rewrite tally_length, decr_length|]. intros j J. rewrite tally_length in J.
    rewrite tally_nth, decr_nth by assumption. rewrite <- E, tally_nth by assumption.
    destruct (Nat.eqb_spec j k) as [->|N]; [now rewrite count_occ_cons_eq|now rewrite count_occ_cons_neq by congruence].
  - destruct (Nat.ltb_spec 0 (nth k cs 0%nat)) as [P|P]; [|reflexivity]. simpl.
    destruct (list_eq_dec _ _ _) as [Q|Q]; [|reflexivity]. destruct E.
    apply list_nth_eq; [now rewrite tally_length|]. intros j J. rewrite tally_length in J.
    rewrite tally_nth by assumption. assert (Q' := f_equal (fun l => nth j l 0%nat) Q). simpl in Q'.
    rewrite tally_nth, decr_nth in Q' by assumption.
    destruct (Nat.eqb_spec j k) as [->|N]; [rewrite count_occ_cons_eq by reflexivity; lia|now rewrite count_occ_cons_neq by congruence].
Qed.

Fixpoint weight (ps : list R) (cs : list nat) : R :=
  match ps, cs with
  | p :: ps', c :: cs' => p ^ c / INR (fact c) * weight ps' cs'
  | _, _ => 1
  end.
Lemma weight_decr ps cs k : length ps = length cs -> (0 < nth k cs 0)%nat ->
  nth k ps 0 * weight ps (decr k cs) = INR (nth k cs 0%nat) * weight ps cs.
Proof.
  revert ps k. induction cs as [|c cs IH]; intros [|p ps] [|k] L H; simpl in L; try discriminate; simpl in H; try lia.
  - cbn [nth decr weight]. destruct c as [|c]; [lia|]. simpl pred. rewrite <- tech_pow_Rmult.
    change (fact (S c)) with (S c * fact c)%nat. rewrite mult_INR. pose proof (fact_pos c).
    assert (INR (S c) <> 0) by (apply not_0_INR; lia). field. split; [lra|assumption].
  - cbn [nth decr weight]. transitivity (p ^ c / INR (fact c) * (nth k ps 0 * weight ps (decr k cs))); [ring|].
    rewrite IH by (auto; lia). ring.
Qed.
Lemma weight_zero_sum cs ps : length ps = length cs -> list_sum cs = 0%nat -> weight ps cs = 1.
Proof.
  revert ps. induction cs as [|c cs IH]; intros [|p ps] L S; simpl in *; try discriminate; auto.
  assert (c = 0)%nat by lia. assert (list_sum cs = 0)%nat by (unfold list_sum in *; lia). subst. rewrite IH by (auto; lia). simpl. field.
Qed.
Lemma total_nth_sum cs : total (fun k => INR (nth k cs 0%nat)) (seq 0 (length cs)) = INR (list_sum cs).
Proof.
  induction cs as [|c cs IH]; [reflexivity|]. cbn [length]. cbn [seq total]. rewrite <- seq_shift, total_map.
  cbn [nth]. rewrite IH. change (list_sum (c :: cs)) with (c + list_sum cs)%nat. rewrite plus_INR. reflexivity.
Qed.
Lemma chance_tally ps n : forall cs, length ps = length cs -> list_sum cs = n ->
  chance (length ps) n (fun k => nth k ps 0) (fun w => nats_eqb (tally (length ps) w) cs) = INR (fact n) * weight ps cs.
Proof.
  induction n as [|n IH]; intros cs L S.
  - unfold chance. simpl words. cbn [total likelihood]. rewrite weight_zero_sum by assumption.
    unfold nats_eqb. destruct (list_eq_dec _ _ _) as [E|E]; [simpl; ring|]. destruct E.
    apply list_nth_eq; [now rewrite tally_length|]. intros j J. rewrite tally_length in J. rewrite tally_nth by assumption. simpl.
    clear - S L. revert j ps L. induction cs as [|c cs IH]; intros [|j] ps L; simpl in *; try reflexivity; unfold list_sum in *; try lia.
    destruct ps; try discriminate. apply (IH ltac:(lia) j ps). simpl in L. lia.
  - rewrite chance_S.
    rewrite (total_ext _ (fun k => INR (fact n) * weight ps cs * INR (nth k cs 0%nat))).
    + rewrite total_scal. rewrite L, total_nth_sum, S. change (fact (Datatypes.S n)) with (Datatypes.S n * fact n)%nat.
      rewrite mult_INR. ring.
    + intros k K. apply in_seq in K.
      rewrite (chance_ext _ _ _ _ (fun w => Nat.ltb 0 (nth k cs 0%nat) && nats_eqb (tally (length ps) w) (decr k cs))).
      2: { intros w _. apply tally_cons; [auto|lia]. }
      destruct (Nat.ltb_spec 0 (nth k cs 0%nat)) as [P|P].
      * simpl. rewrite IH.
        -- pose proof (weight_decr ps cs k L P) as W.
           transitivity (INR (fact n) * (nth k ps 0 * weight ps (decr k cs))); [ring|]. rewrite W. ring.
        -- now rewrite decr_length.
        -- pose proof (decr_sum k cs P). lia.
      * simpl. rewrite chance_false. assert (nth k cs 0%nat = 0%nat) as -> by lia. simpl. ring.
Qed.
Lemma weight_arrangements ps cs : length ps = length cs ->
  INR (fact (list_sum cs)) * weight ps cs = INR (arrangements cs) * powprod ps cs.
Proof.
  intros L. rewrite <- arrangements_fact, mult_INR. rewrite Rmult_assoc. f_equal.
  revert ps L. induction cs as [|c cs IH]; intros [|p ps] L; simpl in L; try discriminate; [simpl; ring|].
  cbn [map fold_right weight powprod]. rewrite mult_INR. rewrite <- IH by lia. pose proof (fact_pos c). field. lra.
Qed.
Lemma chance_counts ps n cs : length ps = length cs -> list_sum cs = n ->
  chance (length ps) n (fun k => nth k ps 0) (fun w => nats_eqb (tally (length ps) w) cs) = INR (arrangements cs) * powprod ps cs.
Proof. intros L S. rewrite chance_tally by assumption. rewrite <- S. now apply weight_arrangements. Qed.

Lemma count_filter (f : nat -> nat) c n w : length w = n -> (forall e, (e < n)%nat -> f e = nth e w 0%nat) ->
  length (filter (fun e => Nat.eqb (f e) c) (seq 0 n)) = count_occ Nat.eq_dec w c.
Proof.
  intros L. subst n. revert f. induction w as [|k w IH]; intros f H; [reflexivity|].
  cbn [length]. cbn [seq filter]. rewrite (H 0%nat) by (simpl; lia). cbn [nth].
  assert (E : length (filter (fun e => Nat.eqb (f e) c) (seq 1 (length w))) = count_occ Nat.eq_dec w c).
  { rewrite <- seq_shift. rewrite <- (IH (fun e => f (S e))).
    - generalize (seq 0 (length w)). intros l. induction l; simpl; [reflexivity|]. destruct (Nat.eqb (f (S a)) c); simpl; auto.
    - intros e He. rewrite (H (S e)) by (simpl; lia). reflexivity. }
  simpl. destruct (Nat.eqb_spec k c) as [->|N].
  - simpl. destruct (Nat.eq_dec c c); [|congruence]. now rewrite E.
  - destruct (Nat.eq_dec k c); [congruence|]. exact E.
Qed.
Lemma sum_ones w : (forall k, In k w -> (k < 2)%nat) -> list_sum w = count_occ Nat.eq_dec w 1%nat.
Proof.
  induction w as [|k w IH]; intros H; [reflexivity|].
  assert (E : list_sum w = count_occ Nat.eq_dec w 1%nat) by (apply IH; intros; apply H; simpl; auto).
  assert (k < 2)%nat by (apply H; simpl; auto). change (list_sum (k :: w)) with (k + list_sum w)%nat. rewrite E.
  destruct k as [|[|k]]; [| |lia]; reflexivity.
Qed.
Lemma zeros_ones w : (forall k, In k w -> (k < 2)%nat) -> (count_occ Nat.eq_dec w 0%nat + count_occ Nat.eq_dec w 1%nat = length w)%nat.
Proof.
  induction w as [|k w IH]; intros H; [reflexivity|].
  assert (E := IH ltac:(intros; apply H; simpl; auto)).
  assert (k < 2)%nat by (apply H; simpl; auto).
  destruct k as [|[|k]]; [| |lia]; simpl; lia.
Qed.
