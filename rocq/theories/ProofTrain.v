(** Lemmas on orders of a list. *)
From Coq Require Import List Reals Lra Lia Arith Permutation.
From Verif Require Import SpecDist SpecTrain ModelExamples ModelTrain ProofDiscrete.
Import ListNotations.
Local Open Scope R_scope.

Lemma total_const {X} c (l : list X) : total (fun _ => c) l = INR (length l) * c.
Proof. induction l as [|x l IH]; [cbn; lra|]. cbn [total length]. rewrite IH, S_INR. ring. Qed.
Lemma total_swap {X Y} (f : X -> Y -> R) l m : total (fun x => total (f x) m) l = total (fun y => total (fun x => f x y) l) m.
Proof.
  induction l as [|x l IH]; cbn [total].
  - rewrite total_const. lra.
  - rewrite IH. symmetry. apply total_plus.
Qed.

Section arrangements.
Context {A : Type} (d : A) (f : A -> R).
Fixpoint inserts (a : A) (l : list A) : list (list A) :=
  match l with [] => [[a]] | b :: l' => (a :: l) :: map (cons b) (inserts a l') end.
Fixpoint arrangements (l : list A) : list (list A) :=
  match l with [] => [[]] | a :: l' => flat_map (inserts a) (arrangements l') end.
Lemma inserts_length a l : length (inserts a l) = S (length l).
Proof. induction l; cbn; [reflexivity|]. now rewrite map_length, IHl. Qed.
Lemma inserts_Add a l p : In p (inserts a l) <-> Add a l p.
Proof.
  revert p. induction l as [|b l IH]; intros p; cbn [inserts In].
  - split; [intros [<-|[]]; constructor|]. intros H. inversion H. now left.
  - split.
    + intros [<-|H]; [constructor|]. apply in_map_iff in H. destruct H as [q [<- H]]. constructor. now apply IH.
    + intros H. inversion H as [|x l1 l2 H']; subst; [now left|]. right. apply in_map. now apply IH.
Qed.
Lemma arrangements_spec l p : In p (arrangements l) <-> Permutation p l.
Proof.
  revert p. induction l as [|a l IH]; intros p; cbn [arrangements].
  - split; [intros [<-|[]]; constructor|]. intros H. apply Permutation_sym, Permutation_nil in H. now left.
  - rewrite in_flat_map. split.
    + intros [q [Hq Hp]]. apply IH in Hq. apply inserts_Add, Permutation_Add in Hp.
      rewrite <- Hp. now constructor.
    + intros H. assert (In a p) as Ha by (apply (Permutation_in a (Permutation_sym H)); now left).
      destruct (Add_inv a p Ha) as [q Hq]. exists q. split; [|now apply inserts_Add].
      apply IH. apply (Permutation_cons_inv (a := a)). rewrite (Permutation_Add Hq). exact H.
Qed.
Lemma arrangements_length l : length (arrangements l) = fact (length l).
Proof.
  induction l as [|a l IH]; [reflexivity|]. cbn [arrangements length fact].
  assert (H : forall ps, (forall p, In p ps -> Permutation p l) ->
    length (flat_map (inserts a) ps) = (length ps * S (length l))%nat).
  { induction ps as [|p ps IHp]; intros H; [reflexivity|]. cbn [flat_map length].
    rewrite app_length, inserts_length, IHp by (intros; apply H; now right).
    rewrite (Permutation_length (H p (or_introl eq_refl))). lia. }
  rewrite H by (intros p Hp; now apply arrangements_spec). rewrite IH. lia.
Qed.
Lemma inserts_total a l j : (j <= length l)%nat ->
  total (fun p => f (nth j p d)) (inserts a l) =
  f a + INR j * f (nth (j - 1) l d) + INR (length l - j) * f (nth j l d).
Proof.
  revert j. induction l as [|b l IH]; intros j Hj; cbn [inserts length] in *.
  - replace j with 0%nat by lia. cbn. lra.
  - cbn [total]. rewrite total_map. destruct j as [|j].
    + cbn [nth]. rewrite total_const, inserts_length, Nat.sub_0_r. cbn [INR]. lra.
    + cbn [nth]. rewrite IH by lia. replace (S j - 1)%nat with j by lia. replace (S (length l) - S j)%nat with (length l - j)%nat by lia.
      rewrite S_INR. destruct j as [|j].
      * cbn [nth INR]. lra.
      * cbn [nth]. replace (S j - 1)%nat with j by lia. lra.
Qed.
(** In a uniformly chosen order every element is equally often at position [j]. *)
Lemma arrangements_total l : forall j, (j < length l)%nat ->
  total (fun p => f (nth j p d)) (arrangements l) = INR (fact (length l - 1)) * total f l.
Proof.
  induction l as [|a l IH]; intros j Hj; cbn [length] in *; [lia|]. cbn [arrangements total].
  rewrite total_flat_map.
  rewrite (total_ext _ (fun p => f a + (INR j * f (nth (j - 1) p d) + INR (length l - j) * f (nth j p d)))).
  2: { intros p Hp. apply arrangements_spec, Permutation_length in Hp.
       rewrite inserts_total by lia. rewrite Hp. ring. }
  rewrite total_plus, total_const, arrangements_length, total_plus, !total_scal.
  replace (S (length l) - 1)%nat with (length l) by lia.
  assert (E : INR j * total (fun p => f (nth (j - 1) p d)) (arrangements l) +
     INR (length l - j) * total (fun p => f (nth j p d)) (arrangements l) =
     INR (length l) * (INR (fact (length l - 1)) * total f l)).
  { destruct j as [|j].
    - cbn [INR]. rewrite Nat.sub_0_r. destruct l as [|b l]; [cbn; lra|].
      rewrite (IH 0%nat) by (cbn; lia). lra.
    - rewrite (IH (S j - 1)%nat) by lia. destruct (Nat.eq_dec (S j) (length l)) as [E|N].
      + rewrite <- E, Nat.sub_diag. cbn [INR]. lra.
      + rewrite (IH (S j)) by lia. rewrite <- Rmult_plus_distr_r. rewrite <- plus_INR.
        replace (S j + (length l - S j))%nat with (length l) by lia. reflexivity. }
  rewrite E. destruct l as [|b l]; [cbn; lra|].
  cbn [length]. replace (S (length l) - 1)%nat with (length l) by lia.
  rewrite fact_simpl, mult_INR. ring.
Qed.
End arrangements.

Lemma inserts_NoDup a l : ~ In a l -> NoDup (inserts (A := nat) a l).
Proof.
  induction l as [|b l IH]; intros H; cbn [inserts].
  - constructor; [intros []|constructor].
  - constructor.
    + rewrite in_map_iff. intros [q [E _]]. injection E as E _. apply H. now left.
    + apply FinFun.Injective_map_NoDup; [intros ? ? E; now injection E|]. apply IH. intros K. apply H. now right.
Qed.
Lemma Add_remove a l p : ~ In a l -> Add a l p -> remove Nat.eq_dec a p = l.
Proof.
  intros N H. induction H as [l|b l p H IH]; cbn [remove].
  - destruct (Nat.eq_dec a a); [|congruence]. now apply notin_remove.
  - destruct (Nat.eq_dec a b) as [->|]; [exfalso; apply N; now left|]. f_equal. apply IH. intros K. apply N. now right.
Qed.
Lemma arrangements_NoDup l : NoDup l -> NoDup (arrangements (A := nat) l).
Proof.
  induction l as [|a l IH]; intros H; cbn [arrangements].
  - constructor; [intros []|constructor].
  - inversion H as [|? ? Na Nl]; subst. specialize (IH Nl).
    assert (P : forall p, In p (arrangements l) -> ~ In a p).
    { intros p Hp K. apply Na. apply arrangements_spec in Hp. now apply (Permutation_in a Hp). }
    revert IH P. induction (arrangements l) as [|p ps IHp]; intros ND P; cbn [flat_map]; [constructor|].
    inversion ND as [|? ? Np NDp]; subst.
    assert (Q : forall q, In q (inserts a p) -> In q (flat_map (inserts a) ps) -> False).
    { intros q H1 H2. apply in_flat_map in H2. destruct H2 as [r [Hr H2]].
      apply inserts_Add in H1, H2. apply Add_remove in H1; [|apply P; now left].
      apply Add_remove in H2; [|apply P; now right]. subst. congruence. }
    assert (I1 := inserts_NoDup a p (P p (or_introl eq_refl))).
    assert (I2 := IHp NDp (fun q Hq => P q (or_intror Hq))). clear - Q I1 I2.
    induction (inserts a p) as [|x xs IHx]; cbn [app]; [exact I2|].
    inversion I1; subst. constructor.
    + rewrite in_app_iff. intros [K|K]; [contradiction|]. apply (Q x); [now left|exact K].
    + apply IHx; [intros q K1 K2; apply (Q q); [now right|exact K2]|assumption].
Qed.
Lemma orders_arrangements n os : all_orders n os -> Permutation os (arrangements (seq 0 n)).
Proof.
  intros [N H]. apply NoDup_Permutation; [exact N|apply arrangements_NoDup, seq_NoDup|].
  intros o. rewrite H. symmetry. apply arrangements_spec.
Qed.
Lemma all_orders_exist n : all_orders n (arrangements (seq 0 n)).
Proof. split; [apply arrangements_NoDup, seq_NoDup|apply arrangements_spec]. Qed.

Lemma slice_nth {A} (d : A) a b l :
  slice a b l = map (fun j => nth j l d) (seq a (Nat.min (b - a) (length l - a))).
Proof.
  unfold slice. generalize (b - a)%nat. clear b. revert a. induction l as [|x l IH]; intros a k.
  - rewrite skipn_nil, firstn_nil. cbn [length]. rewrite Nat.min_0_r. reflexivity.
  - destruct a as [|a].
    + cbn [skipn length]. rewrite Nat.sub_0_r. destruct k as [|k]; [reflexivity|]. cbn [firstn Nat.min].
      specialize (IH 0%nat k). rewrite Nat.sub_0_r in IH. cbn [skipn] in IH. rewrite IH. cbn [seq map nth]. f_equal.
      rewrite <- seq_shift, map_map. reflexivity.
    + cbn [skipn length]. rewrite IH. replace (S (length l) - S a)%nat with (length l - a)%nat by lia.
      rewrite <- seq_shift, map_map. reflexivity.
Qed.
Lemma rows_at_perm {A} (d : A) data o : Permutation o (seq 0 (length data)) -> Permutation (rows_at d data o) data.
Proof.
  intros H. unfold rows_at. rewrite H. clear.
  assert (E : map (fun i => nth i data d) (seq 0 (length data)) = data).
  { induction data as [|x l IH]; [reflexivity|]. cbn [length seq map nth]. f_equal.
    rewrite <- seq_shift, map_map. exact IH. }
  now rewrite E.
Qed.
