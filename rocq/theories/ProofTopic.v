(** Lemmas for the training loop of the topic model. *)
From Coq Require Import List Reals Lra Lia Arith Bool Permutation.
From Verif Require Import SpecDist SpecTopic ModelDist ModelExamples ModelTopic ProofDiscrete ProofTrain.
Import ListNotations.
Local Open Scope nat_scope.

Lemma nth_error_skipn {A} (l : list A) a i : nth_error (skipn a l) i = nth_error l (a + i).
Proof. revert l. induction a; intros l; [reflexivity|]. destruct l; [destruct i; reflexivity|]. apply IHa. Qed.
Lemma nth_error_firstn {A} (l : list A) a i : i < a -> nth_error (firstn a l) i = nth_error l i.
Proof.
  revert l i. induction a; intros l i H; [lia|]. destruct l; [reflexivity|]. destruct i; [reflexivity|].
  cbn. apply IHa. lia.
Qed.
Lemma nth_error_slice {A} (l : list A) a b i : i < b - a -> nth_error (slice a b l) i = nth_error l (a + i).
Proof. intros H. unfold slice. rewrite nth_error_firstn by exact H. apply nth_error_skipn. Qed.
Lemma slice_length {A} (l : list A) a b : b <= length l -> length (slice a b l) = b - a.
Proof. intros H. unfold slice. rewrite firstn_length, skipn_length. lia. Qed.

Section loop.
Context {X E S : Type} (dx : X) (de : E).
Variables (sample : S -> list X -> list E -> S * list E) (m_step : S -> list X -> list E -> S)
          (hyper : S -> list E -> S) (num size : nat) (k : S -> nat -> X -> E -> E).
Hypothesis rows : by_rows k sample.
Hypothesis Hs : 0 < size.

Lemma e_step_chain n : forall s xs es, length xs = length es ->
  length (snd (e_step sample n s xs es)) = length es /\
  forall i x e, nth_error xs i = Some x -> nth_error es i = Some e ->
    exists e', nth_error (snd (e_step sample n s xs es)) i = Some e' /\
      forall m e0, chain k x m e0 e -> chain k x (n + m) e0 e'.
Proof.
  induction n; intros s xs es L; cbn [e_step].
  - split; [reflexivity|]. intros i x e Hx He. exists e. auto.
  - destruct (rows s xs es L) as [L1 R1]. destruct (sample s xs es) as [s' es'] eqn:Es. cbn [snd] in *.
    destruct (IHn s' xs es' ltac:(lia)) as [L2 R2]. split; [lia|]. intros i x e Hx He.
    destruct (R2 i x (k s i x e) Hx (R1 i x e Hx He)) as [e' [He' C]]. exists e'. split; [exact He'|].
    intros m e0 H. replace (Datatypes.S n + m) with (n + Datatypes.S m) by lia. apply C. now constructor.
Qed.
Lemma store_length (l new : list E) a b : a <= b -> b <= length l -> length new = b - a -> length (store a b l new) = length l.
Proof. intros. unfold store. rewrite !app_length, firstn_length, skipn_length. lia. Qed.
Lemma store_in (l new : list E) a b j : a <= b -> b <= length l -> length new = b - a -> a <= j < b ->
  nth_error (store a b l new) j = nth_error new (j - a).
Proof.
  intros. unfold store. rewrite nth_error_app2; rewrite firstn_length; [|lia].
  rewrite nth_error_app1 by lia. f_equal. lia.
Qed.
Lemma store_out (l new : list E) a b j : a <= b -> b <= length l -> length new = b - a -> ~ (a <= j < b) ->
  nth_error (store a b l new) j = nth_error l j.
Proof.
  intros. unfold store. destruct (Nat.lt_ge_cases j a).
  - rewrite nth_error_app1 by (rewrite firstn_length; lia). now apply nth_error_firstn.
  - rewrite nth_error_app2; rewrite firstn_length; [|lia]. rewrite nth_error_app2 by lia.
    rewrite nth_error_skipn. f_equal. lia.
Qed.
(** Row [j] after [c j] batches of its own. *)
Definition advanced (Xs : list X) (Eta Eta' : list E) (c : nat -> nat) : Prop :=
  length Eta' = length Eta /\
  forall j x e, nth_error Xs j = Some x -> nth_error Eta j = Some e ->
    exists e', nth_error Eta' j = Some e' /\ forall m e0, chain k x m e0 e -> chain k x (c j + m) e0 e'.
Lemma train_batch_advanced Xs s Eta t : length Xs = length Eta -> (t + 1) * size <= length Eta ->
  advanced Xs Eta (snd (train_batch sample m_step num size Xs (s, Eta) t))
    (fun j => if (t * size <=? j) && (j <? (t + 1) * size) then num else 0).
Proof.
  intros L B. unfold train_batch.
  set (a := t * size). set (b := (t + 1) * size) in *. assert (AB : a <= b) by (unfold a, b; nia).
  assert (Lx : length (slice a b Xs) = length (slice a b Eta)) by (rewrite !slice_length; lia).
  destruct (e_step_chain num s (slice a b Xs) (slice a b Eta) Lx) as [Ln R].
  destruct (e_step sample num s (slice a b Xs) (slice a b Eta)) as [s1 new]. cbn [snd] in *.
  rewrite slice_length in Ln by lia.
  split; [apply store_length; lia|]. intros j x e Hx He.
  destruct (Nat.leb_spec a j), (Nat.ltb_spec j b); cbn [andb].
  - rewrite store_in by lia. apply R; rewrite nth_error_slice by lia.
    + replace (a + (j - a)) with j by lia. exact Hx.
    + replace (a + (j - a)) with j by lia. exact He.
  - exists e. rewrite store_out by lia. auto.
  - exists e. rewrite store_out by lia. auto.
  - exists e. rewrite store_out by lia. auto.
Qed.
Lemma batches_advanced Xs s Eta T : length Xs = length Eta -> T * size <= length Eta ->
  advanced Xs Eta (snd (fold_left (train_batch sample m_step num size Xs) (seq 0 T) (s, Eta)))
    (fun j => if j <? T * size then num else 0).
Proof.
  intros L. induction T; intros B.
  - split; [reflexivity|]. intros j x e Hx He. exists e. auto.
  - rewrite seq_S, fold_left_app. cbn [fold_left Nat.add].
    destruct IHT as [L1 R1]; [nia|].
    destruct (fold_left (train_batch sample m_step num size Xs) (seq 0 T) (s, Eta)) as [s1 Eta1]. cbn [snd] in L1, R1.
    destruct (train_batch_advanced Xs s1 Eta1 T) as [L2 R2]; [lia|nia|].
    split; [lia|]. intros j x e Hx He. destruct (R1 j x e Hx He) as [e1 [He1 C1]].
    destruct (R2 j x e1 Hx He1) as [e2 [He2 C2]]. exists e2. split; [exact He2|]. intros m e0 H.
    specialize (C2 _ _ (C1 m e0 H)).
    destruct (Nat.ltb_spec j (T * size)), (Nat.ltb_spec j (Datatypes.S T * size)),
      (Nat.leb_spec (T * size) j), (Nat.ltb_spec j ((T + 1) * size)); try nia; exact C2.
Qed.
End loop.
