(** Files that are always prefixes of what they should be. *)
From Coq Require Import List Arith Lia.
From Verif Require Import ModelCache SpecCache.
Import ListNotations.

Lemma put_same s p c : put s p c p = c.
Proof. unfold put. destruct (path_eq p p); congruence. Qed.
Lemma put_other s p c q : q <> p -> put s p c q = s q.
Proof. unfold put. destruct (path_eq q p); congruence. Qed.
Lemma prefix_refl b : prefix b b.
Proof. exists (length b). now rewrite firstn_all. Qed.
Lemma prefix_trans a b c : prefix a b -> prefix b c -> prefix a c.
Proof. intros (n & ->) (m & ->). exists (Nat.min n m). apply firstn_firstn. Qed.
Lemma prefix_firstn n b : prefix (firstn n b) b.
Proof. now exists n. Qed.
Lemma prefix_cases b c : prefix b c -> b = c \/ exists n, n < length c /\ b = firstn n c.
Proof. intros (n & ->). destruct (Nat.lt_ge_cases n (length c)); [right; now exists n|left; now apply firstn_all2]. Qed.
Lemma rejects_cut_prefix {A} (parse : bytes -> option A) whole data b d : rejects_cut parse whole data -> prefix b whole -> parse b = Some d -> b = whole /\ d = data.
Proof. intros (E & R) P Q. destruct (prefix_cases _ _ P) as [->|(n & L & ->)]; [rewrite E in Q; injection Q as <-; now split|rewrite (R n L) in Q; discriminate]. Qed.

Section Honest.
Variable truth : path -> bytes.
Definition good (s : files) : Prop := forall p b, s p = Some b -> prefix b (truth p).
(** Writes only what belongs there, if it reads only that, and returns only what satisfies Q. *)
Fixpoint honest {A} (Q : A -> Prop) (m : prog A) : Prop :=
  match m with
  | Return a => Q a
  | Raise => True
  | IsFile p k => forall here, honest Q (k here)
  | Write p b k => prefix b (truth p) /\ honest Q k
  | Remove p k => honest Q k
  | Read p k => forall b, prefix b (truth p) -> honest Q (k b)
  end.
Lemma good_put s p b : good s -> prefix b (truth p) -> good (put s p (Some b)).
Proof. intros G P q c. unfold put. destruct (path_eq q p) as [->|]; [intros [= <-]; exact P|apply G]. Qed.
Lemma good_none s p : good s -> good (put s p None).
Proof. intros G q c. unfold put. destruct (path_eq q p); [discriminate|apply G]. Qed.
Lemma honest_run {A} (Q : A -> Prop) m : forall n s, good s -> honest Q m -> good (fst (run n s m)) /\ forall a, snd (run n s m) = Returned a -> Q a.
Proof.
  induction m as [a| |p k IH|p b k IH|p k IH|p k IH]; intros n s G H; cbn [run honest] in *.
  - split; [exact G|]. cbn. now intros b [= <-].
  - split; [exact G|discriminate].
  - destruct n as [|n]; [split; [exact G|discriminate]|]. now apply IH.
  - destruct H as (P & H). destruct n as [|n]; [split; [exact G|discriminate]|]. destruct (Nat.ltb n (length b)).
    + split; [|discriminate]. cbn [fst]. apply good_put; [exact G|]. eapply prefix_trans; [apply prefix_firstn|exact P].
    + apply IH; [now apply good_put|exact H].
  - destruct n as [|n]; [split; [exact G|discriminate]|]. destruct (s p); [|split; [exact G|discriminate]]. apply IH; [now apply good_none|exact H].
  - destruct n as [|n]; [split; [exact G|discriminate]|]. destruct (s p) as [b|] eqn:E; [|split; [exact G|discriminate]]. apply IH; [exact G|]. apply H. now apply G.
Qed.
Lemma honest_after history s : good s -> (forall j, In j history -> honest (fun _ => True) (program j)) -> good (after history s).
Proof.
  revert s. induction history as [|j rest IH]; intros s G H; [exact G|]. cbn [after]. apply IH; [|intros; apply H; now right]. apply (honest_run (fun _ => True)); [exact G|]. apply H. now left.
Qed.
Lemma honest_weaken {A} (Q R : A -> Prop) m : (forall a, Q a -> R a) -> honest Q m -> honest R m.
Proof. intros I. induction m as [a| |p k IH|p b k IH|p k IH|p k IH]; cbn; auto. intros (P & H). split; auto. Qed.
End Honest.
Lemma good_nothing truth : good truth nothing.
Proof. intros p b. discriminate. Qed.
(** ends, one instruction at a time. *)
Section Ends.
Context {A : Type}.
Implicit Types (s : files) (o : outcome A).
Lemma ends_return s (a : A) : ends s (Return a) s (Returned a).
Proof. exists 0. intros [|n] _; reflexivity. Qed.
Lemma ends_raise s : ends s (@Raise A) s Raised.
Proof. exists 0. intros [|n] _; reflexivity. Qed.
Lemma ends_isfile s p k s' o : ends s (k (match s p with Some _ => true | None => false end)) s' o -> ends s (IsFile p k) s' o.
Proof. intros (N & H). exists (S N). intros [|n] L; [lia|]. cbn [run]. apply H. lia. Qed.
Lemma ends_write s p b k s' o : ends (put s p (Some b)) k s' o -> ends s (Write p b k) s' o.
Proof. intros (N & H). exists (S (length b + N)). intros [|n] L; [lia|]. cbn [run]. destruct (Nat.ltb_spec n (length b)); [lia|]. apply H. lia. Qed.
Lemma ends_remove s p k s' o b : s p = Some b -> ends (put s p None) k s' o -> ends s (Remove p k) s' o.
Proof. intros E (N & H). exists (S N). intros [|n] L; [lia|]. cbn [run]. rewrite E. apply H. lia. Qed.
Lemma ends_read s p k s' o b : s p = Some b -> ends s (k b) s' o -> ends s (Read p k) s' o.
Proof. intros E (N & H). exists (S N). intros [|n] L; [lia|]. cbn [run]. rewrite E. apply H. lia. Qed.
Lemma ends_fetched remote s p (k : prog A) s' o : (s p = None -> ends (put s p (Some remote)) k s' o) -> (s p <> None -> ends s k s' o) -> ends s (fetched remote p k) s' o.
Proof.
  intros H1 H2. unfold fetched. apply ends_isfile. destruct (s p) eqn:E; [apply H2; discriminate|]. apply ends_write. now apply H1.
Qed.
End Ends.
