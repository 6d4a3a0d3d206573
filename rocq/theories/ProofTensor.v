From Coq Require Import List Arith Bool Lia.
From Verif Require Import ModelShape SpecShape ProofShape ModelTensor SpecTensor.
Import ListNotations.

(** ** Validity *)
Lemma valid_Forall2 s i : valid s i <-> Forall2 lt i s.
Proof.
  revert i. induction s as [|d s IH] using rev_ind; intros i.
  - split.
    + intros [L _]. destruct i; [constructor|discriminate].
    + intros F. inversion F. split; [reflexivity|]. simpl. lia.
  - split.
    + intros [L V]. destruct i as [|k i] using rev_ind; [rewrite app_length in L; simpl in L; lia|].
      clear IHi. rewrite !app_length in L. simpl in L.
      assert (V0 := V 0). unfold dim in V0. rewrite !rev_app_distr in V0. simpl in V0.
      rewrite app_length in V0. simpl in V0.
      apply Forall2_app; [|constructor; [apply V0; lia|constructor]].
      apply IH. split; [lia|]. intros j Hj. specialize (V (S j)).
      unfold dim in V. rewrite !rev_app_distr in V. simpl in V. apply V.
      rewrite app_length. simpl. lia.
    + intros F. apply Forall2_app_inv_r in F. destruct F as [i1 [i2 [F1 [F2 ->]]]].
      inversion F2 as [|k ? ? ? Hk F3]; subst. inversion F3; subst.
      apply IH in F1. destruct F1 as [L V]. split; [rewrite !app_length; simpl; lia|].
      intros j Hj. unfold dim. rewrite !rev_app_distr. simpl. destruct j as [|j]; [assumption|].
      apply V. rewrite app_length in Hj. simpl in Hj. lia.
Qed.
Lemma valid_snoc w i d k : valid w i -> k < d -> valid (w ++ [d]) (i ++ [k]).
Proof. rewrite !valid_Forall2. intros. apply Forall2_app; auto. Qed.
Lemma valid_snoc_inv w d i : valid (w ++ [d]) i ->
  exists i' k, i = i' ++ [k] /\ valid w i' /\ k < d.
Proof.
  rewrite valid_Forall2. intros F. apply Forall2_app_inv_r in F.
  destruct F as [i1 [i2 [F1 [F2 ->]]]]. inversion F2 as [|k ? ? ? Hk F3]; subst. inversion F3; subst.
  exists i1, k. rewrite valid_Forall2. auto.
Qed.
Lemma valid_cons n w s i : valid (n :: w) (s :: i) <-> s < n /\ valid w i.
Proof.
  rewrite !valid_Forall2. split; [intros H; inversion H; auto|intros [? ?]; constructor; auto].
Qed.

(** ** Fitting into a larger shape *)
Definition fits (s w : shape) : Prop := bshape s w = Some w.
Definition view {A} (t : tensor A) (i : index) : A := t_at t (bindex (t_shape t) i).

Lemma fits_refl s : fits s s. Proof. apply bshape_refl. Qed.
Lemma fits_nil w : fits [] w.
Proof. unfold fits, bshape. simpl. now rewrite rev_involutive. Qed.
Lemma fits_l s t u : bshape s t = Some u -> fits s u. Proof. apply bshape_absorb_l. Qed.
Lemma fits_r s t u : bshape s t = Some u -> fits t u. Proof. apply bshape_absorb. Qed.
Lemma fits_trans s u w : fits s u -> fits u w -> fits s w.
Proof.
  unfold fits. intros H1 H2. pose proof (bshape_assoc s u w) as A. rewrite H1, H2 in A. now symmetry.
Qed.
Lemma fits_lub s t w : fits s w -> fits t w -> exists u, bshape s t = Some u /\ fits u w.
Proof.
  unfold fits. intros H1 H2. pose proof (bshape_assoc s t w) as A. rewrite H2, H1 in A.
  destruct (bshape s t) as [u|] eqn:E; [|discriminate]. eauto.
Qed.
Lemma fits_length s w : fits s w -> length s <= length w.
Proof. intros H. apply bshape_some in H. destruct H as [_ [L _]]. lia. Qed.
Lemma fits_dim s w k : fits s w -> dim s k = 1 \/ dim s k = dim w k.
Proof.
  intros H. apply bshape_some in H. destruct H as [C [_ D]]. specialize (D k). specialize (C k).
  destruct (Nat.eqb_spec (dim s k) 1); auto.
Qed.
Lemma fits_intro s w : length s <= length w -> (forall k, dim s k = 1 \/ dim s k = dim w k) -> fits s w.
Proof.
  intros L D. apply bshape_some. split.
  - intros k. destruct (D k); auto.
  - split; [lia|]. intros k. destruct (Nat.eqb_spec (dim s k) 1); auto. destruct (D k); congruence.
Qed.
Lemma dim_snoc s d k : dim (s ++ [d]) k = match k with 0 => d | S k' => dim s k' end.
Proof. unfold dim. rewrite rev_app_distr. destruct k; reflexivity. Qed.
Lemma dim_beyond s k : length s <= k -> dim s k = 1.
Proof. intros H. unfold dim. apply nth_overflow. now rewrite rev_length. Qed.
Lemma fits_snoc s w d : fits s w -> fits (s ++ [d]) (w ++ [d]).
Proof.
  intros F. apply fits_intro.
  - rewrite !app_length. apply fits_length in F. lia.
  - intros [|k]; rewrite !dim_snoc; auto. now apply fits_dim.
Qed.
Lemma fits_snoc_inv s d w' : fits (s ++ [d]) w' ->
  exists w n, w' = w ++ [n] /\ fits s w /\ (d = 1 \/ d = n).
Proof.
  intros F. destruct w' as [|n w _] using rev_ind.
  - apply fits_length in F. rewrite app_length in F. simpl in F. lia.
  - exists w, n. split; [reflexivity|]. split.
    + apply fits_intro.
      * apply fits_length in F. rewrite !app_length in F. simpl in F. lia.
      * intros k. pose proof (fits_dim _ _ (S k) F) as D. now rewrite !dim_snoc in D.
    + pose proof (fits_dim _ _ 0 F) as D. now rewrite !dim_snoc in D.
Qed.
Lemma fits_cons s n w : fits s w -> fits s (n :: w).
Proof.
  intros F. apply fits_intro; [apply fits_length in F; simpl; lia|]. intros k.
  destruct (Nat.lt_ge_cases k (length w)) as [L|L].
  - replace (dim (n :: w) k) with (dim w k); [now apply fits_dim|].
    unfold dim. simpl. rewrite app_nth1; [reflexivity|now rewrite rev_length].
  - left. apply dim_beyond. apply fits_length in F. lia.
Qed.

(** ** Index algebra *)
Lemma bindex_bindex s u i : fits s u -> length u <= length i -> bindex s (bindex u i) = bindex s i.
Proof.
  intros F L. pose proof (fits_length _ _ F) as Ls.
  eapply shows_unique; [|apply bindex_shows; lia].
  assert (H1 : shows s (bindex u i) (bindex s (bindex u i))).
  { apply bindex_shows. rewrite bindex_length by assumption. lia. }
  destruct H1 as [L1 H1]. split; [assumption|]. intros k Hk. rewrite H1 by assumption.
  destruct (Nat.eqb_spec (dim s k) 1); auto.
  pose proof (bindex_shows u i L) as [_ H2]. rewrite H2 by lia.
  destruct (fits_dim _ _ k F) as [E|E]; [contradiction|]. rewrite <- E.
  destruct (Nat.eqb_spec (dim s k) 1); [contradiction|reflexivity].
Qed.
Lemma bindex_snoc s d i k : length s <= length i ->
  bindex (s ++ [d]) (i ++ [k]) = bindex s i ++ [if Nat.eqb d 1 then 0 else k].
Proof.
  intros L. unfold bindex. rewrite !app_length. simpl.
  replace (length i + 1 - (length s + 1)) with (length i - length s) by lia.
  rewrite skipn_app. replace (length i - length s - length i) with 0 by lia. simpl.
  assert (E : length s = length (skipn (length i - length s) i)) by (rewrite skipn_length; lia).
  revert E. generalize (skipn (length i - length s) i) as j. clear.
  induction s as [|a s IH]; intros [|b j] E; simpl in *; try discriminate; auto.
  rewrite IH by lia. reflexivity.
Qed.
Lemma bindex_self s i : valid s i -> bindex s i = i.
Proof.
  intros V. symmetry. eapply shows_unique; [|apply bindex_shows; destruct V; lia].
  destruct V as [L V]. split; [assumption|]. intros k Hk. specialize (V k Hk).
  destruct (Nat.eqb_spec (dim s k) 1); lia.
Qed.
Lemma bindex_cons s w a i : fits s w -> length i = length w -> bindex s (a :: i) = bindex s i.
Proof.
  intros F L. unfold bindex. pose proof (fits_length _ _ F). simpl length.
  replace (S (length i) - length s) with (S (length i - length s)) by lia. reflexivity.
Qed.
Lemma view_self {A} (t : tensor A) i : valid (t_shape t) i -> view t i = t_at t i.
Proof. intros V. unfold view. now rewrite bindex_self. Qed.
Lemma view_shown {A} (t : tensor A) i v : length (t_shape t) <= length i ->
  shown t i v <-> v = view t i.
Proof.
  intros L. split.
  - intros [j [S ->]]. unfold view. f_equal. eapply shows_unique; [exact S|]. now apply bindex_shows.
  - intros ->. exists (bindex (t_shape t) i). split; [now apply bindex_shows|reflexivity].
Qed.

(** ** Programs *)
Section Programs.
Context {A : Type}.

Fixpoint eshape (e : expr A) : option shape :=
  match e with
  | Leaf t => Some (t_shape t)
  | Const _ => Some []
  | Un _ e => eshape e
  | Bin _ a b => match eshape a, eshape b with Some s, Some t => bshape s t | _, _ => None end
  | Row _ e => match eshape e with Some (d :: s) => Some (removelast (d :: s)) | _ => None end
  | RowKeep _ e => match eshape e with Some (d :: s) => Some (removelast (d :: s) ++ [1]) | _ => None end
  | RowMap _ e => match eshape e with Some (d :: s) => Some (d :: s) | _ => None end
  | Expand e => match eshape e with Some s => Some (s ++ [1]) | None => None end
  end.
Definition width (e : expr A) : nat := match eshape e with Some s => last s 0 | None => 0 end.

(** Value of a program at a position, reading each leaf where it is shown. *)
Fixpoint den (e : expr A) (i : index) : A :=
  match e with
  | Leaf t => view t i
  | Const c => c
  | Un f e => f (den e i)
  | Bin f a b => f (den a i) (den b i)
  | Row f e => f (map (fun k => den e (i ++ [k])) (seq 0 (width e)))
  | RowKeep f e => f (map (fun k => den e (removelast i ++ [k])) (seq 0 (width e)))
  | RowMap f e => f (map (fun k => den e (removelast i ++ [k])) (seq 0 (width e)))
                    (if Nat.eqb (width e) 1 then 0 else last i 0)
  | Expand e => den e (removelast i)
  end.

Lemma eval_eshape e : option_map t_shape (eval e) = eshape e.
Proof.
  induction e as [t|c|f e IH|f a IHa b IHb|f e IH|f e IH|f e IH|e IH]; simpl; auto.
  - rewrite <- IH. destruct (eval e); reflexivity.
  - rewrite <- IHa, <- IHb. destruct (eval a) as [x|]; [|reflexivity].
    destruct (eval b) as [y|]; [|reflexivity]. simpl. unfold elementwise.
    destruct (bshape (t_shape x) (t_shape y)); reflexivity.
  - rewrite <- IH. destruct (eval e) as [x|]; [|reflexivity]. simpl. unfold reduce_row.
    destruct (t_shape x); reflexivity.
  - rewrite <- IH. destruct (eval e) as [x|]; [|reflexivity]. simpl. unfold reduce_row_keep.
    destruct (t_shape x); reflexivity.
  - rewrite <- IH. destruct (eval e) as [x|]; [|reflexivity]. simpl. unfold map_row.
    destruct (t_shape x); reflexivity.
  - rewrite <- IH. destruct (eval e); reflexivity.
Qed.

Lemma row_view (e : expr A) x s d : t_shape x = s ++ [d] ->
  (forall w i, fits (t_shape x) w -> valid w i -> view x i = den e i) ->
  forall w i, fits s w -> valid w i ->
  row x (bindex s i) = map (fun k => den e (i ++ [k])) (seq 0 d).
Proof.
  intros S H w i F V. unfold row. rewrite S, last_last. apply map_ext_in. intros k Hk.
  apply in_seq in Hk. destruct Hk as [_ Hk]. simpl in Hk.
  rewrite <- (H (w ++ [d]) (i ++ [k])).
  - unfold view. rewrite S, bindex_snoc.
    + destruct (Nat.eqb_spec d 1); [|reflexivity]. do 3 f_equal. lia.
    + apply fits_length in F. destruct V. lia.
  - rewrite S. now apply fits_snoc.
  - now apply valid_snoc.
Qed.

Lemma shape_snoc {X} (x : tensor X) : t_shape x <> [] ->
  exists s d, t_shape x = s ++ [d].
Proof. intros H. destruct (exists_last H) as [s [d ->]]. eauto. Qed.

Lemma eval_den e : forall t, eval e = Some t ->
  forall w i, fits (t_shape t) w -> valid w i -> view t i = den e i.
Proof.
  induction e as [t0|c|f e IH|f a IHa b IHb|f e IH|f e IH|f e IH|e IH]; intros t E w i F V; simpl in E |- *.
  - now inversion E.
  - now inversion E.
  - destruct (eval e) as [x|]; simpl in E; inversion E; subst. unfold view. simpl. f_equal.
    exact (IH x eq_refl w i F V).
  - destruct (eval a) as [x|] eqn:Ea; [|discriminate]. destruct (eval b) as [y|] eqn:Eb; [|discriminate].
    unfold elementwise in E. destruct (bshape (t_shape x) (t_shape y)) as [u|] eqn:B; [|discriminate].
    inversion E; subst. simpl in F. unfold view. simpl.
    assert (Lu : length u <= length i) by (apply fits_length in F; destruct V; lia).
    rewrite (bindex_bindex _ _ _ (fits_l _ _ _ B) Lu), (bindex_bindex _ _ _ (fits_r _ _ _ B) Lu). f_equal.
    + exact (IHa x eq_refl w i (fits_trans _ _ _ (fits_l _ _ _ B) F) V).
    + exact (IHb y eq_refl w i (fits_trans _ _ _ (fits_r _ _ _ B) F) V).
  - pose proof (eval_eshape e) as Es. destruct (eval e) as [x|] eqn:Ee; [|discriminate]. simpl in Es.
    unfold reduce_row in E. destruct (t_shape x) as [|d0 s0] eqn:Sx; [discriminate|].
    destruct (shape_snoc x) as [s [d S]]; [congruence|]. rewrite Sx in S. rewrite S in E.
    rewrite removelast_last in E. inversion E; subst t. simpl in F. unfold view. simpl. f_equal.
    unfold width. rewrite <- Es, S, last_last.
    eapply row_view; eauto; congruence.
  - pose proof (eval_eshape e) as Es. destruct (eval e) as [x|] eqn:Ee; [|discriminate]. simpl in Es.
    unfold reduce_row_keep in E. destruct (t_shape x) as [|d0 s0] eqn:Sx; [discriminate|].
    destruct (shape_snoc x) as [s [d S]]; [congruence|]. rewrite Sx in S. rewrite S in E.
    rewrite removelast_last in E. inversion E; subst t. simpl in F. unfold view. simpl. f_equal.
    destruct (fits_snoc_inv _ _ _ F) as [w0 [n [-> [F0 _]]]].
    destruct (valid_snoc_inv _ _ _ V) as [i0 [k [-> [V0 Hk]]]].
    assert (L0 : length s <= length i0) by (apply fits_length in F0; destruct V0; lia).
    rewrite bindex_snoc, !removelast_last by assumption.
    unfold width. rewrite <- Es, S, last_last.
    eapply row_view; eauto; congruence.
  - pose proof (eval_eshape e) as Es. destruct (eval e) as [x|] eqn:Ee; [|discriminate]. simpl in Es.
    unfold map_row in E. destruct (t_shape x) as [|d0 s0] eqn:Sx; [discriminate|].
    destruct (shape_snoc x) as [s [d S]]; [congruence|]. rewrite Sx in S. rewrite S in E.
    inversion E; subst t. simpl in F. unfold view. simpl.
    destruct (fits_snoc_inv _ _ _ F) as [w0 [n [-> [F0 _]]]].
    destruct (valid_snoc_inv _ _ _ V) as [i0 [k [-> [V0 Hk]]]].
    assert (L0 : length s <= length i0) by (apply fits_length in F0; destruct V0; lia).
    rewrite bindex_snoc, !removelast_last, !last_last by assumption.
    unfold width. rewrite <- Es, S, last_last. f_equal.
    eapply row_view; eauto; congruence.
  - destruct (eval e) as [x|] eqn:Ee; simpl in E; inversion E; subst. simpl in F.
    destruct (fits_snoc_inv _ _ _ F) as [w0 [n [-> [F0 _]]]].
    destruct (valid_snoc_inv _ _ _ V) as [i0 [k [-> [V0 Hk]]]].
    unfold view. simpl. rewrite bindex_snoc, !removelast_last.
    + exact (IH x eq_refl w0 i0 F0 V0).
    + apply fits_length in F0. destruct V0. lia.
Qed.

(** At the program's own positions. *)
Lemma eval_at e t i : eval e = Some t -> valid (t_shape t) i -> t_at t i = den e i.
Proof.
  intros E V. rewrite <- (view_self _ _ V). apply (eval_den _ _ E (t_shape t)); auto using fits_refl.
Qed.

(** ** Shapes of elementwise programs *)
Fixpoint flat (e : expr A) : Prop :=
  match e with
  | Leaf _ | Const _ => True
  | Un _ e => flat e
  | Bin _ a b => flat a /\ flat b
  | _ => False
  end.
Fixpoint leaves (e : expr A) : list shape :=
  match e with
  | Leaf t => [t_shape t]
  | Const _ => [[]]
  | Un _ e | Row _ e | RowKeep _ e | RowMap _ e | Expand e => leaves e
  | Bin _ a b => leaves a ++ leaves b
  end.
End Programs.

Lemma dim_nil k : dim [] k = 1.
Proof. unfold dim. destruct k; reflexivity. Qed.

Lemma broadcast_all_one s : broadcast_all [s] s.
Proof.
  split; [intros s' [<-|[]]; lia|]. split; [right; exists s; simpl; auto|].
  intros k. split; [intros s' [<-|[]]; auto|]. right. exists s. simpl. auto.
Qed.
Lemma broadcast_all_app ss tt s t u : broadcast_all ss s -> broadcast_all tt t ->
  bshape s t = Some u -> broadcast_all (ss ++ tt) u.
Proof.
  intros [L1 [E1 D1]] [L2 [E2 D2]] B. pose proof (fits_l _ _ _ B) as F1. pose proof (fits_r _ _ _ B) as F2.
  apply bshape_some in B. destruct B as [C [L D]].
  split; [intros v Hv; apply in_app_iff in Hv; destruct Hv as [Hv|Hv];
          [specialize (L1 v Hv)|specialize (L2 v Hv)]; lia|].
  split.
  { destruct (Nat.le_gt_cases (length s) (length t)).
    - destruct E2 as [->|[v [Hv Lv]]].
      + simpl in *. destruct s; simpl in *; [|lia]. left. destruct u; [reflexivity|discriminate].
      + right. exists v. rewrite in_app_iff. split; [auto|lia].
    - destruct E1 as [->|[v [Hv Lv]]]; [simpl in *; lia|].
      right. exists v. rewrite in_app_iff. split; [auto|lia]. }
  intros k. destruct (D1 k) as [A1 B1], (D2 k) as [A2 B2]. specialize (D k). specialize (C k). split.
  - intros v Hv. apply in_app_iff in Hv. destruct Hv as [Hv|Hv].
    + destruct (A1 v Hv) as [E|E]; auto. destruct (fits_dim _ _ k F1); [left|right]; congruence.
    + destruct (A2 v Hv) as [E|E]; auto. destruct (fits_dim _ _ k F2); [left|right]; congruence.
  - destruct (Nat.eqb_spec (dim s k) 1).
    + destruct B2 as [E|[v [Hv E]]]; [left; congruence|]. right. exists v. rewrite in_app_iff. split; [auto|congruence].
    + destruct B1 as [E|[v [Hv E]]]; [congruence|]. right. exists v. rewrite in_app_iff. split; [auto|congruence].
Qed.
Lemma broadcast_all_unique ss u v : broadcast_all ss u -> broadcast_all ss v -> u = v.
Proof.
  intros [L1 [E1 D1]] [L2 [E2 D2]].
  assert (Lu : length u = length v).
  { apply Nat.le_antisymm.
    - destruct E1 as [->|[s [Hs Ls]]]; [simpl; lia|]. rewrite <- Ls. auto.
    - destruct E2 as [->|[s [Hs Ls]]]; [simpl; lia|]. rewrite <- Ls. auto. }
  rewrite <- (rev_involutive u), <- (rev_involutive v). f_equal. apply rdim_ext; [rewrite !rev_length; lia|].
  intros k. change (dim u k = dim v k). destruct (D1 k) as [A1 B1], (D2 k) as [A2 B2].
  destruct B1 as [E|[s [Hs E]]].
  - destruct B2 as [E'|[s [Hs E']]]; [congruence|]. destruct (A1 s Hs); congruence.
  - destruct (A2 s Hs) as [E'|E']; [|congruence]. destruct B2 as [E2'|[s2 [Hs2 E2']]]; [congruence|].
    destruct (A1 s2 Hs2); congruence.
Qed.
Lemma broadcast_all_iff ss tt u : (forall s, s <> [] -> In s ss <-> In s tt) ->
  broadcast_all ss u -> broadcast_all tt u.
Proof.
  intros H [L [E D]]. split.
  { intros s Hs. destruct s; [simpl; lia|]. apply L. apply H; auto. discriminate. }
  split.
  { destruct E as [E|[s [Hs Ls]]]; auto. destruct s; [destruct u; [auto|discriminate]|].
    right. eexists. split; [|exact Ls]. apply H; auto. discriminate. }
  intros k. destruct (D k) as [A1 B1]. split.
  - intros s Hs. destruct s; [left; apply dim_nil|]. apply A1, H; auto. discriminate.
  - destruct B1 as [B1|[s [Hs B1]]]; auto. destruct s; [left; rewrite <- B1; apply dim_nil|].
    right. eexists. split; [|exact B1]. apply H; auto. discriminate.
Qed.
Lemma all_fits ss w : broadcast_all ss w -> forall s, In s ss -> fits s w.
Proof. intros [L [_ D]] s Hs. apply fits_intro; auto. intros k. now apply D. Qed.

Section Flat.
Context {A : Type}.
Lemma eshape_flat (e : expr A) : flat e -> forall u, eshape e = Some u -> broadcast_all (leaves e) u.
Proof.
  induction e as [t|c|f e IH|f a IHa b IHb|f e IH|f e IH|f e IH|e IH]; intros Fl u E; simpl in *; try contradiction.
  - inversion E; subst. apply broadcast_all_one.
  - inversion E; subst. apply broadcast_all_one.
  - auto.
  - destruct Fl as [Fa Fb]. destruct (eshape a) as [s|] eqn:Ea; [|discriminate].
    destruct (eshape b) as [t|] eqn:Eb; [|discriminate]. eapply broadcast_all_app; eauto.
Qed.
Lemma eshape_flat_ok (e : expr A) w : flat e -> (forall s, In s (leaves e) -> fits s w) ->
  exists u, eshape e = Some u /\ fits u w.
Proof.
  induction e as [t|c|f e IH|f a IHa b IHb|f e IH|f e IH|f e IH|e IH]; intros Fl H; simpl in *; try contradiction.
  - exists (t_shape t). split; auto.
  - exists []. split; auto using fits_nil.
  - auto.
  - destruct Fl as [Fa Fb]. destruct IHa as [s [-> Fs]]; auto. { intros; apply H, in_app_iff; auto. }
    destruct IHb as [t [-> Ft]]; auto. { intros; apply H, in_app_iff; auto. }
    now apply fits_lub.
Qed.
Lemma fits_antisym s w : fits s w -> fits w s -> s = w.
Proof. unfold fits. intros H1 H2. rewrite bshape_comm in H2. congruence. Qed.

(** If the leaves broadcast jointly to [w], the program succeeds with shape [w]
    and computes the denotation at every position. *)
Lemma flat_runs (e : expr A) w : flat e -> broadcast_all (leaves e) w ->
  exists t, eval e = Some t /\ t_shape t = w /\ forall i, valid w i -> t_at t i = den e i.
Proof.
  intros Fl B. destruct (eshape_flat_ok e w Fl (all_fits _ _ B)) as [u [E F]].
  pose proof (eshape_flat e Fl u E) as B'. assert (u = w) by (eapply broadcast_all_unique; eauto). subst u.
  pose proof (eval_eshape e) as Es. rewrite E in Es. destruct (eval e) as [t|] eqn:Ev; [|discriminate].
  simpl in Es. inversion Es; subst. exists t. split; [auto|]. split; [auto|]. intros i V. now apply eval_at.
Qed.
Lemma flat_runs_inv (e : expr A) t : flat e -> eval e = Some t -> broadcast_all (leaves e) (t_shape t).
Proof.
  intros Fl Ev. apply eshape_flat; auto. rewrite <- (eval_eshape e), Ev. reflexivity.
Qed.
End Flat.

(** Joint broadcast exists for compatible shapes. *)
Lemma broadcast_all_exists ss : all_compatible ss -> exists u, broadcast_all ss u.
Proof.
  induction ss as [|s ss IH]; intros C.
  - exists []. split; [intros ? []|]. split; [auto|]. intros k. split; [intros ? []|]. left. apply dim_nil.
  - destruct IH as [u B]. { intros a b Ha Hb. apply C; simpl; auto. }
    assert (Cu : compatible s u).
    { intros k. destruct B as [_ [_ D]]. destruct (D k) as [_ [E|[t [Ht E]]]]; [auto|].
      destruct (C s t) with (k := k) as [E'|[E'|E']]; simpl; auto.
      - left. congruence.
      - right; right. congruence. }
    destruct (bshape s u) as [v|] eqn:E; [|now apply bshape_none in E].
    exists v. change (s :: ss) with ([s] ++ ss). eapply broadcast_all_app; eauto using broadcast_all_one.
Qed.

(** ** Row-major layout *)
Lemma ravel_lt s : forall i, valid s i -> ravel s i < size s.
Proof.
  induction s as [|d s IH]; intros i V; rewrite valid_Forall2 in V; inversion V as [|k ? j ? Hk Hj]; subst; simpl; [lia|].
  rewrite <- valid_Forall2 in Hj. specialize (IH _ Hj). nia.
Qed.
Lemma unravel_ravel s : forall i, valid s i -> unravel s (ravel s i) = i.
Proof.
  induction s as [|d s IH]; intros i V; rewrite valid_Forall2 in V; inversion V as [|k ? j ? Hk Hj]; subst; simpl; auto.
  rewrite <- valid_Forall2 in Hj. pose proof (ravel_lt _ _ Hj).
  rewrite Nat.div_add_l, Nat.div_small, Nat.add_0_r by lia. f_equal.
  rewrite Nat.add_comm, Nat.mod_add, Nat.mod_small by lia. auto.
Qed.
Lemma ravel_inj s i j : valid s i -> valid s j -> ravel s i = ravel s j -> i = j.
Proof. intros Vi Vj E. rewrite <- (unravel_ravel s i Vi), E. now apply unravel_ravel. Qed.
Lemma unravel_valid s : forall k, k < size s -> valid s (unravel s k) /\ ravel s (unravel s k) = k.
Proof.
  induction s as [|d s IH]; intros k H; simpl in *.
  - split; [apply valid_Forall2; constructor|lia].
  - assert (size s <> 0) by (intros E; rewrite E in H; lia).
    destruct (IH (k mod size s)) as [V E]. { apply Nat.mod_upper_bound. assumption. }
    split.
    + apply valid_cons. split; [apply Nat.div_lt_upper_bound; lia|assumption].
    + rewrite E. rewrite (Nat.div_mod k (size s)) at 3 by assumption. lia.
Qed.
Lemma size_snoc s d : size (s ++ [d]) = size s * d.
Proof. induction s as [|a s IH]; simpl; [lia|]. rewrite IH. lia. Qed.
Lemma ravel_snoc s d : forall i k, length i = length s -> ravel (s ++ [d]) (i ++ [k]) = ravel s i * d + k.
Proof.
  induction s as [|a s IH]; intros [|b i] k L; simpl in *; try discriminate; [lia|].
  rewrite IH, size_snoc by lia. lia.
Qed.
Lemma unravel_snoc s d k c : c < d -> k < size s -> unravel (s ++ [d]) (k * d + c) = unravel s k ++ [c].
Proof.
  intros Hc Hk. destruct (unravel_valid s k Hk) as [V E].
  rewrite <- E at 1. rewrite <- (ravel_snoc s d _ c) by apply V.
  apply unravel_ravel. now apply valid_snoc.
Qed.

Lemma reshape_ok {A} s (t : tensor A) : size s = size (t_shape t) ->
  reshape s t = Some (Tensor s (fun i => t_at t (unravel (t_shape t) (ravel s i)))).
Proof. intros E. unfold reshape. now rewrite E, Nat.eqb_refl. Qed.
Lemma unravel2 a b x y : y < b -> unravel [a; b] (x * b + y) = [x; y].
Proof.
  intros H. unfold unravel, size, fold_right. rewrite Nat.mul_1_r.
  rewrite Nat.div_add_l, (Nat.div_small y), Nat.add_0_r by lia.
  rewrite Nat.add_comm, Nat.mod_add, Nat.mod_small, Nat.div_1_r by lia. reflexivity.
Qed.

(** ** Discrete samplers *)
Section Discrete.
Context {A U : Type} (pick : list A -> U -> nat) (noise : nat -> nat -> U).

Lemma logits_flat_ok known (logits : tensor A) batch k : t_shape logits = batch ++ [k] -> 0 < k ->
  (known = true -> length batch = 1) ->
  exists fl, logits_flat known logits = Some fl /\ t_shape fl = [size batch; k] /\
    forall i, valid batch i -> row fl [ravel batch i] = row logits i.
Proof.
  intros S Hk K. unfold logits_flat. destruct known.
  - exists logits. split; [reflexivity|]. destruct batch as [|b [|? ?]]; try (specialize (K eq_refl); discriminate).
    split; [rewrite S; simpl; do 2 f_equal; lia|]. intros i V. f_equal.
    rewrite valid_Forall2 in V. inversion V as [|x ? y ? Hx Hy]; subst. inversion Hy; subst. simpl.
    f_equal. lia.
  - rewrite S, last_last. unfold reshape_rows. rewrite S, size_snoc.
    destruct (Nat.eqb_spec k 0); [lia|]. rewrite Nat.mod_mul, Nat.div_mul by lia. simpl.
    unfold reshape. rewrite S, size_snoc. simpl. rewrite Nat.mul_1_r, Nat.eqb_refl.
    eexists. split; [reflexivity|]. split; [reflexivity|]. intros i V. unfold row. simpl.
    rewrite S, last_last. apply map_ext_in. intros c Hc. apply in_seq in Hc. f_equal.
    rewrite ?Nat.mul_1_r, ?Nat.add_0_r.
    rewrite unravel_snoc by (try apply ravel_lt; auto; lia). rewrite (unravel_ravel batch i V). reflexivity.
Qed.

Lemma categorical_ok known (logits : tensor A) batch k n : t_shape logits = batch ++ [k] -> 0 < k ->
  (known = true -> length batch = 1) ->
  exists t, categorical_sample pick noise known logits n = Some t /\ t_shape t = n :: batch /\
    forall s i, s < n -> valid batch i ->
      t_at t (s :: i) = pick (row logits i) (noise (ravel batch i) s).
Proof.
  intros S Hk K. destruct (logits_flat_ok known logits batch k S Hk K) as [fl [E [Sf R]]].
  unfold categorical_sample. rewrite E. simpl. unfold random_categorical. rewrite Sf. simpl.
  destruct known.
  - eexists. split; [reflexivity|]. simpl. destruct batch as [|b [|? ?]]; try (specialize (K eq_refl); discriminate).
    split; [simpl; do 2 f_equal; lia|]. intros s i Hs V. rewrite <- R by assumption.
    rewrite valid_Forall2 in V. inversion V as [|x ? y ? Hx Hy]; subst. inversion Hy; subst. simpl.
    replace (x * 1 + 0) with x by lia. reflexivity.
  - rewrite S, removelast_last, reshape_ok by (simpl; lia).
    eexists. split; [reflexivity|]. split; [reflexivity|]. intros s i Hs V.
    cbn [t_at t_shape]. change (ravel (n :: batch) (s :: i)) with (s * size batch + ravel batch i).
    rewrite unravel2 by now apply ravel_lt. simpl. now rewrite R.
Qed.

Lemma multinomial_ok known (logits : tensor A) batch k n_exp n : t_shape logits = batch ++ [k] -> 0 < k ->
  (known = true -> length batch = 1) ->
  exists t, multinomial_sample pick noise known logits n_exp n = Some t /\ t_shape t = n :: batch ++ [k] /\
    forall s i c, s < n -> valid batch i -> c < k ->
      t_at t (s :: i ++ [c]) =
      list_sum (map (fun e => if Nat.eqb (pick (row logits i) (noise (ravel batch i) (s * n_exp + e))) c
                              then 1 else 0) (seq 0 n_exp)).
Proof.
  intros S Hk K. destruct (logits_flat_ok known logits batch k S Hk K) as [fl [E [Sf R]]].
  unfold multinomial_sample. rewrite E. simpl. unfold random_categorical. rewrite Sf. simpl.
  rewrite S, removelast_last, last_last, reshape_ok by (simpl; lia). cbn [obind].
  eexists. split; [reflexivity|]. split; [reflexivity|]. intros s i c Hs V Hc.
  cbn [t_at t_shape]. f_equal. apply map_ext_in. intros e He. apply in_seq in He.
  cbn [one_hot t_at t_shape].
  replace (removelast (s :: e :: i ++ [c])) with (s :: e :: i)
    by (change (s :: e :: i ++ [c]) with ((s :: e :: i) ++ [c]); now rewrite removelast_last).
  replace (last (s :: e :: i ++ [c]) 0) with c
    by (change (s :: e :: i ++ [c]) with ((s :: e :: i) ++ [c]); now rewrite last_last).
  cbn [t_at t_shape].
  replace (ravel (n :: n_exp :: batch) (s :: e :: i))
    with ((s * n_exp + e) * size batch + ravel batch i) by (simpl; lia).
  rewrite unravel2 by now apply ravel_lt. simpl. now rewrite R.
Qed.

Lemma onehot_ok {B} (on off : B) known (logits : tensor A) batch k n : t_shape logits = batch ++ [k] -> 0 < k ->
  (known = true -> length batch = 1) ->
  exists t, onehot_sample pick noise on off known logits n = Some t /\ t_shape t = n :: batch ++ [k] /\
    forall s i c, s < n -> valid batch i -> c < k ->
      t_at t (s :: i ++ [c]) =
      if Nat.eqb (pick (row logits i) (noise (ravel batch i) s)) c then on else off.
Proof.
  intros S Hk K. destruct (categorical_ok known logits batch k n S Hk K) as [t [E [St R]]].
  unfold onehot_sample. rewrite E. cbn [obind]. eexists. split; [reflexivity|].
  cbn [one_hot t_shape t_at]. rewrite St, S, last_last.
  split; [reflexivity|]. intros s i c Hs V Hc.
  replace (removelast (s :: i ++ [c])) with (s :: i)
    by (change (s :: i ++ [c]) with ((s :: i) ++ [c]); now rewrite removelast_last).
  replace (last (s :: i ++ [c]) 0) with c
    by (change (s :: i ++ [c]) with ((s :: i) ++ [c]); now rewrite last_last).
  now rewrite R.
Qed.

Lemma binomial_ok (two : A -> list A) known (logits : tensor A) n_exp n :
  (forall a, length (two a) = 2) -> (known = true -> length (t_shape logits) = 1) ->
  exists t, binomial_sample pick noise two known logits n_exp n = Some t /\ t_shape t = n :: t_shape logits /\
    forall s i, s < n -> valid (t_shape logits) i ->
      t_at t (s :: i) =
      list_sum (map (fun e => pick (two (t_at logits i)) (noise (ravel (t_shape logits) i) (e * n + s)))
                    (seq 0 n_exp)).
Proof.
  intros T K. unfold binomial_sample.
  assert (F : exists fl, (if known then Some logits else reshape_flat logits) = Some fl /\
    t_shape fl = [size (t_shape logits)] /\
    forall i, valid (t_shape logits) i -> t_at fl [ravel (t_shape logits) i] = t_at logits i).
  { destruct known.
    - exists logits. split; [reflexivity|]. destruct (t_shape logits) as [|b [|? ?]] eqn:S; try (specialize (K eq_refl); discriminate).
      split; [simpl; f_equal; lia|]. intros i V.
      rewrite valid_Forall2 in V. inversion V as [|x ? y ? Hx Hy]; subst. inversion Hy; subst. simpl.
      do 2 f_equal. lia.
    - unfold reshape_flat, reshape. simpl. rewrite Nat.mul_1_r, Nat.eqb_refl. eexists. split; [reflexivity|].
      split; [reflexivity|]. intros i V. simpl. rewrite Nat.mul_1_r, Nat.add_0_r. rewrite (unravel_ravel _ i V). reflexivity. }
  destruct F as [fl [E [Sf R]]]. rewrite E. simpl. rewrite Sf. cbn [obind random_categorical t_shape transpose2].
  rewrite reshape_ok by (simpl; lia). cbn [obind]. eexists. split; [reflexivity|]. split; [reflexivity|].
  intros s i Hs V. cbn [t_at t_shape]. f_equal. apply map_ext_in. intros e He. apply in_seq in He.
  replace (ravel (n_exp :: n :: t_shape logits) (e :: s :: i))
    with ((e * n + s) * size (t_shape logits) + ravel (t_shape logits) i) by (simpl; lia).
  rewrite unravel2 by now apply ravel_lt. simpl. unfold row. simpl. rewrite R by assumption. f_equal.
  pose proof (T (t_at logits i)) as T2. destruct (two (t_at logits i)) as [|a [|b [|? ?]]]; try discriminate.
  reflexivity.
Qed.
End Discrete.
