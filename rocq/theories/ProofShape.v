From Coq Require Import List Arith Bool ZArith Lia FinFun.
From Verif Require Import ModelShape SpecShape.
Import ListNotations.

(** ** Extents *)
Lemma bdim_some a b c : bdim a b = Some c <->
  (a = b \/ a = 1 \/ b = 1) /\ c = if Nat.eqb a 1 then b else a.
Proof.
  unfold bdim. destruct (Nat.eqb_spec a b), (Nat.eqb_spec a 1), (Nat.eqb_spec b 1);
    split; try (intros H; inversion H; subst; split; auto; lia);
    intros [H1 ->]; try reflexivity; try (f_equal; lia); exfalso; lia.
Qed.
Lemma bdim_none a b : bdim a b = None <-> ~ (a = b \/ a = 1 \/ b = 1).
Proof.
  unfold bdim. destruct (Nat.eqb_spec a b), (Nat.eqb_spec a 1), (Nat.eqb_spec b 1);
    split; try discriminate; try (intros H; exfalso; lia); auto. intros _. lia.
Qed.
Lemma bdim_comm a b : bdim a b = bdim b a.
Proof.
  unfold bdim. destruct (Nat.eqb_spec a b), (Nat.eqb_spec a 1), (Nat.eqb_spec b 1),
    (Nat.eqb_spec b a); try reflexivity; try lia; f_equal; lia.
Qed.
Lemma bdim_refl a : bdim a a = Some a.
Proof. unfold bdim. now rewrite Nat.eqb_refl. Qed.
Lemma bdim_assoc a b c :
  match bdim a b with Some d => bdim d c | None => None end =
  match bdim b c with Some d => bdim a d | None => None end.
Proof.
  unfold bdim.
  repeat match goal with |- context [Nat.eqb ?x ?y] => destruct (Nat.eqb_spec x y); try subst end;
    try reflexivity; try lia; try (f_equal; lia).
Qed.

(** ** Reversed shapes *)
Lemma bzip_nil_r s : bzip s [] = Some s.
Proof. destruct s; reflexivity. Qed.
Lemma bzip_comm s : forall t, bzip s t = bzip t s.
Proof.
  induction s as [|a s IH]; intros [|b t]; simpl; try reflexivity.
  now rewrite bdim_comm, IH.
Qed.
Lemma bzip_refl s : bzip s s = Some s.
Proof. induction s as [|a s IH]; simpl; [reflexivity|]. now rewrite bdim_refl, IH. Qed.
Lemma bzip_assoc s : forall t u,
  match bzip s t with Some v => bzip v u | None => None end =
  match bzip t u with Some v => bzip s v | None => None end.
Proof.
  induction s as [|a s IH]; intros [|b t] [|c u]; simpl; try reflexivity.
  - destruct (bdim b c); [|reflexivity]. now destruct (bzip t u).
  - destruct (bdim a b); [|reflexivity]. now destruct (bzip s t).
  - pose proof (bdim_assoc a b c) as D. pose proof (IH t u) as Z.
    destruct (bdim a b) as [d|]; destruct (bdim b c) as [e|];
      destruct (bzip s t) as [v|]; destruct (bzip t u) as [w|]; simpl in *;
      try (match type of D with None = _ => symmetry in D end);
      try (match type of Z with None = _ => symmetry in Z end);
      try rewrite D; try rewrite Z; try reflexivity;
      match goal with |- context [bdim ?x ?y] => destruct (bdim x y); reflexivity end.
Qed.

Definition rdim (s : list nat) k := nth k s 1.
Lemma rdim_nil k : rdim [] k = 1.
Proof. destruct k; reflexivity. Qed.

Lemma bzip_some s : forall t u, bzip s t = Some u ->
  length u = max (length s) (length t) /\
  (forall k, rdim s k = rdim t k \/ rdim s k = 1 \/ rdim t k = 1) /\
  (forall k, rdim u k = if Nat.eqb (rdim s k) 1 then rdim t k else rdim s k).
Proof.
  induction s as [|a s IH]; intros [|b t] u; simpl; intros H.
  - inversion H; subst. split; [reflexivity|]. split; intros k; rewrite ?rdim_nil; auto.
  - inversion H; subst. split; [reflexivity|]. split; intros k; rewrite ?rdim_nil; auto.
  - inversion H; subst. split; [reflexivity|]. split; intros k; rewrite ?rdim_nil; auto.
    destruct (Nat.eqb_spec (rdim (a :: s) k) 1); auto.
  - destruct (bdim a b) as [c|] eqn:D; [|discriminate].
    destruct (bzip s t) as [v|] eqn:Z; [|discriminate]. inversion H; subst.
    apply bdim_some in D. destruct D as [D1 D2]. destruct (IH _ _ Z) as [I1 [I2 I3]].
    split; [simpl; lia|]. split; intros [|k]; unfold rdim in *; simpl; auto.
Qed.
Lemma bzip_ok s : forall t,
  (forall k, rdim s k = rdim t k \/ rdim s k = 1 \/ rdim t k = 1) ->
  exists u, bzip s t = Some u.
Proof.
  induction s as [|a s IH]; intros [|b t] H; simpl; eauto.
  pose proof (H 0) as H0. unfold rdim in H0. simpl in H0.
  destruct (IH t) as [u Hu]. { intros k. apply (H (S k)). }
  assert (D : bdim a b = Some (if Nat.eqb a 1 then b else a)) by (apply bdim_some; auto).
  rewrite D, Hu. eauto.
Qed.
Lemma rdim_ext s : forall t, length s = length t -> (forall k, rdim s k = rdim t k) -> s = t.
Proof.
  induction s as [|a s IH]; intros [|b t] L H; simpl in *; try discriminate; auto.
  f_equal; [apply (H 0)|]. apply IH; [lia|]. intros k. apply (H (S k)).
Qed.

(** ** Shapes *)
Lemma dim_rdim s k : dim s k = rdim (rev s) k.
Proof. reflexivity. Qed.

Lemma bshape_some s t u : bshape s t = Some u <-> compatible s t /\ is_broadcast s t u.
Proof.
  unfold bshape. split.
  - destruct (bzip (rev s) (rev t)) as [v|] eqn:Z; simpl; [|discriminate].
    intros H; inversion H; subst. destruct (bzip_some _ _ _ Z) as [L [C D]].
    rewrite !rev_length in L. split; [exact C|]. split; [now rewrite rev_length|].
    intros k. unfold dim. rewrite rev_involutive. apply D.
  - intros [C [L D]]. destruct (bzip_ok (rev s) (rev t) C) as [v Z]. rewrite Z. simpl. f_equal.
    destruct (bzip_some _ _ _ Z) as [L' [_ D']]. rewrite !rev_length in L'.
    rewrite <- (rev_involutive u). f_equal. apply rdim_ext.
    + rewrite rev_length. lia.
    + intros k. rewrite D'. symmetry. apply D.
Qed.
Lemma bshape_none s t : bshape s t = None <-> ~ compatible s t.
Proof.
  split.
  - intros H C. destruct (bzip_ok (rev s) (rev t) C) as [v Z].
    unfold bshape in H. rewrite Z in H. discriminate.
  - intros N. destruct (bshape s t) as [u|] eqn:E; [|reflexivity].
    apply bshape_some in E. now destruct N.
Qed.
Lemma bshape_comm s t : bshape s t = bshape t s.
Proof. unfold bshape. now rewrite bzip_comm. Qed.
Lemma bshape_refl s : bshape s s = Some s.
Proof. unfold bshape. rewrite bzip_refl. simpl. now rewrite rev_involutive. Qed.
Lemma bshape_assoc s t u :
  match bshape s t with Some v => bshape v u | None => None end =
  match bshape t u with Some v => bshape s v | None => None end.
Proof.
  unfold bshape. pose proof (bzip_assoc (rev s) (rev t) (rev u)) as H.
  destruct (bzip (rev s) (rev t)) as [v|], (bzip (rev t) (rev u)) as [w|]; simpl;
    rewrite ?rev_involutive; try (match type of H with None = _ => symmetry in H end);
    try rewrite H; reflexivity.
Qed.
Lemma bshape_absorb s t u : bshape s t = Some u -> bshape t u = Some u.
Proof.
  intros H. pose proof (bshape_assoc s t t) as A. rewrite H, bshape_refl, H in A.
  rewrite bshape_comm. exact A.
Qed.
Lemma bshape_absorb_l s t u : bshape s t = Some u -> bshape s u = Some u.
Proof. intros H. rewrite bshape_comm in H. now apply bshape_absorb in H. Qed.

(** ** Indices *)
Lemma rev_combine {X Y} (l : list X) : forall (m : list Y), length l = length m ->
  rev (combine l m) = combine (rev l) (rev m).
Proof.
  induction l as [|x l IH]; intros [|y m] L; simpl in *; try discriminate; auto.
  rewrite IH by lia. assert (H : length (rev l) = length (rev m)) by (rewrite !rev_length; lia).
  revert H. generalize (rev l) (rev m). induction l0; intros [|? ?] H; simpl in *; try discriminate; auto.
  f_equal. apply IHl0. lia.
Qed.
Lemma nth_combine_map {X Y Z} (f : X * Y -> Z) l m k dz dx dy :
  k < length l -> length l <= length m ->
  nth k (map f (combine l m)) dz = f (nth k l dx, nth k m dy).
Proof.
  revert m k. induction l as [|x l IH]; intros [|y m] [|k] H L; simpl in *; try lia; auto.
  apply IH; lia.
Qed.
Lemma nth_firstn {X} (l : list X) : forall n k d, k < n -> nth k (firstn n l) d = nth k l d.
Proof.
  induction l as [|x l IH]; intros [|n] [|k] d H; simpl; auto; try lia.
  apply IH. lia.
Qed.
Lemma bindex_length s i : length s <= length i -> length (bindex s i) = length s.
Proof.
  intros L. unfold bindex. rewrite map_length, combine_length, skipn_length. lia.
Qed.
Lemma bindex_shows s i : length s <= length i -> shows s i (bindex s i).
Proof.
  intros L. split; [now apply bindex_length|]. intros k Hk. unfold bindex.
  rewrite <- map_rev, rev_combine by (rewrite skipn_length; lia).
  rewrite nth_combine_map with (dx := 1) (dy := 0); rewrite ?rev_length; try lia.
  2:{ rewrite skipn_length. lia. }
  simpl. unfold dim. destruct (Nat.eqb (nth k (rev s) 1) 1); auto.
  replace (length i - length s) with (length i - length s) by reflexivity.
  rewrite <- firstn_rev. now apply nth_firstn.
Qed.
Lemma nth0_ext (l : list nat) : forall m, length l = length m ->
  (forall k, k < length l -> nth k l 0 = nth k m 0) -> l = m.
Proof.
  induction l as [|a l IH]; intros [|b m] L H; simpl in *; try discriminate; auto.
  f_equal; [apply (H 0); lia|]. apply IH; [lia|]. intros k Hk. apply (H (S k)). lia.
Qed.
Lemma shows_unique s i j j' : shows s i j -> shows s i j' -> j = j'.
Proof.
  intros [L H] [L' H']. rewrite <- (rev_involutive j), <- (rev_involutive j'). f_equal.
  apply nth0_ext; rewrite !rev_length; [lia|]. intros k Hk. rewrite L in Hk.
  now rewrite H, H'.
Qed.
Lemma shows_valid s t u i j : is_broadcast s t u -> valid u i -> shows s i j -> valid s j.
Proof.
  intros [L D] [Li Vi] [Lj Hj]. split; [assumption|]. intros k Hk. rewrite Hj by assumption.
  destruct (Nat.eqb_spec (dim s k) 1) as [E|E]; [lia|].
  assert (Hu : k < length u) by lia. specialize (Vi k Hu). rewrite D in Vi.
  destruct (Nat.eqb_spec (dim s k) 1); [contradiction|assumption].
Qed.
Lemma is_broadcast_length_l s t u : is_broadcast s t u -> length s <= length u.
Proof. intros [L _]. lia. Qed.
Lemma is_broadcast_length_r s t u : is_broadcast s t u -> length t <= length u.
Proof. intros [L _]. lia. Qed.
Lemma is_broadcast_comm s t u : compatible s t -> is_broadcast s t u -> is_broadcast t s u.
Proof.
  intros C B. assert (H : bshape s t = Some u) by (apply bshape_some; auto).
  rewrite bshape_comm in H. now apply bshape_some in H.
Qed.

(** ** explicit_broadcast *)
Section Explicit.
Context {A : Type} (mul : A -> A -> A) (one : A) (mul_one : forall a, mul a one = a).

Lemma explicit_ok (x y : tensor A) u : bshape (t_shape x) (t_shape y) = Some u ->
  explicit_broadcast mul one x y =
  Some (Tensor u (fun i => mul (t_at x (bindex (t_shape x) i)) one),
        Tensor u (fun i => mul (t_at y (bindex (t_shape y) i)) one)).
Proof.
  intros H. unfold explicit_broadcast, elementwise, ones_like. simpl. rewrite H. simpl.
  now rewrite (bshape_absorb _ _ _ H).
Qed.
Lemma explicit_none (x y : tensor A) : bshape (t_shape x) (t_shape y) = None ->
  explicit_broadcast mul one x y = None.
Proof. intros H. unfold explicit_broadcast, elementwise, ones_like. simpl. now rewrite H. Qed.

Lemma explicit_spec (x y x' y' : tensor A) : explicit_broadcast mul one x y = Some (x', y') ->
  compatible (t_shape x) (t_shape y) /\
  is_broadcast (t_shape x) (t_shape y) (t_shape x') /\ t_shape y' = t_shape x' /\
  forall i, valid (t_shape x') i ->
    (forall j, shows (t_shape x) i j -> valid (t_shape x) j /\ t_at x' i = t_at x j) /\
    (forall j, shows (t_shape y) i j -> valid (t_shape y) j /\ t_at y' i = t_at y j).
Proof.
  intros H. destruct (bshape (t_shape x) (t_shape y)) as [u|] eqn:E.
  2:{ rewrite (explicit_none _ _ E) in H. discriminate. }
  rewrite (explicit_ok _ _ _ E) in H. inversion H; subst. clear H. simpl.
  apply bshape_some in E. destruct E as [C B]. split; [assumption|]. split; [assumption|].
  split; [reflexivity|]. intros i V.
  pose proof (is_broadcast_length_l _ _ _ B) as L1. pose proof (is_broadcast_length_r _ _ _ B) as L2.
  assert (Li : length i = length u) by apply V.
  split; intros j Hj.
  - split; [eapply shows_valid; eauto|]. rewrite mul_one. f_equal.
    eapply shows_unique; [apply bindex_shows; lia|exact Hj].
  - split; [eapply shows_valid; [eapply is_broadcast_comm|..]; eauto|]. rewrite mul_one. f_equal.
    eapply shows_unique; [apply bindex_shows; lia|exact Hj].
Qed.
End Explicit.

(** ** Static shapes *)
Definition kd (d : option nat) (n : nat) : Prop := match d with Some m => m = n | None => True end.
Lemma knows_rev l s : Forall2 kd l s <-> Forall2 kd (rev l) (rev s).
Proof.
  assert (H : forall l s, Forall2 kd l s -> Forall2 kd (rev l) (rev s)).
  { intros l' s' F. induction F; simpl; [constructor|]. apply Forall2_app; auto. }
  split; [apply H|]. intros F. apply H in F. now rewrite !rev_involutive in F.
Qed.
Lemma sbdim_none a b : sbdim a b = None -> forall x y, kd a x -> kd b y -> bdim x y = None.
Proof.
  destruct a as [a|], b as [b|]; simpl.
  - intros H x y <- <-. apply bdim_none.
    destruct (Nat.eqb_spec a 1), (Nat.eqb_spec b 1), (Nat.eqb_spec a b); try discriminate. lia.
  - destruct (Nat.ltb 1 a); discriminate.
  - destruct (Nat.ltb 1 b); discriminate.
  - discriminate.
Qed.
Lemma sbdim_some a b c : sbdim a b = Some c -> forall x y z, kd a x -> kd b y ->
  bdim x y = Some z -> kd c z.
Proof.
  intros H x y z Ka Kb D. apply bdim_some in D. destruct D as [D ->].
  destruct a as [a|], b as [b|]; simpl in *; try subst x; try subst y.
  - destruct (Nat.eqb_spec a 1); [inversion H; subst; reflexivity|].
    destruct (Nat.eqb_spec b 1); [inversion H; subst; reflexivity|].
    destruct (Nat.eqb_spec a b); [|discriminate]. inversion H; subst; reflexivity.
  - destruct (Nat.ltb_spec 1 a); inversion H; subst; simpl; auto.
    destruct (Nat.eqb_spec a 1); lia.
  - destruct (Nat.ltb_spec 1 b); inversion H; subst; simpl; auto.
    destruct (Nat.eqb_spec x 1); lia.
  - inversion H; subst. exact I.
Qed.
Definition fill (d : option nat) : nat := match d with Some n => n | None => 1 end.
Lemma kd_fill d : kd d (fill d).
Proof. destruct d; simpl; auto. Qed.
Lemma sbdim_fill a b c : sbdim a b = Some c -> exists z, bdim (fill a) (fill b) = Some z.
Proof.
  destruct a as [a|], b as [b|]; simpl; intros H; eexists; apply bdim_some; (split; [|reflexivity]); auto.
  destruct (Nat.eqb_spec a 1); auto. destruct (Nat.eqb_spec b 1); auto.
  destruct (Nat.eqb_spec a b); auto. discriminate.
Qed.
Lemma sbdim_full a b c x y : sbdim a b = Some c -> a = Some x -> b = Some y ->
  exists z, bdim x y = Some z.
Proof. intros H -> ->. apply sbdim_fill in H. exact H. Qed.

Lemma sbzip_none l : forall m, sbzip l m = None -> forall s t, Forall2 kd l s -> Forall2 kd m t ->
  bzip s t = None.
Proof.
  induction l as [|a l IH]; intros [|b m] H s t Fs Ft; simpl in H; try discriminate.
  inversion Fs as [|? x ? s' Ka Fs']; subst. inversion Ft as [|? y ? t' Kb Ft']; subst. simpl.
  destruct (sbdim a b) as [c|] eqn:D.
  - destruct (sbzip l m) eqn:Z; [discriminate|]. rewrite (IH _ Z _ _ Fs' Ft').
    now destruct (bdim x y).
  - now rewrite (sbdim_none _ _ D _ _ Ka Kb).
Qed.
Lemma sbzip_some l : forall m v, sbzip l m = Some v -> forall s t u, Forall2 kd l s -> Forall2 kd m t ->
  bzip s t = Some u -> Forall2 kd v u.
Proof.
  induction l as [|a l IH]; intros [|b m] v H s t u Fs Ft B; simpl in H.
  - inversion H; subst. inversion Fs; subst. simpl in B. inversion B; now subst.
  - inversion H; subst. inversion Fs; subst. simpl in B. inversion B; now subst.
  - inversion H; subst. inversion Ft; subst. rewrite bzip_nil_r in B. inversion B; now subst.
  - inversion Fs as [|? x ? s' Ka Fs']; subst. inversion Ft as [|? y ? t' Kb Ft']; subst.
    simpl in B. destruct (sbdim a b) as [c|] eqn:D; [|discriminate].
    destruct (sbzip l m) as [w|] eqn:Z; [|discriminate]. inversion H; subst.
    destruct (bdim x y) as [z|] eqn:E; [|discriminate].
    destruct (bzip s' t') as [q|] eqn:Q; [|discriminate]. inversion B; subst.
    constructor; [eapply sbdim_some; eauto|eapply IH; eauto].
Qed.
Lemma sbzip_fill l : forall m v, sbzip l m = Some v ->
  exists u, bzip (map fill l) (map fill m) = Some u.
Proof.
  induction l as [|a l IH]; intros [|b m] v H; simpl in *; eauto.
  destruct (sbdim a b) as [c|] eqn:D; [|discriminate].
  destruct (sbzip l m) as [w|] eqn:Z; [|discriminate].
  destruct (sbdim_fill _ _ _ D) as [z ->]. destruct (IH _ _ Z) as [u ->]. eauto.
Qed.
Lemma Forall2_kd_fill l : Forall2 kd l (map fill l).
Proof. induction l; constructor; auto using kd_fill. Qed.

Lemma static_reject_sound l m : broadcast_static_shape l m = None ->
  forall s t, knows l s -> knows m t -> ~ compatible s t.
Proof.
  destruct l as [l|], m as [m|]; simpl; try discriminate.
  intros H s t Ks Kt. apply bshape_none. unfold bshape.
  destruct (sbzip (rev l) (rev m)) eqn:Z; [discriminate|].
  rewrite (sbzip_none _ _ Z (rev s) (rev t)); auto; now apply -> knows_rev.
Qed.
Lemma static_some_knows l m v : broadcast_static_shape l m = Some v ->
  forall s t u, knows l s -> knows m t -> bshape s t = Some u -> knows v u.
Proof.
  destruct l as [l|], m as [m|]; simpl; try (intros H; inversion H; subst; intros; exact I).
  destruct (sbzip (rev l) (rev m)) as [w|] eqn:Z; simpl; [|discriminate].
  intros H; inversion H; subst. intros s t u Ks Kt B. simpl.
  unfold bshape in B. destruct (bzip (rev s) (rev t)) as [q|] eqn:Q; [|discriminate].
  simpl in B. inversion B; subst. apply -> (knows_rev w q). eapply sbzip_some; eauto; now apply -> knows_rev.
Qed.
Lemma static_accept_complete l m v : broadcast_static_shape l m = Some v ->
  exists s t, knows l s /\ knows m t /\ compatible s t.
Proof.
  destruct l as [l|], m as [m|]; simpl.
  - destruct (sbzip (rev l) (rev m)) as [w|] eqn:Z; simpl; [|discriminate]. intros _.
    exists (map fill l), (map fill m). split; [apply Forall2_kd_fill|].
    split; [apply Forall2_kd_fill|]. destruct (sbzip_fill _ _ _ Z) as [u Hu].
    assert (E : bshape (map fill l) (map fill m) = Some (rev u)).
    { unfold bshape. rewrite <- !map_rev, Hu. reflexivity. }
    now apply bshape_some in E.
  - intros _. exists (map fill l), []. split; [apply Forall2_kd_fill|]. split; [exact I|].
    intros k. right; right. unfold dim. simpl. destruct k; reflexivity.
  - intros _. exists [], (map fill m). split; [exact I|]. split; [apply Forall2_kd_fill|].
    intros k. right; left. unfold dim. simpl. destruct k; reflexivity.
  - intros _. exists [], []. split; [exact I|]. split; [exact I|]. intros k. left. reflexivity.
Qed.

Lemma fully_defined_unique l s : fully_defined l = true -> knows l s ->
  forall s', knows l s' -> s' = s.
Proof.
  destruct l as [l|]; [|discriminate]. simpl. intros D K s' K'. revert s' K'.
  induction K as [|d n l s Hd K IH]; intros s' K'; inversion K' as [|? n' ? s'' Hd' K'']; subst; auto.
  simpl in D. destruct d as [m|]; [|discriminate]. simpl in *. subst. f_equal. auto.
Qed.

(** ** maybe_explicit_broadcast *)
Lemma sdims_eqb_eq l : forall m, sdims_eqb l m = true -> l = m.
Proof.
  induction l as [|[a|] l IH]; intros [|[b|] m] H; simpl in H; try discriminate; auto.
  apply andb_true_iff in H. destruct H as [H1 H2]. apply Nat.eqb_eq in H1. subst. f_equal; auto.
Qed.

Section Maybe.
Context {A : Type} (mul : A -> A -> A) (one : A) (mul_one : forall a, mul a one = a).

Definition bc_spec (x y : gtensor A) (r : result (gtensor A * gtensor A)) : Prop :=
  let sx := t_shape (g_run x) in let sy := t_shape (g_run y) in
  match r with
  | Ok (x', y') =>
      compatible sx sy /\ is_broadcast sx sy (t_shape (g_run x')) /\
      t_shape (g_run y') = t_shape (g_run x') /\
      knows (g_static x') (t_shape (g_run x')) /\ knows (g_static y') (t_shape (g_run y')) /\
      forall i, valid (t_shape (g_run x')) i ->
        (forall j, shows sx i j -> valid sx j /\ t_at (g_run x') i = t_at (g_run x) j) /\
        (forall j, shows sy i j -> valid sy j /\ t_at (g_run y') i = t_at (g_run y) j)
  | BuildError => ~ compatible sx sy
  | RunError => ~ compatible sx sy /\
                (fully_defined (g_static x) && fully_defined (g_static y) = false)
  end.

Lemma gexplicit_spec x y : knows (g_static x) (t_shape (g_run x)) ->
  knows (g_static y) (t_shape (g_run y)) ->
  bc_spec x y (gexplicit_broadcast mul one x y).
Proof.
  intros Kx Ky. unfold gexplicit_broadcast, gmul. simpl.
  destruct (broadcast_static_shape (g_static x) (g_static y)) as [v|] eqn:S.
  2:{ simpl. eapply static_reject_sound; eauto. }
  pose proof (static_some_knows _ _ _ S) as Kn.
  unfold elementwise at 1. simpl.
  destruct (bshape (t_shape (g_run x)) (t_shape (g_run y))) as [u|] eqn:B.
  - specialize (Kn _ _ _ Kx Ky eq_refl) || specialize (Kn _ _ _ Kx Ky B). simpl.
    destruct (broadcast_static_shape (g_static y) v) as [w|] eqn:S2.
    + pose proof (bshape_absorb _ _ _ B) as B2.
      pose proof (static_some_knows _ _ _ S2 _ _ _ Ky Kn B2) as Kw.
      unfold elementwise. simpl. rewrite B2. simpl.
      assert (E : explicit_broadcast mul one (g_run x) (g_run y) =
        Some (Tensor u (fun i => mul (t_at (g_run x) (bindex (t_shape (g_run x)) i)) one),
              Tensor u (fun i => mul (t_at (g_run y) (bindex (t_shape (g_run y)) i)) one)))
        by now apply explicit_ok.
      destruct (explicit_spec mul one mul_one _ _ _ _ E) as [C [Br [_ El]]]. simpl in *.
      repeat (split; [assumption || reflexivity|]). exact El.
    + exfalso. pose proof (static_reject_sound _ _ S2 _ _ Ky Kn) as N. apply N.
      apply bshape_absorb in B. now apply bshape_some in B.
  - simpl. assert (N : ~ compatible (t_shape (g_run x)) (t_shape (g_run y))) by now apply bshape_none.
    split; [exact N|].
    destruct (fully_defined (g_static x)) eqn:Fx; [|reflexivity].
    destruct (fully_defined (g_static y)) eqn:Fy; [|reflexivity].
    exfalso. destruct (static_accept_complete _ _ _ S) as [s [t [Ks [Kt Cm]]]].
    apply N. rewrite <- (fully_defined_unique _ _ Fx Kx _ Ks), <- (fully_defined_unique _ _ Fy Ky _ Kt).
    exact Cm.
Qed.

Lemma valid_shows_self s i j : valid s i -> shows s i j -> j = i.
Proof.
  intros [Li V] [Lj H]. rewrite <- (rev_involutive j), <- (rev_involutive i). f_equal.
  apply nth0_ext; rewrite !rev_length; [lia|]. intros k Hk. rewrite Lj in Hk.
  rewrite H by assumption. specialize (V k Hk). destruct (Nat.eqb_spec (dim s k) 1); lia.
Qed.

Lemma maybe_spec x y : knows (g_static x) (t_shape (g_run x)) ->
  knows (g_static y) (t_shape (g_run y)) ->
  bc_spec x y (maybe_explicit_broadcast mul one x y).
Proof.
  intros Kx Ky. unfold maybe_explicit_broadcast.
  destruct (g_static x) as [l|] eqn:Sx; [|apply gexplicit_spec; rewrite ?Sx; assumption].
  destruct (g_static y) as [m|] eqn:Sy; [|apply gexplicit_spec; rewrite ?Sx, ?Sy; assumption].
  destruct (negb (Nat.eqb (length l) (length m)));
    [apply gexplicit_spec; rewrite ?Sx, ?Sy; assumption|].
  destruct (fully_defined (Some l) && fully_defined (Some m)) eqn:F;
    [|apply gexplicit_spec; rewrite ?Sx, ?Sy; assumption].
  destruct (sdims_eqb l m) eqn:E; [|apply gexplicit_spec; rewrite ?Sx, ?Sy; assumption].
  apply sdims_eqb_eq in E. subst m. apply andb_true_iff in F. destruct F as [F _].
  assert (Es : t_shape (g_run y) = t_shape (g_run x)) by (eapply fully_defined_unique; eauto).
  unfold bc_spec. rewrite Es.
  pose proof (bshape_refl (t_shape (g_run x))) as B. apply bshape_some in B. destruct B as [C B].
  split; [assumption|]. split; [assumption|]. split; [reflexivity|].
  split; [rewrite Sx; assumption|]. split; [rewrite Sy; assumption|].
  intros i V. split; intros j Hj; rewrite (valid_shows_self _ _ _ V Hj); auto.
Qed.
End Maybe.

(** ** Shape queries *)
Lemma shape_items_eq : forall l s pre, Forall2 kd l s ->
  shape_items l (pre ++ s) (length pre) = map Some s.
Proof.
  induction l as [|d l IH]; intros s pre F; inversion F as [|? n ? s' K F']; subst; auto.
  simpl. f_equal.
  - assert (E : nth_error (pre ++ n :: s') (length pre) = Some n).
    { rewrite nth_error_app2, Nat.sub_diag; auto. }
    destruct d as [[|m]|]; simpl in K; try subst; auto.
  - replace (pre ++ n :: s') with ((pre ++ [n]) ++ s') by now rewrite <- app_assoc.
    replace (S (length pre)) with (length (pre ++ [n])) by (rewrite app_length; simpl; lia).
    now apply IH.
Qed.
Lemma at_axis_map {X Y} (f : X -> Y) l a : at_axis (map f l) a = option_map f (at_axis l a).
Proof.
  unfold at_axis. rewrite map_length.
  set (k := if (a <? 0)%Z then _ else _). destruct (k <? 0)%Z; [reflexivity|].
  apply nth_error_map.
Qed.

Lemma forallb_combine_eq (l : list nat) : forall m, length l = length m ->
  forallb (fun p => Nat.eqb (fst p) (snd p)) (combine l m) = true <-> l = m.
Proof.
  induction l as [|a l IH]; intros [|b m] L; simpl in *; try discriminate; [split; auto|].
  rewrite andb_true_iff, Nat.eqb_eq, IH by lia. split; [intros [-> ->]; reflexivity|].
  intros H; inversion H; auto.
Qed.

(** ** Grouping *)
Section Big.
Context {A B : Type}.
Lemma big_ext (op : A -> A -> A) e ds : forall f g, (forall i, f i = g i) -> big op e ds f = big op e ds g.
Proof.
  induction ds as [|d ds IH]; intros f g H; simpl; auto.
  induction (seq 0 d) as [|i l IHl]; simpl; auto. rewrite IHl. f_equal. now apply IH.
Qed.
Lemma big_morph (opA : A -> A -> A) eA (opB : B -> B -> B) eB (h : A -> B) ds : forall f,
  (forall a b, h (opA a b) = opB (h a) (h b)) -> h eA = eB ->
  h (big opA eA ds f) = big opB eB ds (fun i => h (f i)).
Proof.
  induction ds as [|d ds IH]; intros f Hop He; simpl; auto.
  induction (seq 0 d) as [|i l IHl]; simpl; auto. rewrite Hop, IHl. f_equal. now apply IH.
Qed.
Lemma big_app (op : A -> A -> A) e ds : forall es f,
  big op e (ds ++ es) f = big op e ds (fun i => big op e es (fun j => f (i ++ j))).
Proof.
  induction ds as [|d ds IH]; intros es f; simpl; auto.
  induction (seq 0 d) as [|i l IHl]; simpl; auto. rewrite IHl. f_equal. now rewrite IH.
Qed.
End Big.

(** The elements of a [rows]-shaped slab: [all_indices ds] lists every index of
    shape [ds] once, in row-major order. *)
Fixpoint all_indices (ds : shape) : list index :=
  match ds with
  | [] => [[]]
  | d :: ds' => flat_map (fun i => map (cons i) (all_indices ds')) (seq 0 d)
  end.

Lemma all_indices_valid ds i : In i (all_indices ds) <-> Forall2 lt i ds.
Proof.
  revert i. induction ds as [|d ds IH]; intros i; simpl.
  - split; [intros [<-|[]]; constructor|intros H; inversion H; auto].
  - rewrite in_flat_map. split.
    + intros [a [Ha H]]. apply in_map_iff in H. destruct H as [j [<- Hj]].
      apply in_seq in Ha. constructor; [lia|now apply IH].
    + intros H. inversion H as [|a ? j ? Ha Hj]; subst. exists a.
      split; [apply in_seq; lia|]. apply in_map. now apply IH.
Qed.
Lemma nodup_app {X} (l m : list X) : NoDup l -> NoDup m ->
  (forall x, In x l -> ~ In x m) -> NoDup (l ++ m).
Proof.
  intros Hl Hm D. induction Hl as [|x l Hx Hl IH]; simpl; auto. constructor.
  - rewrite in_app_iff. intros [H|H]; [contradiction|]. apply (D x); simpl; auto.
  - apply IH. intros y Hy. apply D. simpl; auto.
Qed.
Lemma all_indices_nodup ds : NoDup (all_indices ds).
Proof.
  induction ds as [|d ds IH]; simpl; [constructor; [tauto|constructor]|].
  assert (H : forall l, NoDup l -> NoDup (flat_map (fun i => map (cons i) (all_indices ds)) l)).
  { intros l Hl. induction Hl as [|a l Ha Hl IHl]; simpl; [constructor|].
    apply nodup_app; auto.
    - apply Injective_map_NoDup; auto. intros x y E. now inversion E.
    - intros x H1 H2. apply in_map_iff in H1. destruct H1 as [j [<- _]].
      apply in_flat_map in H2. destruct H2 as [b [Hb H2]]. apply in_map_iff in H2.
      destruct H2 as [j' [E _]]. inversion E; subst. contradiction. }
  apply H, seq_NoDup.
Qed.

Lemma fold_app_assoc {A} (op : A -> A -> A) e (assoc : forall a b c, op a (op b c) = op (op a b) c)
  (idl : forall a, op e a = a) l : forall m,
  fold_right op e (l ++ m) = op (fold_right op e l) (fold_right op e m).
Proof. induction l as [|a l IH]; intros m; simpl; [now rewrite idl|]. now rewrite IH, assoc. Qed.

(** [big] is the sum (product) over exactly the indices of the slab. *)
Lemma big_all {A} (op : A -> A -> A) e (assoc : forall a b c, op a (op b c) = op (op a b) c)
  (idl : forall a, op e a = a) (idr : forall a, op a e = a) ds : forall f,
  big op e ds f = fold_right op e (map f (all_indices ds)).
Proof.
  induction ds as [|d ds IH]; intros f; simpl; [now rewrite idr|].
  induction (seq 0 d) as [|i l IHl]; simpl; auto.
  rewrite map_app, (fold_app_assoc op e assoc idl). f_equal; [|exact IHl].
  rewrite IH, map_map. reflexivity.
Qed.

Lemma reduce_last_spec {A} (op : A -> A -> A) e g (t r : tensor A) :
  reduce_last op e g t = Some r -> g <= length (t_shape t) /\
  t_shape r = firstn (length (t_shape t) - g) (t_shape t) /\
  forall i, t_at r i = big op e (skipn (length (t_shape t) - g) (t_shape t)) (fun j => t_at t (i ++ j)).
Proof.
  unfold reduce_last. destruct (Nat.leb_spec g (length (t_shape t))); [|discriminate].
  intros H'; inversion H'; subst; simpl. auto.
Qed.


Lemma knows_length l s : knows (Some l) s -> length l = length s.
Proof. simpl. intros K. induction K; simpl; auto. Qed.
