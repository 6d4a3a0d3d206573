(** Which named arguments the constructors of the distributions accept. *)
From Coq Require Import List String Bool Lia Arith ZArith.
From Verif Require Import ModelCall SpecCall ProofCall ProofCallTab ProofCallMore.
Import ListNotations.
Local Open Scope string_scope.

Lemma gn_sig c : In ("group_ndims", Some (VInt 0)) (dist_sig c).
Proof. destruct c; simpl; tauto. Qed.
Lemma look_tail p e v : p <> "self" -> look p (("self", v) :: e) = look p e.
Proof. intros H. simpl. destruct (String.eqb p "self") eqn:E; [apply String.eqb_eq in E; contradiction|reflexivity]. Qed.
Lemma arg_received c given e p d : fill (dist_sig c) given = Some e -> In (p, d) (dist_sig c) ->
  look p e = received given p d.
Proof. intros F I. refine (fill_look _ _ _ _ _ _ F I). pose proof (dist_names_nodup c) as N. now inversion N. Qed.
Lemma not_sig_look c given e p : fill (dist_sig c) given = Some e -> ~ In p (dist_names c) -> look p e = None.
Proof. intros F N. apply look_None. now rewrite (fill_keys _ _ _ F). Qed.
Lemma is_none_iff v : is_none v = true <-> v = VNone.
Proof. destruct v; simpl; split; congruence. Qed.
Lemma checks_iff c given e : fill (dist_sig c) given = Some e ->
  (checks c (("self", VObj 0) :: e) = true <->
   (c = Normal \/ c = FoldNormal ->
      arg "_sentinel" given = VNone /\ (arg "std" given = VNone <-> arg "logstd" given <> VNone))).
Proof.
  intros F.
  assert (A : forall p, In (p, Some VNone) (dist_sig c) -> p <> "self" -> arg p (("self", VObj 0) :: e) = arg p given).
  { intros p I N. unfold arg. rewrite (look_tail p e _ N), (arg_received _ _ _ _ _ F I). unfold received. now destruct (look p given). }
  assert (B : c = Normal \/ c = FoldNormal -> checks c (("self", VObj 0) :: e) = true <->
      arg "_sentinel" given = VNone /\ (arg "std" given = VNone <-> arg "logstd" given <> VNone)).
  { intros K. replace (checks c (("self", VObj 0) :: e)) with
      (is_none (arg "_sentinel" (("self", VObj 0) :: e)) && xorb (is_none (arg "std" (("self", VObj 0) :: e))) (is_none (arg "logstd" (("self", VObj 0) :: e))))
      by (now destruct K as [->| ->]).
    rewrite !A; try discriminate; try (destruct K as [->| ->]; simpl; tauto).
    rewrite andb_true_iff, is_none_iff.
    pose proof (is_none_iff (arg "std" given)) as P. pose proof (is_none_iff (arg "logstd" given)) as Q.
    destruct (is_none (arg "std" given)), (is_none (arg "logstd" given)); simpl; intuition congruence. }
  split.
  - intros H K. now apply (B K).
  - intros H. destruct c; try reflexivity; apply B; auto.
Qed.
Lemma kwargs_look c given p : ~ In "self" (map fst given) ->
  look p (filter (fun a : string * val => negb (among (fst a) ("self" :: dist_names c))) given) =
  if among p (dist_names c) then None else look p given.
Proof.
  intros S. rewrite (look_filter p (fun y => negb (among y ("self" :: dist_names c)))).
  unfold among at 1. cbn [existsb]. fold (among p (dist_names c)).
  destruct (String.eqb p "self") eqn:E; simpl.
  - apply String.eqb_eq in E. subst. apply look_None in S. rewrite S. now destruct (among _ _).
  - now destruct (among p (dist_names c)).
Qed.
Lemma base_keywords_iff c given : ~ In "self" (map fst given) ->
  (existsb (fun a : string * val => among (fst a) (base_keywords c)) (filter (fun a : string * val => negb (among (fst a) ("self" :: dist_names c))) given) = false <->
   (forall k, In k ["dtype"; "param_dtype"; "is_continuous"; "is_reparameterized"] ->
      In k (map fst given) -> In k (map fst (dist_sig c))) /\
   (c = Empirical \/ c = Implicit -> ~ In "use_path_derivative" (map fst given))).
Proof.
  intros S. rewrite existsb_among. set (kw := filter _ _).
  assert (H : forall k, has k kw = true <-> In k (map fst given) /\ ~ In k (dist_names c)).
  { intros k. unfold has, kw. rewrite kwargs_look by exact S. rewrite <- look_In. destruct (among k (dist_names c)) eqn:E.
    - apply among_In in E. split; [discriminate|tauto].
    - apply among_not in E. destruct (look k given); split; try discriminate; try tauto; intros; split; congruence. }
  assert (X : existsb (fun k => has k kw) (base_keywords c) = false <-> forall k, In k (base_keywords c) -> has k kw = false).
  { rewrite <- not_true_iff_false, existsb_exists. split.
    - intros N k I. apply not_true_is_false. intros T. apply N. eauto.
    - intros A (k & I & T). rewrite (A k I) in T. discriminate. }
  rewrite X. clear X.
  assert (Y : forall k, has k kw = false <-> (In k (map fst given) -> In k (dist_names c))).
  { intros k. rewrite <- not_true_iff_false, H. destruct (in_dec string_dec k (dist_names c)); tauto. }
  split.
  - intros A. split.
    + intros k I. apply Y, A. unfold base_keywords. apply in_or_app. now left.
    + intros K I. assert (J : In "use_path_derivative" (base_keywords c)) by (destruct K as [->| ->]; simpl; tauto).
      apply A in J. pose proof (proj1 (Y _) J I) as D. revert D. destruct K as [->| ->]; notin.
  - intros [A B] k I. apply Y. unfold base_keywords in I. apply in_app_or in I. destruct I as [I|I]; [exact (A k I)|].
    apply in_app_or in I. destruct I as [I|[<-|[]]].
    + destruct c; simpl in I; try tauto; destruct I as [<-|[]]; simpl; try tauto; intros Q; exfalso; apply B; auto.
    + intros _. apply in_map_iff. eexists. split; [|apply gn_sig]. reflexivity.
Qed.
Lemma base_keywords_group c : In "group_ndims" (dist_names c).
Proof. apply in_map_iff. eexists. split; [|apply gn_sig]. reflexivity. Qed.
Lemma group_iff c given e : fill (dist_sig c) given = Some e ->
  (group_ok (arg "group_ndims" (("self", VObj 0) :: e)) = true <-> forall z, look "group_ndims" given = Some (VInt z) -> (0 <= z)%Z).
Proof.
  intros F. unfold arg. rewrite look_tail by discriminate. rewrite (arg_received _ _ _ _ _ F (gn_sig c)). unfold received.
  destruct (look "group_ndims" given) as [[| |z| | |]|]; simpl; split; try easy; intros H.
  - intros z' [= <-]. now apply Z.leb_le.
  - apply Z.leb_le. now apply H.
Qed.
Lemma dist_new_accepts c given : ~ In "self" (map fst given) ->
  ((exists d, dist_new c [] given = Done d) <->
   (forall p, In (p, None) (dist_sig c) -> In p (map fst given)) /\
   (c = Normal \/ c = FoldNormal ->
      arg "_sentinel" given = VNone /\ (arg "std" given = VNone <-> arg "logstd" given <> VNone)) /\
   (forall k, In k ["dtype"; "param_dtype"; "is_continuous"; "is_reparameterized"] ->
      In k (map fst given) -> In k (map fst (dist_sig c))) /\
   (c = Empirical \/ c = Implicit -> ~ In "use_path_derivative" (map fst given)) /\
   ~ In "group_event_ndims" (map fst given) /\
   (forall z, look "group_ndims" given = Some (VInt z) -> (0 <= z)%Z)).
Proof.
  intros S. unfold dist_new. rewrite dist_bind by exact S.
  assert (R : (exists e, fill (dist_sig c) given = Some e) <-> forall p, In (p, None) (dist_sig c) -> In p (map fst given)).
  { pose proof (fill_none (dist_sig c) given) as N. destruct (fill (dist_sig c) given) as [e|].
    - split; [|eauto]. intros _ p I. apply look_In. intros L. assert (Some e = None) by (apply N; eauto). discriminate.
    - split; [intros (e & E); discriminate|]. intros A. destruct (proj1 N eq_refl) as (p & I & L). apply look_None in L. destruct (L (A p I)). }
  rewrite <- R. clear R. destruct (fill (dist_sig c) given) as [e|] eqn:F.
  2: { split; [intros (d & D); discriminate|intros ((e & E) & _); discriminate]. }
  pose proof (checks_iff c given e F) as C. pose proof (base_keywords_iff c given S) as B. pose proof (group_iff c given e F) as G.
  assert (O : has "group_event_ndims" (filter (fun a : string * val => negb (among (fst a) ("self" :: dist_names c))) given) = false <-> ~ In "group_event_ndims" (map fst given)).
  { unfold has. rewrite kwargs_look by exact S. replace (among "group_event_ndims" (dist_names c)) with false by (now destruct c).
    rewrite <- look_In. destruct (look "group_event_ndims" given); split; try congruence; intros Q; destruct Q; discriminate. }
  destruct (checks c (("self", VObj 0) :: e)); cbn [negb].
  2: { split; [intros (d & D); discriminate|]. intros (_ & Q & _). apply C in Q. discriminate. }
  destruct (existsb _ _).
  { split; [intros (d & D); discriminate|]. intros (_ & _ & Q1 & Q2 & _). pose proof (proj2 B (conj Q1 Q2)). discriminate. }
  destruct (has "group_event_ndims" _).
  { split; [intros (d & D); discriminate|]. intros (_ & _ & _ & _ & Q & _). apply O in Q. discriminate. }
  destruct (group_ok _); cbn [negb].
  2: { split; [intros (d & D); discriminate|]. intros (_ & _ & _ & _ & _ & Q). apply G in Q. discriminate. }
  split; [|eauto]. intros _. split; [eauto|]. split; [now apply C|]. destruct (proj1 B eq_refl). repeat (split; [assumption || now apply O|]). now apply G.
Qed.
Lemma dist_new_path c given d : ~ In "self" (map fst given) -> dist_new c [] given = Done d ->
  d_path d = match look "use_path_derivative" given with Some v => v | None => VBool false end.
Proof.
  intros S. intros D. pose proof (proj1 (dist_new_accepts c given S) (ex_intro _ d D)) as (_ & _ & _ & U & _).
  revert D. unfold dist_new. rewrite dist_bind by exact S.
  destruct (fill (dist_sig c) given) as [e|] eqn:F; [|discriminate].
  destruct (negb (checks _ _)); [discriminate|]. destruct (existsb _ _); [discriminate|]. destruct (has "group_event_ndims" _); [discriminate|].
  destruct (negb _); [discriminate|]. intros [= <-]. cbn [d_path].
  unfold has, arg.
  change (fun a : string * val => negb ((fst a =? "self") || among (fst a) (dist_names c))) with
    (fun a : string * val => negb (among (fst a) ("self" :: dist_names c))).
  rewrite kwargs_look by exact S. rewrite look_tail by discriminate.
  destruct (in_dec string_dec "use_path_derivative" (dist_names c)) as [I|N].
  - assert (Q : In ("use_path_derivative", Some (VBool false)) (dist_sig c)).
    { destruct c; simpl in I |- *; try tauto; intuition discriminate. }
    rewrite (arg_received _ _ _ _ _ F Q). unfold received.
    assert (P : passes_path c = true). { destruct c; try reflexivity; simpl in Q; intuition discriminate. }
    rewrite P. now destruct (look "use_path_derivative" given).
  - rewrite (not_sig_look _ _ _ _ F N). rewrite (proj2 (among_not _ _) N).
    destruct (passes_path c) eqn:P; [|reflexivity].
    assert (K : c = Empirical \/ c = Implicit). { destruct c; try discriminate P; try (left; reflexivity); try (right; reflexivity); exfalso; apply N; simpl; tauto. }
    apply U in K. apply look_None in K. now rewrite K.
Qed.
