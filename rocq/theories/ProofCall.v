(** Lemmas on Python argument binding. *)
From Coq Require Import List String Bool Lia Arith.
From Verif Require Import ModelCall SpecCall.
Import ListNotations.
Local Open Scope string_scope.

Lemma among_In k ks : among k ks = true <-> In k ks.
Proof.
  unfold among. rewrite existsb_exists. split.
  - intros (x & H & E). apply String.eqb_eq in E. now subst.
  - intros H. exists k. split; [assumption|apply String.eqb_refl].
Qed.
Lemma among_not k ks : among k ks = false <-> ~ In k ks.
Proof. rewrite <- among_In. destruct (among k ks); split; intros; congruence. Qed.
Lemma look_In k l : look k l <> None <-> In k (map fst l).
Proof.
  induction l as [|[x v] l IH]; simpl.
  - split; [congruence|tauto].
  - destruct (String.eqb k x) eqn:E.
    + apply String.eqb_eq in E. subst. split; [auto|congruence].
    + apply String.eqb_neq in E. rewrite IH. split; [auto|]. intros [H|H]; [congruence|assumption].
Qed.
Lemma look_None k l : look k l = None <-> ~ In k (map fst l).
Proof.
  rewrite <- look_In. destruct (look k l); split; intros H; try congruence.
  destruct H. congruence.
Qed.
Lemma has_look k l : has k l = true <-> In k (map fst l).
Proof. rewrite <- look_In. unfold has. destruct (look k l); split; congruence. Qed.
Lemma look_app k a b : look k (a ++ b)%list = match look k a with Some v => Some v | None => look k b end.
Proof. induction a as [|[x v] a IH]; simpl; [reflexivity|]. destruct (String.eqb k x); auto. Qed.
Lemma look_filter k (f : string -> bool) l :
  look k (filter (fun a => f (fst a)) l) = if f k then look k l else None.
Proof.
  induction l as [|[x v] l IH]; simpl.
  - now destruct (f k).
  - destruct (f x) eqn:F; simpl.
    + destruct (String.eqb k x) eqn:E.
      * apply String.eqb_eq in E. subst. now rewrite F.
      * exact IH.
    + destruct (String.eqb k x) eqn:E.
      * apply String.eqb_eq in E. subst. now rewrite IH, F.
      * exact IH.
Qed.
Lemma has_app k a b : has k (a ++ b)%list = has k a || has k b.
Proof. unfold has. rewrite look_app. destruct (look k a); reflexivity. Qed.

(** ** Binding *)
Lemma bind_pos_spec s pos : (List.length pos <= List.length s)%nat ->
  bind_pos s pos = Some (combine (map fst s) pos, skipn (List.length pos) s).
Proof.
  revert s. induction pos as [|v pos IH]; intros [|[p d] s] H; simpl in *; try reflexivity; try lia.
  rewrite IH by lia. reflexivity.
Qed.
Lemma bind_pos_nil s : bind_pos s [] = Some ([], s).
Proof. now destruct s. Qed.
Lemma bind_pos_none s pos : (List.length s < List.length pos)%nat -> bind_pos s pos = None.
Proof.
  revert s. induction pos as [|v pos IH]; intros [|[p d] s] H; simpl in *; try reflexivity; try lia.
  rewrite IH by lia. reflexivity.
Qed.
Lemma fill_ext s kw kw' : (forall p d, In (p, d) s -> received kw p d = received kw' p d) -> fill s kw = fill s kw'.
Proof.
  induction s as [|[p d] s IH]; intros H; simpl; [reflexivity|].
  fold (received kw p d). fold (received kw' p d). rewrite (H p d) by (left; reflexivity). rewrite IH; [reflexivity|].
  intros; apply H; now right.
Qed.
Lemma fill_look s kw e p d : NoDup (map fst s) -> fill s kw = Some e -> In (p, d) s -> look p e = received kw p d.
Proof.
  revert e. induction s as [|[q d'] s IH]; intros e N F I; [destruct I|].
  simpl in F. fold (received kw q d') in F. destruct (received kw q d') as [v|] eqn:V; [|discriminate].
  destruct (fill s kw) as [b|] eqn:B; [|discriminate]. inversion F; subst e; clear F. simpl in N. inversion N; subst.
  simpl. destruct (String.eqb p q) eqn:E.
  - apply String.eqb_eq in E. subst. destruct I as [I|I]; [now inversion I; subst|].
    destruct H1. change q with (fst (q, d)). now apply in_map.
  - destruct I as [I|I]; [inversion I; subst; rewrite String.eqb_refl in E; discriminate|]. eauto.
Qed.
Lemma fill_keys s kw e : fill s kw = Some e -> map fst e = map fst s.
Proof.
  revert e. induction s as [|[q d'] s IH]; intros e F; simpl in F; [inversion F; reflexivity|].
  destruct (match look q kw with Some v => Some v | None => d' end); [|discriminate].
  destruct (fill s kw); [|discriminate]. inversion F. simpl. f_equal. now apply IH.
Qed.
Lemma fill_none s kw : fill s kw = None <-> exists p, In (p, None) s /\ look p kw = None.
Proof.
  induction s as [|[q d] s IH]; simpl.
  - split; [discriminate|intros (p & [] & _)].
  - destruct (match look q kw with Some v => Some v | None => d end) as [v|] eqn:V.
    + destruct (fill s kw).
      * split; [discriminate|]. intros (p & [E|I] & L).
        -- inversion E; subst. rewrite L in V. discriminate.
        -- assert (Some d0 = None) by (apply IH; eauto). discriminate.
      * split; [|reflexivity]. intros _. destruct IH as [IH _]. destruct (IH eq_refl) as (p & I & L). exists p. auto.
    + split; [|reflexivity]. intros _. exists q. destruct (look q kw); [discriminate|]. subst d. auto.
Qed.

(** A call with positional arguments is the call with all arguments by name. *)
Lemma fill_combine s pos kw : NoDup (map fst s) -> (List.length pos <= List.length s)%nat ->
  NoDup (map fst (by_name s pos kw)) ->
  fill s (by_name s pos kw) = option_map (fun b => (combine (map fst s) pos ++ b)%list) (fill (skipn (List.length pos) s) kw).
Proof.
  unfold by_name. revert s. induction pos as [|v pos IH]; intros s N L D.
  - replace (combine (map fst s) []) with (@nil (string * val)) by (now destruct s).
    cbn [app List.length skipn]. now destruct (fill s kw).
  - destruct s as [|[p d] s]; [simpl in L; lia|]. simpl in N, L, D. inversion N; inversion D; subst.
    simpl. rewrite String.eqb_refl.
    rewrite (fill_ext s _ (combine (map fst s) pos ++ kw)%list).
    + rewrite IH by (auto; lia). destruct (fill (skipn (List.length pos) s) kw); reflexivity.
    + intros q d' I. unfold received. simpl. destruct (String.eqb q p) eqn:E; [|reflexivity].
      apply String.eqb_eq in E. subst. destruct H1. change p with (fst (p, d')). now apply in_map.
Qed.
Lemma filter_none {A} (f : A -> bool) l : (forall a, In a l -> f a = false) -> filter f l = [].
Proof. induction l; simpl; intros H; [reflexivity|]. rewrite (H a) by auto. auto. Qed.
Lemma existsb_has_app (l1 l2 : dict) : NoDup (map fst (l1 ++ l2)%list) -> existsb (fun a => has (fst a) l1) l2 = false.
Proof.
  intros N. destruct (existsb _ l2) eqn:E; [|reflexivity].
  apply existsb_exists in E. destruct E as ([k v] & I & H). apply has_look in H.
  rewrite map_app in N. exfalso.
  assert (In k (map fst l2)) by (change k with (fst (k, v)); now apply in_map).
  simpl in H. revert N H H0. generalize (map fst l1) as a, (map fst l2) as b. clear. intros a b.
  induction a; simpl; intros N H1 H2; [assumption|]. inversion N; subst. destruct H1 as [->|H1]; [|auto].
  apply H3. apply in_or_app. now right.
Qed.
Lemma bind_named s pos kw : NoDup (map fst s) -> well_formed s pos kw -> bind s pos kw = bind s [] (by_name s pos kw).
Proof.
  intros N [L D]. unfold bind at 1. rewrite bind_pos_spec by assumption.
  rewrite existsb_has_app by assumption.
  unfold bind. rewrite bind_pos_nil.
  assert (E : existsb (fun a : string * val => has (fst a) []) (by_name s pos kw) = false).
  { apply not_true_is_false. intros H. apply existsb_exists in H. destruct H as (a & _ & H). discriminate. }
  rewrite E. rewrite fill_combine by assumption.
  destruct (fill (skipn (List.length pos) s) kw) as [b|]; simpl; [|reflexivity]. f_equal. f_equal.
  unfold by_name. rewrite filter_app. rewrite (filter_none _ (combine (map fst s) pos)); [reflexivity|].
  intros [p v] I. apply negb_false_iff, among_In. simpl. eapply in_combine_l; eassumption.
Qed.
Lemma bind_by_keywords s kw : bind s [] kw =
  match fill s kw with Some e => Some (e, filter (fun a => negb (among (fst a) (map fst s))) kw) | None => None end.
Proof.
  unfold bind. rewrite bind_pos_nil.
  assert (E : existsb (fun a : string * val => has (fst a) []) kw = false).
  { apply not_true_is_false. intros H. apply existsb_exists in H. destruct H as (a & _ & H). discriminate. }
  rewrite E. now destruct (fill s kw).
Qed.
Lemma bind_too_many s pos kw : (List.length s < List.length pos)%nat -> bind s pos kw = None.
Proof. intros H. unfold bind. now rewrite bind_pos_none. Qed.
Lemma bind_twice s pos kw k : NoDup (map fst s) -> (List.length pos <= List.length s)%nat ->
  In k (firstn (List.length pos) (map fst s)) -> In k (map fst kw) -> bind s pos kw = None.
Proof.
  intros N L I1 I2. unfold bind. rewrite bind_pos_spec by assumption.
  assert (E : existsb (fun a => has (fst a) (combine (map fst s) pos)) kw = true).
  { apply in_map_iff in I2. destruct I2 as ([k' v] & <- & I2). apply existsb_exists. exists (k', v). split; [assumption|].
    apply has_look. simpl in *. clear - I1 L. revert s L I1. induction pos as [|x pos IH]; intros [|[p d] s] L I; simpl in *; try tauto; try lia.
    destruct I as [->|I]; [auto|]. right. apply IH; [lia|assumption]. }
  now rewrite E.
Qed.

(** ** Distributions depend on what each name means, not on how it was passed *)
Lemma existsb_among ks (l : dict) : existsb (fun a => among (fst a) ks) l = existsb (fun k => has k l) ks.
Proof.
  apply eq_true_iff_eq. rewrite !existsb_exists. split.
  - intros ([k v] & I & A). apply among_In in A. exists k. split; [assumption|]. apply has_look. change k with (fst (k, v)). now apply in_map.
  - intros (k & I & H). apply has_look in H. apply in_map_iff in H. destruct H as (a & <- & J). exists a. split; [assumption|]. now apply among_In.
Qed.
Lemma existsb_has_ext ks l l' : (forall k, In k ks -> look k l = look k l') -> existsb (fun k => has k l) ks = existsb (fun k => has k l') ks.
Proof.
  induction ks; simpl; intros H; [reflexivity|]. unfold has at 1 3. rewrite (H a) by auto. rewrite IHks by auto. reflexivity.
Qed.
Definition dist_names (c : cls) : list string := map fst (dist_sig c).
Lemma dist_names_nodup c : NoDup ("self" :: dist_names c).
Proof. destruct c; repeat constructor; simpl; intuition discriminate. Qed.
Lemma dist_new_named c pos kw : well_formed (dist_sig c) pos kw -> ~ In "self" (map fst kw) ->
  dist_new c pos kw = dist_new c [] (by_name (dist_sig c) pos kw).
Proof.
  intros [L D] S. unfold dist_new.
  assert (ND := dist_names_nodup c).
  rewrite (bind_named _ (VObj 0 :: pos) kw).
  2: exact ND.
  2: { split; [simpl; lia|]. unfold by_name. simpl. constructor; [|exact D].
       rewrite map_app. intros I. apply in_app_or in I. destruct I as [I|I]; [|contradiction].
       inversion ND; subst. apply H1. apply in_map_iff in I. destruct I as ([k v] & <- & I). eapply in_combine_l; eassumption. }
  rewrite (bind_named _ [VObj 0] (by_name (dist_sig c) pos kw)).
  2: exact ND.
  2: { split; [simpl; lia|]. unfold by_name at 1. simpl. rewrite combine_nil. simpl. constructor; [|exact D].
       unfold by_name. rewrite map_app. intros I. apply in_app_or in I. destruct I as [I|I]; [|contradiction].
       inversion ND; subst. apply H1. apply in_map_iff in I. destruct I as ([k v] & <- & I). eapply in_combine_l; eassumption. }
  replace (by_name (req "self" :: dist_sig c) [VObj 0] (by_name (dist_sig c) pos kw))
    with (by_name (req "self" :: dist_sig c) (VObj 0 :: pos) kw); [reflexivity|].
  unfold by_name. simpl. rewrite combine_nil. reflexivity.
Qed.
(** The environment of a distribution called by keywords. *)
Lemma dist_bind c kw : ~ In "self" (map fst kw) ->
  bind (req "self" :: dist_sig c) [VObj 0] kw =
  match fill (dist_sig c) kw with
  | Some e => Some (("self", VObj 0) :: e, filter (fun a => negb (among (fst a) ("self" :: dist_names c))) kw)
  | None => None end.
Proof.
  intros S. unfold bind. change (bind_pos (req "self" :: dist_sig c) [VObj 0]) with
    (match bind_pos (dist_sig c) [] with Some (b, r) => Some (("self", VObj 0) :: b, r) | None => None end).
  rewrite bind_pos_nil.
  assert (E : existsb (fun a : string * val => has (fst a) [("self", VObj 0)]) kw = false).
  { apply not_true_is_false. intros H. apply existsb_exists in H. destruct H as (a & I & H). apply has_look in H. simpl in H.
    destruct H as [H|[]]. apply S. rewrite H. now apply in_map. }
  rewrite E. destruct (fill (dist_sig c) kw); reflexivity.
Qed.
Definition base_reads (c : cls) : list string := base_keywords c ++ ["group_event_ndims"; "use_path_derivative"].
Lemma dist_new_ext c kw kw' : ~ In "self" (map fst kw) -> ~ In "self" (map fst kw') ->
  (forall p d, In (p, d) (dist_sig c) -> received kw p d = received kw' p d) ->
  (forall k, ~ In k (dist_names c) -> In k (base_reads c) -> look k kw = look k kw') ->
  dist_new c [] kw = dist_new c [] kw'.
Proof.
  intros S S' R K. unfold dist_new. rewrite !dist_bind by assumption. rewrite (fill_ext _ _ _ R).
  destruct (fill (dist_sig c) kw') as [e|]; [|reflexivity].
  set (k1 := filter _ kw). set (k2 := filter _ kw').
  assert (L : forall k, In k (base_reads c) -> look k k1 = look k k2).
  { intros k I. unfold k1, k2. rewrite !(look_filter k (fun x => negb (among x ("self" :: dist_names c)))). destruct (among k ("self" :: dist_names c)) eqn:A; [reflexivity|].
    simpl. apply K; [|assumption]. apply among_not in A. intros J. apply A. now right. }
  rewrite !existsb_among. rewrite (existsb_has_ext _ k1 k2).
  2: { intros k I. apply L. unfold base_reads. apply in_or_app. now left. }
  unfold has at 2 5. rewrite (L "group_event_ndims") by (unfold base_reads; apply in_or_app; right; simpl; auto).
  rewrite (L "use_path_derivative") by (unfold base_reads; apply in_or_app; right; simpl; auto).
  reflexivity.
Qed.

(** ** Named constructors *)
Definition passed (w : wrapper) : list string := (w_pos w ++ map fst (w_kw w))%list.
Record fits (c : cls) (w : wrapper) (dropped : list string) : Prop := {
  f_head : exists s, w_sig w = req "name" :: s;
  f_nodup : NoDup ("self" :: map fst (w_sig w));
  f_passed : NoDup (passed w);
  f_pos : w_pos w = firstn (List.length (w_pos w)) (dist_names c);
  f_same : forall a, In a (w_kw w) -> fst a = snd a;
  f_known : forall p, In p (passed w) -> ~ In p ("name" :: dropped) /\
    exists d d', In (p, d) (w_sig w) /\ In (p, d') (dist_sig c) /\ (d = None \/ d = d');
  f_all : forall p, In p (map fst (w_sig w)) -> p = "name" \/ In p dropped \/ In p (passed w);
  f_dropped : forall p, In p dropped -> p = "n_samples" \/ (In p (map fst (w_sig w)) /\ ~ In p ("n_samples" :: passed w));
  f_samples : In "n_samples" dropped;
  f_samples_sig : if w_samples w then In ("n_samples", Some VNone) (w_sig w) else ~ In "n_samples" (map fst (w_sig w))
}.
Lemma look_map (f : string -> val) ks p : look p (map (fun k => (k, f k)) ks) = if among p ks then Some (f p) else None.
Proof.
  induction ks as [|k ks IH]; simpl; [reflexivity|]. destruct (String.eqb p k) eqn:E; simpl.
  - apply String.eqb_eq in E. now subst.
  - exact IH.
Qed.
Lemma combine_map_firstn (f : string -> val) ks names : ks = firstn (List.length ks) names ->
  combine names (map f ks) = map (fun k => (k, f k)) ks.
Proof.
  revert names. induction ks as [|k ks IH]; intros [|n names] E; simpl in *; try reflexivity; try discriminate.
  injection E as -> E. f_equal. now apply IH.
Qed.
Lemma look_unique p d d' (s : sig) : NoDup (map fst s) -> In (p, d) s -> In (p, d') s -> d = d'.
Proof.
  induction s as [|[q x] s IH]; simpl; intros N I J; [destruct I|]. inversion N; subst.
  destruct I as [I|I], J as [J|J].
  - congruence.
  - inversion I; subst. destruct H1. change p with (fst (p, d')). now apply in_map.
  - inversion J; subst. destruct H1. change p with (fst (p, d)). now apply in_map.
  - auto.
Qed.
Lemma nodup_app {A} (a b : list A) : NoDup a -> NoDup b -> (forall x, In x a -> ~ In x b) -> NoDup (a ++ b)%list.
Proof.
  induction a; simpl; intros N M D; [assumption|]. inversion N; subst. constructor.
  - intros I. apply in_app_or in I. destruct I as [I|I]; [contradiction|]. exact (D a (or_introl eq_refl) I).
  - apply IHa; auto.
Qed.
Lemma nodup_filter_keys (f : string * val -> bool) (l : dict) : NoDup (map fst l) -> NoDup (map fst (filter f l)).
Proof.
  induction l as [|a l IH]; simpl; intros N; [constructor|]. inversion N; subst.
  destruct (f a); simpl; auto. constructor; auto.
  intros I. apply H1. apply in_map_iff in I. destruct I as (b & <- & I). apply in_map. apply filter_In in I. tauto.
Qed.
Lemma keys_filter (f : string -> bool) (l : dict) k : In k (map fst (filter (fun a => f (fst a)) l)) <-> In k (map fst l) /\ f k = true.
Proof.
  rewrite !in_map_iff. split.
  - intros (a & <- & I). apply filter_In in I. destruct I. split; eauto.
  - intros ((a & <- & I) & F). exists a. split; [reflexivity|]. apply filter_In. auto.
Qed.

Section Wrap.
Variables (c : cls) (w : wrapper) (dropped : list string).
Hypothesis F : fits c w dropped.
Hypothesis base_unread : forall k, In k dropped -> ~ In k (base_reads c) \/ In k (dist_names c).
Hypothesis samples_unread : ~ In "n_samples" (dist_names c).
Variables (nm x : val) (given : dict).
Hypothesis nodup : NoDup (map fst given).
Hypothesis no_name : ~ In "name" (map fst given).
Hypothesis no_self : ~ In "self" (map fst given).
Let kwargs := filter (fun a => negb (among (fst a) ("self" :: map fst (w_sig w)))) (("name", nm) :: given).

Lemma name_in : In "name" (map fst (w_sig w)).
Proof. destruct (f_head _ _ _ F) as (s & ->). now left. Qed.
Lemma kwargs_given : kwargs = filter (fun a => negb (among (fst a) ("self" :: map fst (w_sig w)))) given.
Proof.
  unfold kwargs. cbn [filter fst].
  assert (A : among "name" ("self" :: map fst (w_sig w)) = true) by (apply among_In; right; apply name_in).
  rewrite A. reflexivity.
Qed.
Lemma look_kwargs k : look k kwargs = if among k (map fst (w_sig w)) then None else look k given.
Proof.
  rewrite kwargs_given. rewrite (look_filter k (fun y => negb (among y ("self" :: map fst (w_sig w))))).
  unfold among at 1. cbn [existsb]. fold (among k (map fst (w_sig w))).
  destruct (String.eqb k "self") eqn:E; simpl.
  - apply String.eqb_eq in E. subst. assert (look "self" given = None) as -> by now apply look_None.
    now destruct (among _ _).
  - now destruct (among _ _).
Qed.
Lemma keys_kwargs k : In k (map fst kwargs) -> In k (map fst given) /\ ~ In k (map fst (w_sig w)).
Proof.
  rewrite kwargs_given. intros I. apply (keys_filter (fun y => negb (among y ("self" :: map fst (w_sig w))))) in I.
  destruct I as [I N]. split; [assumption|]. apply negb_true_iff, among_not in N. intros J. apply N. now right.
Qed.
Variable e : dict.
Hypothesis filled : fill (w_sig w) (("name", nm) :: given) = Some e.

Lemma wsig_nodup : NoDup (map fst (w_sig w)).
Proof. pose proof (f_nodup _ _ _ F) as N. now inversion N. Qed.
Lemma arg_e p d : In (p, d) (w_sig w) -> p <> "name" -> Some (arg p (("self", x) :: e)) = received given p d.
Proof.
  intros I N. assert (L := fill_look _ _ _ _ _ wsig_nodup filled I).
  assert (S : p <> "self").
  { intros ->. pose proof (f_nodup _ _ _ F) as D. inversion D; subst. apply H1. change "self" with (fst ("self", d)). now apply in_map. }
  unfold arg. cbn [look]. destruct (String.eqb p "self") eqn:E1; [apply String.eqb_eq in E1; contradiction|].
  assert (R : received (("name", nm) :: given) p d = received given p d).
  { unfold received. cbn [look]. destruct (String.eqb p "name") eqn:E2; [apply String.eqb_eq in E2; contradiction|reflexivity]. }
  rewrite R in L. rewrite L. destruct (received given p d) eqn:V; [reflexivity|].
  assert (In p (map fst e)). { rewrite (fill_keys _ _ _ filled). change p with (fst (p, d)). now apply in_map. }
  apply look_In in H. congruence.
Qed.
Lemma arg_name : arg "name" (("self", x) :: e) = nm.
Proof.
  destruct (f_head _ _ _ F) as (s & Hs). unfold arg. cbn [look]. cbn [String.eqb].
  change (String.eqb "name" "self") with false. cbv iota.
  rewrite (fill_look _ _ _ "name" None wsig_nodup filled); [reflexivity|]. rewrite Hs. now left.
Qed.

Definition gathered : dict := (map (fun p => (p, arg p (("self", x) :: e))) (passed w) ++ kwargs)%list.
Lemma gathered_split : gathered = (map (fun p => (p, arg p (("self", x) :: e))) (w_pos w) ++
  (map (fun p => (p, arg p (("self", x) :: e))) (map fst (w_kw w)) ++ kwargs))%list.
Proof. unfold gathered, passed. now rewrite (map_app (fun p => (p, arg p (("self", x) :: e)))), app_assoc. Qed.
Lemma look_gathered k : look k gathered = if among k (passed w) then Some (arg k (("self", x) :: e)) else look k kwargs.
Proof. unfold gathered. rewrite look_app, look_map. now destruct (among k (passed w)). Qed.
Lemma passed_sig p : In p (passed w) -> In p (map fst (w_sig w)).
Proof. intros I. destruct (f_known _ _ _ F p I) as [_ (d & d' & J & _)]. change p with (fst (p, d)). now apply in_map. Qed.
Lemma gathered_keys : map fst gathered = (passed w ++ map fst kwargs)%list.
Proof. unfold gathered. rewrite map_app, map_map. simpl. now rewrite map_id. Qed.
Lemma gathered_nodup : NoDup (map fst gathered).
Proof.
  rewrite gathered_keys. apply nodup_app.
  - exact (f_passed _ _ _ F).
  - rewrite kwargs_given. now apply nodup_filter_keys.
  - intros k I J. apply keys_kwargs in J. destruct J as [_ J]. apply J. now apply passed_sig.
Qed.
Lemma gathered_self : ~ In "self" (map fst gathered).
Proof.
  rewrite gathered_keys. intros I. apply in_app_or in I. destruct I as [I|I].
  - apply passed_sig in I. pose proof (f_nodup _ _ _ F) as N. now inversion N.
  - apply keys_kwargs in I. tauto.
Qed.
Lemma inner_ok : inner_dist c w (("self", x) :: e) kwargs = dist_new c [] (without dropped given).
Proof.
  unfold inner_dist.
  assert (M : map (fun a => (fst a, arg (snd a) (("self", x) :: e))) (w_kw w) =
              map (fun p => (p, arg p (("self", x) :: e))) (map fst (w_kw w))).
  { rewrite map_map. apply map_ext_in. intros a I. now rewrite (f_same _ _ _ F a I). }
  rewrite M. unfold splat.
  assert (S : existsb (fun a => has (fst a) (map (fun p => (p, arg p (("self", x) :: e))) (map fst (w_kw w)))) kwargs = false).
  { apply existsb_has_app. pose proof gathered_nodup as G. rewrite gathered_split, map_app in G.
    revert G. generalize (map fst (map (fun p => (p, arg p (("self", x) :: e))) (w_pos w))). intros l. induction l; simpl; intros G; [exact G|].
    inversion G; auto. }
  rewrite S.
  assert (B : by_name (dist_sig c) (map (fun p => arg p (("self", x) :: e)) (w_pos w))
                (map (fun p => (p, arg p (("self", x) :: e))) (map fst (w_kw w)) ++ kwargs)%list = gathered).
  { unfold by_name. rewrite gathered_split. now rewrite (combine_map_firstn _ _ _ (f_pos _ _ _ F)). }
  rewrite dist_new_named.
  2: { split.
       - rewrite map_length. rewrite (f_pos _ _ _ F). rewrite firstn_length. unfold dist_names. rewrite map_length. lia.
       - rewrite B. apply gathered_nodup. }
  2: { intros I. apply gathered_self. rewrite gathered_split, map_app.
       apply in_or_app. now right. }
  rewrite B. apply dist_new_ext.
  - apply gathered_self.
  - intros I. apply (keys_filter (fun y => negb (among y dropped))) in I. tauto.
  - intros p d I. unfold received at 1. rewrite look_gathered. unfold received, without.
    rewrite (look_filter p (fun y => negb (among y dropped))).
    destruct (among p (passed w)) eqn:A.
    + apply among_In in A. destruct (f_known _ _ _ F p A) as [N (d1 & d2 & I1 & I2 & E)].
      assert (d2 = d). { pose proof (dist_names_nodup c) as DN. inversion DN. eapply look_unique; eassumption. } subst d2.
      assert (DR : among p dropped = false). { apply among_not. intros J. apply N. now right. }
      rewrite DR. cbn [negb]. rewrite (arg_e p d1 I1) by (intros ->; apply N; now left).
      unfold received. destruct (look p given) eqn:G; [reflexivity|].
      destruct E as [->|E]; [|exact E].
      pose proof (arg_e p None I1) as Q. unfold received in Q. rewrite G in Q.
      discriminate Q. intros ->. apply N. now left.
    + rewrite look_kwargs. apply among_not in A. destruct (among p dropped) eqn:DR; cbn [negb].
      * apply among_In in DR. destruct (f_dropped _ _ _ F p DR) as [->|[J _]].
        -- destruct samples_unread. change "n_samples" with (fst ("n_samples", d)). unfold dist_names. now apply in_map.
        -- apply among_In in J. now rewrite J.
      * destruct (among p (map fst (w_sig w))) eqn:W; [|reflexivity].
        apply among_In in W. apply (f_all _ _ _ F) in W. apply among_not in DR.
        destruct W as [->|[W|W]]; try contradiction.
        assert (look "name" given = None) as -> by now apply look_None. reflexivity.
  - intros k N I. rewrite look_gathered. unfold without. rewrite (look_filter k (fun y => negb (among y dropped))).
    destruct (among k (passed w)) eqn:A.
    + apply among_In in A. destruct (f_known _ _ _ F k A) as [_ (d1 & d2 & _ & I2 & _)]. destruct N.
      change k with (fst (k, d2)). unfold dist_names. now apply in_map.
    + rewrite look_kwargs. apply among_not in A. destruct (among k dropped) eqn:DR; cbn [negb].
      * apply among_In in DR. destruct (base_unread k DR); contradiction.
      * destruct (among k (map fst (w_sig w))) eqn:W; [|reflexivity].
        apply among_In in W. apply (f_all _ _ _ F) in W. apply among_not in DR.
        destruct W as [->|[W|W]]; try contradiction. symmetry. now apply look_None.
Qed.
Lemma samples_ok : exists kw', splat (samples_kw w (("self", x) :: e)) kwargs = Some kw' /\
  (forall k, look k kw' = if String.eqb k "n_samples" then (if w_samples w then Some (arg "n_samples" given) else look k given)
                          else look k kwargs) /\
  (forall k, In k (map fst kw') -> k = "n_samples" \/ In k (map fst given) /\ ~ In k (map fst (w_sig w))).
Proof.
  pose proof (f_samples_sig _ _ _ F) as Hs. unfold samples_kw. destruct (w_samples w).
  - assert (N : existsb (fun a => has (fst a) [("n_samples", arg "n_samples" (("self", x) :: e))]) kwargs = false).
    { apply not_true_is_false. intros H. apply existsb_exists in H. destruct H as (a & I & H). apply has_look in H. simpl in H.
      destruct H as [H|[]]. assert (In "n_samples" (map fst kwargs)) by (rewrite H; now apply in_map).
      apply keys_kwargs in H0. destruct H0 as [_ H0]. apply H0. change "n_samples" with (fst ("n_samples", Some VNone)). now apply in_map. }
    unfold splat. rewrite N. eexists. split; [reflexivity|]. split.
    + intros k. cbn [app look]. destruct (String.eqb k "n_samples") eqn:E; [|reflexivity].
      rewrite (arg_e "n_samples" _ Hs) by discriminate. unfold received, arg. now destruct (look "n_samples" given).
    + intros k. simpl. intros [<-|I]; [auto|]. right. now apply keys_kwargs.
  - exists kwargs. unfold splat.
    assert (N : existsb (fun a => has (fst a) []) kwargs = false).
    { apply not_true_is_false. intros H. apply existsb_exists in H. destruct H as (a & I & H). discriminate. }
    rewrite N. split; [reflexivity|]. split.
    + intros k. destruct (String.eqb k "n_samples") eqn:E; [|reflexivity]. apply String.eqb_eq in E. subst.
      rewrite look_kwargs. apply among_not in Hs. now rewrite Hs.
    + intros k I. right. now apply keys_kwargs.
Qed.
End Wrap.

Section CallMethod.
Variables (c : cls) (w : wrapper) (dropped : list string).
Hypothesis F : fits c w dropped.
Hypothesis base_unread : forall k, In k dropped -> ~ In k (base_reads c) \/ In k (dist_names c).
Hypothesis samples_unread : ~ In "n_samples" (dist_names c).
Hypothesis clean : forall k, In k ["self"; "bn"; "dist"; "observation"] -> ~ In k (map fst (w_sig w)).
Variables (nm x : val) (pos : list val) (kw : dict).
Hypothesis WF : well_formed (user_sig w) pos kw.
Hypothesis no_name : ~ In "name" (map fst kw).
Hypothesis no_self : ~ In "self" (map fst kw).
Let given := by_name (user_sig w) pos kw.
Hypothesis complete : forall p, In (p, None) (w_sig w) -> p <> "name" -> In (p, None) (dist_sig c) /\ ~ In p dropped \/ In p (map fst given).
Let kwargs := filter (fun a => negb (among (fst a) ("self" :: map fst (w_sig w)))) (("name", nm) :: given).

Lemma sig_split : w_sig w = req "name" :: user_sig w.
Proof. unfold user_sig. destruct (f_head _ _ _ F) as (s & ->). reflexivity. Qed.
Lemma given_keys k : In k (map fst given) -> In k (map fst (user_sig w)) \/ In k (map fst kw).
Proof.
  unfold given, by_name. rewrite map_app. intros I. apply in_app_or in I. destruct I as [I|I]; [left|now right].
  apply in_map_iff in I. destruct I as ([p v] & <- & I). eapply in_combine_l; eassumption.
Qed.
Lemma given_no_name : ~ In "name" (map fst given).
Proof.
  intros I. apply given_keys in I. destruct I as [I|I]; [|contradiction].
  pose proof (f_nodup _ _ _ F) as N. rewrite sig_split in N. inversion N; subst. inversion H2; subst. contradiction.
Qed.
Lemma given_no_self : ~ In "self" (map fst given).
Proof.
  intros I. apply given_keys in I. destruct I as [I|I]; [|contradiction].
  pose proof (f_nodup _ _ _ F) as N. rewrite sig_split in N. inversion N; subst. apply H1. now right.
Qed.
Lemma call_bind : bind (req "self" :: w_sig w) (x :: nm :: pos) kw =
  match fill (w_sig w) (("name", nm) :: given) with Some e => Some (("self", x) :: e, kwargs) | None => None end.
Proof.
  pose proof (f_nodup _ _ _ F) as N.
  destruct WF as [L D].
  assert (B : by_name (req "self" :: w_sig w) (x :: nm :: pos) kw = ("self", x) :: ("name", nm) :: given).
  { rewrite sig_split. reflexivity. }
  rewrite bind_named; [|exact N|].
  2: { split.
       - rewrite sig_split. simpl. lia.
       - rewrite B. simpl. constructor; [|constructor].
         + intros [I|I]; [discriminate|]. now apply given_no_self.
         + apply given_no_name.
         + exact D. }
  rewrite B, bind_by_keywords.
  change (fill (req "self" :: w_sig w) (("self", x) :: ("name", nm) :: given)) with
    (match fill (w_sig w) (("self", x) :: ("name", nm) :: given) with Some b => Some (("self", x) :: b) | None => None end).
  rewrite (fill_ext (w_sig w) _ (("name", nm) :: given)).
  - destruct (fill (w_sig w) (("name", nm) :: given)); [|reflexivity]. reflexivity.
  - intros p d I. unfold received. cbn [look]. destruct (String.eqb p "self") eqn:E; [|reflexivity].
    apply String.eqb_eq in E. subst. inversion N; subst. destruct H1. change "self" with (fst ("self", d)). now apply in_map.
Qed.
Lemma missing : fill (w_sig w) (("name", nm) :: given) = None -> dist_new c [] (without dropped given) = TypeErr.
Proof.
  intros H. apply fill_none in H. destruct H as (p & I & L). cbn [look] in L.
  destruct (String.eqb p "name") eqn:E; [discriminate|]. apply String.eqb_neq in E.
  destruct (complete p I E) as [[J K]|J].
  2: { apply look_In in J. contradiction. }
  unfold dist_new. rewrite dist_bind.
  2: { unfold without. intros Q. apply (keys_filter (fun y => negb (among y dropped))) in Q. now apply given_no_self. }
  assert (fill (dist_sig c) (without dropped given) = None) as ->; [|reflexivity].
  apply fill_none. exists p. split; [exact J|]. unfold without. rewrite (look_filter p (fun y => negb (among y dropped))).
  now destruct (negb (among p dropped)).
Qed.
Lemma tensor_ok bn d kw' : (forall k, In k (map fst kw') -> ~ In k ["self"; "bn"; "name"; "dist"]) ->
  tensor_new bn nm d kw' = Done (Node bn nm d (arg "observation" kw') (arg "n_samples" kw')).
Proof.
  intros C. unfold tensor_new, bind. change (bind_pos tensor_sig [VObj 0; bn; nm; VObj 1]) with
    (Some ([("self", VObj 0); ("bn", bn); ("name", nm); ("dist", VObj 1)], [opt "observation" VNone])).
  cbv iota beta.
  assert (E : existsb (fun a : string * val => has (fst a) [("self", VObj 0); ("bn", bn); ("name", nm); ("dist", VObj 1)]) kw' = false).
  { apply not_true_is_false. intros H. apply existsb_exists in H. destruct H as (a & I & H). apply has_look in H.
    apply (C (fst a)); [now apply in_map|exact H]. }
  rewrite E. cbn [fill opt fst snd].
  assert (NS : arg "n_samples" (filter (fun a => negb (among (fst a) (map fst tensor_sig))) kw') = arg "n_samples" kw').
  { unfold arg. now rewrite (look_filter "n_samples" (fun y => negb (among y (map fst tensor_sig)))). }
  assert (OB : arg "observation" kw' = match look "observation" kw' with Some v => v | None => VNone end) by reflexivity.
  rewrite OB. destruct (look "observation" kw') as [v|]; cbv iota beta; cbn [app]; rewrite NS; reflexivity.
Qed.
Lemma stochastic_ok bn obs d kw' : (forall k, In k (map fst kw') -> ~ In k ["self"; "bn"; "name"; "dist"; "observation"]) ->
  stochastic bn obs nm d kw' = Done (Node bn nm d obs (arg "n_samples" kw')).
Proof.
  intros C. unfold stochastic, bind. change (bind_pos stochastic_sig [bn; nm; VObj 1]) with
    (Some ([("self", bn); ("name", nm); ("dist", VObj 1)], @nil (string * option val))).
  cbv iota beta.
  assert (E : existsb (fun a : string * val => has (fst a) [("self", bn); ("name", nm); ("dist", VObj 1)]) kw' = false).
  { apply not_true_is_false. intros H. apply existsb_exists in H. destruct H as (a & I & H). apply has_look in H.
    apply (C (fst a)); [now apply in_map|]. simpl in *. tauto. }
  rewrite E. cbn [fill].
  set (kw2 := filter _ kw'). unfold splat.
  assert (E2 : existsb (fun a : string * val => has (fst a) [("observation", obs)]) kw2 = false).
  { apply not_true_is_false. intros H. apply existsb_exists in H. destruct H as (a & I & H). apply has_look in H.
    unfold kw2 in I. apply filter_In in I. destruct I as [I _].
    apply (C (fst a)); [now apply in_map|]. simpl in *. tauto. }
  rewrite E2. rewrite tensor_ok.
  - f_equal. f_equal. unfold arg. cbn [app look]. change (String.eqb "n_samples" "observation") with false. cbv iota.
    unfold kw2. now rewrite (look_filter "n_samples" (fun y => negb (among y (map fst stochastic_sig)))).
  - intros k I. simpl in I. destruct I as [<-|I]; [simpl; intuition discriminate|].
    unfold kw2 in I. apply (keys_filter (fun y => negb (among y (map fst stochastic_sig)))) in I. destruct I as [I _].
    pose proof (C k I). simpl in *. tauto.
Qed.
Lemma method_ok bn obs : x = bn -> (forall k, In k (map fst kw) -> ~ In k ["bn"; "dist"; "observation"]) ->
  call_method c w bn obs (nm :: pos) kw =
  then_node (dist_new c [] (without dropped given)) (fun d => Node bn nm d obs (arg "n_samples" given)).
Proof.
  intros <- C. unfold call_method. rewrite call_bind.
  destruct (fill (w_sig w) (("name", nm) :: given)) as [e|] eqn:FE.
  2: { now rewrite missing. }
  unfold kwargs. rewrite (inner_ok c w dropped F base_unread samples_unread nm x given (proj2 WF) given_no_name given_no_self e FE).
  destruct (dist_new c [] (without dropped given)) as [d| |]; try reflexivity. cbn [then_node].
  destruct (samples_ok c w dropped F nm x given given_no_self e FE) as (kw' & S & Lk & K).
  rewrite S. rewrite (arg_name c w dropped F nm x given e FE).
  rewrite stochastic_ok.
  - f_equal. f_equal. unfold arg at 1. rewrite Lk. rewrite String.eqb_refl. unfold arg. now destruct (w_samples w).
  - intros k I. destruct (K k I) as [->|[I1 I2]]; [simpl; intuition discriminate|].
    intros R. apply given_keys in I1. destruct I1 as [I1|I1].
    + apply I2. rewrite sig_split. now right.
    + pose proof (C k I1). simpl in *. intuition congruence.
Qed.
Lemma tensor_call_ok : (forall k, In k (map fst kw) -> ~ In k ["bn"; "dist"]) ->
  match bind (req "self" :: w_sig w) (x :: nm :: pos) kw with
  | None => TypeErr
  | Some (e, kwargs) =>
      match inner_dist c w e kwargs with
      | Done d =>
          match splat (samples_kw w e) kwargs with
          | None => TypeErr
          | Some kw' => tensor_new VNone (arg "name" e) d kw'
          end
      | TypeErr => TypeErr
      | ValueErr => ValueErr
      end
  end =
  then_node (dist_new c [] (without dropped given)) (fun d => Node VNone nm d (arg "observation" given) (arg "n_samples" given)).
Proof.
  intros C. rewrite call_bind.
  destruct (fill (w_sig w) (("name", nm) :: given)) as [e|] eqn:FE.
  2: { now rewrite missing. }
  unfold kwargs. rewrite (inner_ok c w dropped F base_unread samples_unread nm x given (proj2 WF) given_no_name given_no_self e FE).
  destruct (dist_new c [] (without dropped given)) as [d| |]; try reflexivity. cbn [then_node].
  destruct (samples_ok c w dropped F nm x given given_no_self e FE) as (kw' & S & Lk & K).
  rewrite S. rewrite (arg_name c w dropped F nm x given e FE).
  rewrite tensor_ok.
  - f_equal. f_equal.
    + unfold arg. rewrite Lk. cbn [String.eqb]. change (String.eqb "observation" "n_samples") with false. cbv iota.
      rewrite (look_kwargs c w dropped F nm given given_no_self).
      assert (among "observation" (map fst (w_sig w)) = false) as ->; [|reflexivity].
      apply among_not. apply clean. simpl. tauto.
    + unfold arg at 1. rewrite Lk. rewrite String.eqb_refl. unfold arg. now destruct (w_samples w).
  - intros k I. destruct (K k I) as [->|[I1 I2]]; [simpl; intuition discriminate|].
    intros R. apply given_keys in I1. destruct I1 as [I1|I1].
    + apply I2. rewrite sig_split. now right.
    + pose proof (C k I1). simpl in *. intuition congruence.
Qed.
End CallMethod.
