(** Calls of the named constructors. *)
From Coq Require Import List String Bool Lia Arith.
From Verif Require Import ModelCall SpecCall ProofCall ProofCallTab.
Import ListNotations.
Local Open Scope string_scope.

Lemma no_samples_param c : ~ In "n_samples" (dist_names c).
Proof. destruct c; notin. Qed.
Lemma samples_base c k : In k ["n_samples"] -> ~ In k (base_reads c) \/ In k (dist_names c).
Proof. intros [<-|[]]. left. destruct c; notin. Qed.
Lemma method_clean c w k : method c = Some w -> In k ["self"; "bn"; "dist"; "observation"] -> ~ In k (map fst (w_sig w)).
Proof. intros H I. destruct c; simpl in H; try discriminate; injection H as <-; in_cases; notin. Qed.
Lemma legacy_clean c k : In k ["self"; "bn"; "dist"; "observation"] -> ~ In k (map fst (w_sig (legacy c))).
Proof. intros I. destruct c; in_cases; notin. Qed.
Lemma method_complete c w p : method c = Some w -> In (p, None) (w_sig w) -> p <> "name" ->
  In (p, None) (dist_sig c) /\ ~ In p ["n_samples"].
Proof.
  intros H I N. destruct c; simpl in H; try discriminate; injection H as <-; simpl in I; unfold req, opt in I;
  repeat (destruct I as [I|I]; [first [discriminate I | injection I as <-; first [now destruct N | split; [find_in|notin]]]|]); destruct I.
Qed.
Lemma legacy_complete c p : c <> Empirical -> In (p, None) (w_sig (legacy c)) -> p <> "name" ->
  In (p, None) (dist_sig c) /\ ~ In p ["n_samples"].
Proof.
  intros H I N. destruct c; try congruence; simpl in I; unfold req, opt in I;
  repeat (destruct I as [I|I]; [first [discriminate I | injection I as <-; first [now destruct N | split; [find_in|notin]]]|]); destruct I.
Qed.
Lemma without_two c ks g : ~ In "self" (map fst g) -> ~ In "observation" (dist_names c) -> ~ In "observation" (base_reads c) ->
  dist_new c [] (without ks g) = dist_new c [] (without ("observation" :: ks) g).
Proof.
  intros S D B. unfold without. apply dist_new_ext.
  - intros I. apply (keys_filter (fun y => negb (among y ks))) in I. tauto.
  - intros I. apply (keys_filter (fun y => negb (among y ("observation" :: ks)))) in I. tauto.
  - intros p d I. unfold received. rewrite (look_filter p (fun y => negb (among y ks))).
    rewrite (look_filter p (fun y => negb (among y ("observation" :: ks)))). unfold among at 2. cbn [existsb].
    destruct (String.eqb p "observation") eqn:E; [|reflexivity]. apply String.eqb_eq in E. subst. destruct D.
    unfold dist_names. change "observation" with (fst ("observation", d)). now apply in_map.
  - intros k N I. rewrite (look_filter k (fun y => negb (among y ks))).
    rewrite (look_filter k (fun y => negb (among y ("observation" :: ks)))). unfold among at 2. cbn [existsb].
    destruct (String.eqb k "observation") eqn:E; [|reflexivity]. apply String.eqb_eq in E. subst. contradiction.
Qed.
Lemma no_observation_param c : ~ In "observation" (dist_names c).
Proof. destruct c; notin. Qed.
Lemma no_observation_base c : ~ In "observation" (base_reads c).
Proof. destruct c; notin. Qed.

(** Empirical: the misspelled keyword disappears in **kwargs. *)
Lemma existsb_ext_in {A} (f g : A -> bool) l : (forall a, In a l -> f a = g a) -> existsb f l = existsb g l.
Proof. induction l; simpl; intros H; [reflexivity|]. now rewrite H, IHl by auto. Qed.
Lemma empirical_inner e kwargs : ~ In "is_continous" (map fst kwargs) ->
  inner_dist Empirical (legacy Empirical) e kwargs = inner_dist Empirical empirical' e kwargs.
Proof.
  intros N. unfold inner_dist. cbn [legacy empirical' w_kw w_pos w_sig map fst snd]. unfold splat.
  set (vs := arg "value_shape" e). set (g := arg "group_ndims" e). set (ic := arg "is_continuous" e).
  rewrite (existsb_ext_in (fun a : string * val => has (fst a) [("value_shape", vs); ("group_ndims", g); ("is_continous", ic)])
     (fun a => has (fst a) [("value_shape", vs); ("group_ndims", g)])).
  2: { intros a I. unfold has. cbn [look]. destruct (String.eqb (fst a) "value_shape"), (String.eqb (fst a) "group_ndims"); try reflexivity.
       destruct (String.eqb (fst a) "is_continous") eqn:E; [|reflexivity]. apply String.eqb_eq in E. destruct N. rewrite <- E. now apply in_map. }
  destruct (existsb (fun a => has (fst a) [("value_shape", vs); ("group_ndims", g)]) kwargs); [reflexivity|].
  unfold dist_new. cbn [dist_sig map app]. unfold bind. cbn [bind_pos req opt].
  cbn [existsb fst]. unfold has. cbn -[existsb among filter base_keywords].
  destruct (existsb _ kwargs); [reflexivity|].
  destruct (look "is_continuous" kwargs) as [v|]; cbn -[existsb among filter base_keywords look].
  all: cbn [filter fst]; reflexivity.
Qed.

Section Rejections.
Variables (c : cls) (w : wrapper).
Hypothesis F : fits c w ["n_samples"].
Hypothesis clean : forall k, In k ["self"; "bn"; "dist"; "observation"] -> ~ In k (map fst (w_sig w)).
Lemma reject_bind x nm pos kw : NoDup (map fst kw) -> ~ well_formed (user_sig w) pos kw ->
  bind (req "self" :: w_sig w) (x :: nm :: pos) kw = None.
Proof.
  intros N W. pose proof (f_nodup _ _ _ F) as D. pose proof (sig_split c w _ F) as S.
  destruct (Nat.le_gt_cases (List.length pos) (List.length (user_sig w))) as [L|L].
  - unfold bind. rewrite bind_pos_spec by (rewrite S; simpl; lia).
    destruct (existsb _ kw) eqn:E; [reflexivity|]. exfalso. apply W. split; [assumption|].
    unfold by_name. rewrite map_app. apply nodup_app.
    + rewrite S in D. inversion D; subst. inversion H2; subst. clear - H4. revert H4. generalize (user_sig w). intros s.
      revert pos. induction s as [|[p d] s IH]; intros [|v pos] H; simpl; try constructor.
      * inversion H; subst. intros I. apply H2. apply in_map_iff in I. destruct I as ([q u] & <- & I). eapply in_combine_l; eassumption.
      * inversion H; auto.
    + exact N.
    + intros k I J. apply in_map_iff in J. destruct J as (a & <- & J).
      assert (existsb (fun a : string * val => has (fst a) (combine (map fst (req "self" :: w_sig w)) (x :: nm :: pos))) kw = true); [|congruence].
      apply existsb_exists. exists a. split; [assumption|]. apply has_look. rewrite S. simpl. auto.
  - apply bind_too_many. rewrite S. simpl. lia.
Qed.
Lemma bind_has_both x nm pos kw k : In k ["self"; "name"] -> In k (map fst kw) ->
  bind (req "self" :: w_sig w) (x :: nm :: pos) kw = None.
Proof.
  intros I J. destruct (Nat.le_gt_cases (List.length pos) (List.length (user_sig w))) as [L|L].
  - apply (bind_twice _ _ _ k); [exact (f_nodup _ _ _ F)|rewrite (sig_split c w _ F); simpl; lia| |assumption].
    rewrite (sig_split c w _ F). simpl in *. tauto.
  - apply bind_too_many. rewrite (sig_split c w _ F). simpl. lia.
Qed.
Lemma tensor_reject bn nm d kw k : In k ["self"; "bn"; "name"; "dist"] -> In k (map fst kw) -> tensor_new bn nm d kw = TypeErr.
Proof.
  intros I J. unfold tensor_new. rewrite (bind_twice _ _ _ k); [reflexivity| | | |assumption].
  - apply nodupb_ok. reflexivity.
  - simpl. lia.
  - simpl in *. tauto.
Qed.
Lemma stochastic_reject bn obs nm d kw k : In k ["self"; "bn"; "name"; "dist"; "observation"] -> In k (map fst kw) ->
  stochastic bn obs nm d kw = TypeErr.
Proof.
  intros I J. unfold stochastic.
  assert (C : In k ["self"; "name"; "dist"] \/ k = "bn" \/ k = "observation") by (simpl in *; intuition).
  destruct C as [C|C].
  - rewrite (bind_twice _ _ _ k); [reflexivity| | | |assumption].
    + apply nodupb_ok. reflexivity.
    + simpl. lia.
    + simpl in *. tauto.
  - destruct (bind stochastic_sig [bn; nm; VObj 1] kw) as [[e kw']|] eqn:B; [|reflexivity].
    assert (K : In k (map fst kw')).
    { unfold bind in B. cbn [bind_pos stochastic_sig req] in B.
      destruct (existsb _ kw); [discriminate|]. cbn [fill] in B. injection B as _ <-.
      apply (keys_filter (fun y => negb (among y ["self"; "name"; "dist"]))). split; [assumption|].
      destruct C as [-> | ->]; reflexivity. }
    unfold splat. destruct (existsb _ kw') eqn:E; [reflexivity|]. destruct C as [-> | ->].
    + apply (tensor_reject _ _ _ _ "bn"); [simpl; tauto|]. now right.
    + exfalso. apply in_map_iff in K. destruct K as (a & K1 & K2).
      assert (existsb (fun a : string * val => has (fst a) [("observation", obs)]) kw' = true); [|congruence].
      apply existsb_exists. exists a. split; [assumption|]. now rewrite K1.
Qed.
Lemma bind_kwargs s pos kw e kwargs k : bind s pos kw = Some (e, kwargs) -> In k (map fst kw) -> ~ In k (map fst s) -> In k (map fst kwargs).
Proof.
  unfold bind. destruct (bind_pos s pos) as [[b r]|]; [|discriminate]. destruct (existsb _ kw); [discriminate|].
  destruct (fill r kw); [|discriminate]. intros H I N. injection H as _ <-.
  apply (keys_filter (fun y => negb (among y (map fst s)))). split; [assumption|]. now apply negb_true_iff, among_not.
Qed.
Lemma splat_keys a b l k : splat a b = Some l -> In k (map fst b) -> In k (map fst l).
Proof. unfold splat. destruct (existsb _ b); [discriminate|]. intros H I. injection H as <-. rewrite map_app. apply in_or_app. now right. Qed.
Lemma method_reject bn obs nm pos kw k n : In k ["self"; "bn"; "name"; "dist"; "observation"] -> In k (map fst kw) ->
  call_method c w bn obs (nm :: pos) kw <> Done n.
Proof.
  intros I J. unfold call_method.
  destruct (in_dec string_dec k ["self"; "name"]) as [S|S].
  { now rewrite (bind_has_both _ _ _ _ k). }
  assert (W : ~ In k (map fst (req "self" :: w_sig w))).
  { intros [Q|Q]; [destruct S; left; exact Q|]. revert Q. apply clean. simpl in *. intuition. }
  destruct (bind (req "self" :: w_sig w) (bn :: nm :: pos) kw) as [[e kwargs]|] eqn:B; [|discriminate].
  destruct (inner_dist c w e kwargs); try discriminate.
  destruct (splat (samples_kw w e) kwargs) as [kw'|] eqn:SP; [|discriminate].
  rewrite (stochastic_reject _ _ _ _ _ k); [discriminate|assumption|].
  eapply splat_keys; [eassumption|]. eapply bind_kwargs; eassumption.
Qed.
Lemma inner_reject e kwargs k d : In k (base_keywords c) -> ~ In k (dist_names c) -> k <> "self" -> In k (map fst kwargs) ->
  inner_dist c w e kwargs <> Done d.
Proof.
  intros B N S I. unfold inner_dist. destruct (splat _ kwargs) as [kw|] eqn:SP; [|discriminate].
  assert (K := splat_keys _ _ _ k SP I). unfold dist_new.
  destruct (bind (req "self" :: dist_sig c) _ kw) as [[e' kwargs']|] eqn:BD; [|discriminate].
  assert (K' : In k (map fst kwargs')).
  { eapply bind_kwargs; try eassumption. intros [Q|Q]; [apply S; symmetry; exact Q|contradiction]. }
  destruct (negb (checks c e')); [discriminate|].
  assert (existsb (fun a => among (fst a) (base_keywords c)) kwargs' = true) as ->; [|discriminate].
  apply existsb_exists. apply in_map_iff in K'. destruct K' as (a & <- & K'). exists a. split; [assumption|]. now apply among_In.
Qed.
End Rejections.

Lemma dist_new_args c l d : ~ In "self" (map fst l) -> dist_new c [] l = Done d ->
  d_class d = c /\ fill (dist_sig c) l = Some (d_args d).
Proof.
  intros S. unfold dist_new. rewrite dist_bind by assumption.
  destruct (fill (dist_sig c) l) as [e|]; [|discriminate].
  destruct (negb _); [discriminate|]. destruct (existsb _ _); [discriminate|]. destruct (has _ _); [discriminate|].
  destruct (negb _); [discriminate|]. intros H. injection H as <-. split; reflexivity.
Qed.
Lemma dist_new_scale c l d : (c = Normal \/ c = FoldNormal) -> ~ In "self" (map fst l) -> dist_new c [] l = Done d ->
  is_none (arg "_sentinel" (d_args d)) = true /\ is_none (arg "std" (d_args d)) = negb (is_none (arg "logstd" (d_args d))).
Proof.
  intros C S. unfold dist_new. rewrite dist_bind by assumption.
  destruct (fill (dist_sig c) l) as [e|] eqn:FE; [|discriminate].
  destruct (checks c (("self", VObj 0) :: e)) eqn:CH; simpl negb; [|discriminate].
  destruct (existsb _ _); [discriminate|]. destruct (has _ _); [discriminate|].
  destruct (negb _); [discriminate|]. intros H. injection H as <-. cbn [d_args tl].
  assert (is_none (arg "_sentinel" e) && xorb (is_none (arg "std" e)) (is_none (arg "logstd" e)) = true) as Q
    by (destruct C as [-> | ->]; exact CH).
  apply andb_true_iff in Q. destruct Q as [Q1 Q2]. split; [exact Q1|].
  destruct (is_none (arg "std" e)), (is_none (arg "logstd" e)); simpl in *; congruence.
Qed.
Lemma name_keyword c w x nm kw : fits c w ["n_samples"] -> NoDup (map fst kw) -> ~ In "name" (map fst kw) -> ~ In "self" (map fst kw) ->
  bind (req "self" :: w_sig w) [x] (("name", nm) :: kw) = bind (req "self" :: w_sig w) [x; nm] kw.
Proof.
  intros F N A B. pose proof (f_nodup _ _ _ F) as D. pose proof (sig_split c w _ F) as S.
  rewrite S in D |- *.
  assert (E : by_name (req "self" :: req "name" :: user_sig w) [x] (("name", nm) :: kw) =
              by_name (req "self" :: req "name" :: user_sig w) [x; nm] kw).
  { unfold by_name. simpl. now rewrite combine_nil. }
  assert (K : NoDup (map fst (by_name (req "self" :: req "name" :: user_sig w) [x; nm] kw))).
  { unfold by_name. simpl. rewrite combine_nil. simpl. constructor; [|now constructor]. intros [Q|Q]; [discriminate|contradiction]. }
  rewrite bind_named; [|exact D|split; [simpl; lia|now rewrite E]].
  rewrite (bind_named _ [x; nm]); [|exact D|split; [simpl; lia|exact K]].
  now rewrite E.
Qed.
