(** C48: arguments of the named node constructors reach the distribution and the node. *)
From Coq Require Import List String Bool Lia Arith ZArith.
From Verif Require Import ModelCall SpecCall ProofCall ProofCallTab ProofCallMore ProofCallAccept.
Import ListNotations.
Local Open Scope string_scope.

(** bn.<constructor>(name, *pos, **kw): if Python can bind the call, the result is the node
    of that name over the distribution built directly from the same arguments by name;
    n_samples goes to the node, the observation is the net's own; errors are those of the
    distribution's constructor. *)
Theorem C48_method c w bn obs name pos kw :
  method c = Some w ->
  well_formed (user_sig w) pos kw ->
  (forall k, In k ["self"; "name"; "bn"; "dist"; "observation"] -> ~ In k (map fst kw)) ->
  let given := by_name (user_sig w) pos kw in
  call_method c w bn obs (name :: pos) kw =
  then_node (dist_new c [] (without ["n_samples"] given))
            (fun d => Node bn name d obs (arg "n_samples" given)).
Proof.
  intros M W R given. apply (method_ok c w ["n_samples"] (method_fits _ _ M) (samples_base c) (no_samples_param c) name bn pos kw W).
  - apply R. simpl. tauto.
  - apply R. simpl. tauto.
  - intros p I N. left. now apply (method_complete c w).
  - reflexivity.
  - intros k I J. apply (R k); [simpl in *; tauto|assumption].
Qed.

(** The node name may equally be given by keyword. *)
Theorem C48_name_keyword c w bn obs name kw :
  method c = Some w -> NoDup (map fst kw) -> ~ In "name" (map fst kw) -> ~ In "self" (map fst kw) ->
  call_method c w bn obs [] (("name", name) :: kw) = call_method c w bn obs [name] kw.
Proof. intros M N A B. unfold call_method. now rewrite (name_keyword c w bn name kw (method_fits _ _ M) N A B). Qed.

(** A call Python cannot bind is a TypeError, and no call redirects the node, its name, its
    distribution or its observation through a keyword. *)
Theorem C48_method_rejects c w bn obs name pos kw :
  method c = Some w ->
  (NoDup (map fst kw) -> ~ well_formed (user_sig w) pos kw -> call_method c w bn obs (name :: pos) kw = TypeErr) /\
  (forall k n, In k ["self"; "bn"; "name"; "dist"; "observation"] -> In k (map fst kw) ->
     call_method c w bn obs (name :: pos) kw <> Done n).
Proof.
  intros M. split.
  - intros N W. unfold call_method. now rewrite (reject_bind c w (method_fits _ _ M)).
  - intros k n I J. apply (method_reject c w (method_fits _ _ M) (fun k => method_clean c w k M) bn obs name pos kw k n I J).
Qed.

(** The deprecated classes behave the same, except that observation= is accepted. *)
Theorem C48_legacy c name pos kw :
  c <> Empirical ->
  well_formed (user_sig (legacy c)) pos kw ->
  (forall k, In k ["self"; "name"; "bn"; "dist"] -> ~ In k (map fst kw)) ->
  let given := by_name (user_sig (legacy c)) pos kw in
  call_legacy c (name :: pos) kw =
  then_node (dist_new c [] (without ["observation"; "n_samples"] given))
            (fun d => Node VNone name d (arg "observation" given) (arg "n_samples" given)).
Proof.
  intros E W R given. unfold call_legacy.
  rewrite (tensor_call_ok c (legacy c) ["n_samples"] (legacy_fits _ E) (samples_base c) (no_samples_param c)
    (legacy_clean c) name (VObj 0) pos kw W).
  - fold given. rewrite (without_two c ["n_samples"] given); [reflexivity| |apply no_observation_param|apply no_observation_base].
    apply (given_no_self c (legacy c) ["n_samples"] (legacy_fits _ E)). apply R. simpl. tauto.
  - apply R. simpl. tauto.
  - apply R. simpl. tauto.
  - intros p I N. left. now apply legacy_complete.
  - intros k I J. apply (R k); [simpl in *; tauto|assumption].
Qed.
(** The deprecated Empirical drops is_continuous. *)
Theorem C48_empirical name pos kw :
  well_formed (user_sig (legacy Empirical)) pos kw ->
  (forall k, In k ["self"; "name"; "bn"; "dist"; "is_continous"] -> ~ In k (map fst kw)) ->
  let given := by_name (user_sig (legacy Empirical)) pos kw in
  In "batch_shape" (map fst given) ->
  call_legacy Empirical (name :: pos) kw =
  then_node (dist_new Empirical [] (without ["observation"; "n_samples"; "is_continuous"] given))
            (fun d => Node VNone name d (arg "observation" given) (arg "n_samples" given)).
Proof.
  intros W R given B.
  assert (NS : ~ In "self" (map fst kw)) by (apply R; simpl; tauto).
  assert (NN : ~ In "name" (map fst kw)) by (apply R; simpl; tauto).
  rewrite <- (without_two Empirical ["n_samples"; "is_continuous"] given);
    [|apply (given_no_self _ _ _ empirical_fits); assumption|apply no_observation_param|apply no_observation_base].
  change given with (by_name (user_sig empirical') pos kw).
  rewrite <- (tensor_call_ok Empirical empirical' ["n_samples"; "is_continuous"] empirical_fits) with (x := VObj 0).
  - unfold call_legacy. change (w_sig empirical') with (w_sig (legacy Empirical)).
    destruct (bind (req "self" :: w_sig (legacy Empirical)) (VObj 0 :: name :: pos) kw) as [[e kwargs]|] eqn:BD; [|reflexivity].
    rewrite empirical_inner; [reflexivity|].
    intros I. unfold bind in BD. destruct (bind_pos _ _) as [[b r]|]; [|discriminate]. destruct (existsb _ kw); [discriminate|].
    destruct (fill r kw); [|discriminate]. injection BD as _ <-.
    apply (keys_filter (fun y => negb (among y (map fst (req "self" :: w_sig (legacy Empirical)))))) in I. destruct I as [I _].
    revert I. apply R. simpl. tauto.
  - intros k [<-|[<-|[]]]; [left; notin|right; simpl; tauto].
  - apply no_samples_param.
  - exact (legacy_clean Empirical).
  - exact W.
  - exact NN.
  - exact NS.
  - intros p I N. cbn [empirical' w_sig legacy] in I. unfold req, opt in I. simpl in I.
    repeat (destruct I as [I|I]; [first [discriminate I|injection I as <-]|]); try (now destruct N); try tauto.
    left. split; [find_in|notin].
  - intros k I J. apply (R k); [simpl in *; tauto|assumption].
Qed.
Theorem C48_empirical_refuted : exists name kw n,
  call_legacy Empirical [name] kw = Done n /\
  look "is_continuous" kw = Some (VBool true) /\ arg "is_continuous" (d_args (n_dist n)) = VNone.
Proof.
  exists (VObj 9), [("dtype", VObj 1); ("batch_shape", VObj 2); ("is_continuous", VBool true)]. eexists.
  split; [reflexivity|]. split; reflexivity.
Qed.

(** A distribution built from named arguments holds, for each of its parameters, the
    argument of that name or the default. *)
Theorem C48_arguments c given d : ~ In "self" (map fst given) -> dist_new c [] given = Done d ->
  d_class d = c /\
  (forall p dflt, In (p, dflt) (dist_sig c) -> look p (d_args d) = received given p dflt) /\
  (c = Normal \/ c = FoldNormal ->
     is_none (arg "_sentinel" (d_args d)) = true /\ is_none (arg "std" (d_args d)) = negb (is_none (arg "logstd" (d_args d)))).
Proof.
  intros S D. destruct (dist_new_args _ _ _ S D) as [C E]. split; [exact C|]. split.
  - intros p dflt I. refine (fill_look _ _ _ _ _ _ E I). pose proof (dist_names_nodup c) as N. now inversion N.
  - intros K. now apply (dist_new_scale c given).
Qed.

(** An omitted argument is at its documented default, and the arguments that may not be
    omitted are the required ones. *)
Theorem C48_omitted c given d p : ~ In "self" (map fst given) -> dist_new c [] given = Done d ->
  In p (map fst (dist_sig c)) -> ~ In p (map fst given) ->
  ~ In p (required c) /\ look p (d_args d) = documented p.
Proof.
  intros S D I N. apply in_map_iff in I. destruct I as ((q & dflt) & Q & I). cbn in Q. subst q.
  destruct (C48_arguments c given d S D) as (_ & A & _). specialize (A p dflt I).
  assert (L : look p given = None) by now apply look_None.
  unfold received in A. rewrite L in A. rewrite A.
  assert (F : dflt <> None).
  { intros ->. apply (proj1 (proj1 (dist_new_accepts c given S) (ex_intro _ d D))) in I. contradiction. }
  clear -I F. destruct c; cbn in I; unfold req, opt in I;
    repeat (destruct I as [I|I]; [injection I as <- <-; first [now destruct F|split; [notin|reflexivity]]|]); destruct I.
Qed.
Theorem C48_required c p : In (p, None) (dist_sig c) <-> In p (required c).
Proof.
  destruct c; cbn; unfold req, opt; split; intros I;
    repeat (destruct I as [I|I]; [try discriminate I; try injection I as <-; subst; tauto|]); try destruct I.
Qed.
Example C48_omitted_case : exists d, dist_new Normal [] [("std", VFloat 1%Z)] = Done d /\
  look "mean" (d_args d) = documented "mean" /\ look "use_path_derivative" (d_args d) = documented "use_path_derivative".
Proof. eexists. repeat split. Qed.
Print Assumptions C48_omitted.
Print Assumptions C48_required.

(** Exactly which named arguments a class accepts: the required ones must be there; the
    keywords it fixes for itself must not be, unless they are parameters of the class;
    group_event_ndims (the old name of group_ndims) must not be; group_ndims may be any
    Tensor but not a negative int; a Normal or FoldNormal takes exactly one of std and
    logstd. Anything else may be given. *)
Theorem C48_accepts c given : ~ In "self" (map fst given) ->
  ((exists d, dist_new c [] given = Done d) <->
   (forall p, In (p, None) (dist_sig c) -> In p (map fst given)) /\
   (c = Normal \/ c = FoldNormal ->
      arg "_sentinel" given = VNone /\ (arg "std" given = VNone <-> arg "logstd" given <> VNone)) /\
   (forall k, In k ["dtype"; "param_dtype"; "is_continuous"; "is_reparameterized"] ->
      In k (map fst given) -> In k (map fst (dist_sig c))) /\
   (c = Empirical \/ c = Implicit -> ~ In "use_path_derivative" (map fst given)) /\
   ~ In "group_event_ndims" (map fst given) /\
   (forall z, look "group_ndims" given = Some (VInt z) -> (0 <= z)%Z)).
Proof. intros S. apply dist_new_accepts. exact S. Qed.
(** use_path_derivative can be turned on for the classes that do not document it too. *)
Theorem C48_path c given d : ~ In "self" (map fst given) -> dist_new c [] given = Done d ->
  d_path d = match look "use_path_derivative" given with Some v => v | None => VBool false end.
Proof. intros S. apply dist_new_path. exact S. Qed.
Example C48_path_case : exists d, dist_new Gamma [] [("alpha", VObj 1); ("beta", VObj 2); ("use_path_derivative", VBool true); ("group_ndims", VObj 3)] = Done d /\
  d_path d = VBool true.
Proof. eexists. split; reflexivity. Qed.
Print Assumptions C48_accepts.
Print Assumptions C48_path.

(** Keywords fixed by the distribution class itself cannot be overridden. *)
Theorem C48_fixed_keywords c w bn obs name pos kw k n :
  method c = Some w -> In k (base_keywords c) -> ~ In k (map fst (dist_sig c)) -> In k (map fst kw) ->
  call_method c w bn obs (name :: pos) kw <> Done n.
Proof.
  intros M B N I. unfold call_method.
  assert (S : k <> "self"). { intros ->. destruct c; revert B; notin. }
  assert (W : ~ In k (map fst (w_sig w))).
  { intros Q. apply (f_all _ _ _ (method_fits _ _ M)) in Q. destruct Q as [->|[[<-|[]]|Q]].
    - destruct c; revert B; notin.
    - destruct c; revert B; notin.
    - destruct (f_known _ _ _ (method_fits _ _ M) k Q) as [_ (d1 & d2 & _ & J & _)]. apply N. change k with (fst (k, d2)). now apply in_map. }
  destruct (bind _ _ kw) as [[e kwargs]|] eqn:BD; [|discriminate].
  destruct (inner_dist c w e kwargs) as [d| |] eqn:ID; try discriminate.
  exfalso. revert ID. apply (inner_reject c w e kwargs k d B N S).
  eapply bind_kwargs; [exact BD|exact I|]. intros [Q|Q]; [apply S; symmetry; exact Q|contradiction].
Qed.

(** Any other unknown keyword is silently ignored, so a misspelled optional argument
    leaves the default in place. *)
Theorem C48_unknown_ignored c w bn obs name pos kw k v :
  method c = Some w ->
  well_formed (user_sig w) pos ((k, v) :: kw) ->
  (forall k', In k' ["self"; "name"; "bn"; "dist"; "observation"] -> ~ In k' (map fst ((k, v) :: kw))) ->
  ~ In k (map fst (w_sig w)) -> ~ In k (map fst (dist_sig c)) -> ~ In k (base_keywords c) ->
  ~ In k ["n_samples"; "group_event_ndims"; "use_path_derivative"] ->
  call_method c w bn obs (name :: pos) ((k, v) :: kw) = call_method c w bn obs (name :: pos) kw.
Proof.
  intros M W R N1 N2 N3 N4.
  assert (W' : well_formed (user_sig w) pos kw).
  { destruct W as [L D]. split; [exact L|]. unfold by_name in *. rewrite map_app in *. simpl in D. now apply NoDup_remove in D. }
  assert (LK : forall q, q <> k -> look q (by_name (user_sig w) pos ((k, v) :: kw)) = look q (by_name (user_sig w) pos kw)).
  { intros q Q. unfold by_name. rewrite !look_app. cbn [look]. destruct (String.eqb q k) eqn:E; [apply String.eqb_eq in E; contradiction|reflexivity]. }
  pose proof (method_fits _ _ M) as F.
  assert (R' : forall k', In k' ["self"; "name"; "bn"; "dist"; "observation"] -> ~ In k' (map fst kw)).
  { intros k' I J. apply (R k' I). now right. }
  rewrite (C48_method c w bn obs name pos _ M W R), (C48_method c w bn obs name pos kw M W' R').
  assert (A : arg "n_samples" (by_name (user_sig w) pos ((k, v) :: kw)) = arg "n_samples" (by_name (user_sig w) pos kw)).
  { unfold arg. rewrite LK; [reflexivity|]. intros <-. apply N4. simpl. tauto. }
  rewrite A. f_equal.
  assert (S1 : ~ In "self" (map fst (by_name (user_sig w) pos ((k, v) :: kw)))).
  { apply (given_no_self c w _ F). apply R. simpl. tauto. }
  assert (S2 : ~ In "self" (map fst (by_name (user_sig w) pos kw))).
  { apply (given_no_self c w _ F). apply R'. simpl. tauto. }
  unfold without. apply dist_new_ext.
  - intros I. apply (keys_filter (fun y => negb (among y ["n_samples"]))) in I. tauto.
  - intros I. apply (keys_filter (fun y => negb (among y ["n_samples"]))) in I. tauto.
  - intros p d I. unfold received. rewrite !(look_filter p (fun y => negb (among y ["n_samples"]))). rewrite LK; [reflexivity|].
    intros <-. apply N2. change p with (fst (p, d)). now apply in_map.
  - intros q Q I. rewrite !(look_filter q (fun y => negb (among y ["n_samples"]))). rewrite LK; [reflexivity|].
    intros <-. unfold base_reads in I. apply in_app_or in I. destruct I as [I|I]; [contradiction|]. apply N4. simpl in *. tauto.
Qed.
Theorem C48_misspelled_refuted : exists w kw n,
  method Normal = Some w /\ call_method Normal w (VObj 7) VNone [VObj 9; VFloat 0] kw = Done n /\
  look "group_ndim" kw = Some (VInt 1) /\ arg "group_ndims" (d_args (n_dist n)) = VInt 0.
Proof.
  eexists. exists [("std", VFloat 1); ("group_ndim", VInt 1)]. eexists.
  split; [reflexivity|]. split; [reflexivity|]. split; reflexivity.
Qed.

(** Positional order is not the same everywhere: the sixth argument of bn.normal is
    group_ndims, of bn.fold_normal and of the deprecated Normal it is n_samples. *)
Theorem C48_positional_order_refuted : exists w w' args n n' n'',
  method Normal = Some w /\ method FoldNormal = Some w' /\
  call_method Normal w (VObj 7) VNone args [] = Done n /\
  call_method FoldNormal w' (VObj 7) VNone args [] = Done n' /\
  call_legacy Normal args [] = Done n'' /\
  (n_samples n = VNone /\ arg "group_ndims" (d_args (n_dist n)) = VInt 5) /\
  (n_samples n' = VInt 5 /\ arg "group_ndims" (d_args (n_dist n')) = VInt 0) /\
  (n_samples n'' = VInt 5 /\ arg "group_ndims" (d_args (n_dist n'')) = VInt 0).
Proof.
  do 2 eexists. exists [VObj 9; VFloat 0; VNone; VFloat 1; VNone; VInt 5]. do 3 eexists.
  repeat split; reflexivity.
Qed.

(** A concrete call satisfying the hypotheses: bn.normal("x", 0., std=1., n_samples=10,
    group_ndims=1, use_path_derivative=True). *)
Example C48_call : exists w n, method Normal = Some w /\
  well_formed (user_sig w) [VFloat 0] [("std", VFloat 1); ("n_samples", VInt 10); ("group_ndims", VInt 1); ("use_path_derivative", VBool true)] /\
  call_method Normal w (VObj 7) (VObj 8) [VObj 9; VFloat 0]
    [("std", VFloat 1); ("n_samples", VInt 10); ("group_ndims", VInt 1); ("use_path_derivative", VBool true)] = Done n /\
  n_name n = VObj 9 /\ n_observation n = VObj 8 /\ n_samples n = VInt 10 /\
  arg "std" (d_args (n_dist n)) = VFloat 1 /\ arg "group_ndims" (d_args (n_dist n)) = VInt 1 /\ d_path (n_dist n) = VBool true.
Proof.
  do 2 eexists. split; [reflexivity|]. split.
  { split; [simpl; lia|]. apply nodupb_ok. reflexivity. }
  split; [reflexivity|]. repeat split.
Qed.
Example C48_legacy_call : exists n, well_formed (user_sig (legacy Bernoulli)) [VObj 3] [("observation", VObj 8)] /\
  call_legacy Bernoulli [VObj 9; VObj 3] [("observation", VObj 8)] = Done n /\ n_observation n = VObj 8.
Proof.
  eexists. split; [split; [simpl; lia|apply nodupb_ok; reflexivity]|]. split; reflexivity.
Qed.

Print Assumptions C48_method.
Print Assumptions C48_name_keyword.
Print Assumptions C48_method_rejects.
Print Assumptions C48_legacy.
Print Assumptions C48_empirical.
Print Assumptions C48_empirical_refuted.
Print Assumptions C48_arguments.
Print Assumptions C48_fixed_keywords.
Print Assumptions C48_unknown_ignored.
Print Assumptions C48_misspelled_refuted.
Print Assumptions C48_positional_order_refuted.
