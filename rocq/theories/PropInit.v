(** C49: a constructor accepts exactly the calls that meet its documented contract,
    and reports the others with the right exception. *)
From Coq Require Import List Arith Bool ZArith Lia.
From Verif Require Import ModelShape SpecShape ModelInit SpecInit ProofInit ProofInitKnown.
Import ListNotations.

Lemma construct_cases c g : well_known c g ->
  match construct c g with
  | Raise TypeError => ~ types_ok c \/ ~ int_typed g
  | Raise ValueError => ~ values_ok c \/ ~ group_ok g
  | Built dp l => types_ok c /\ int_typed g /\ result_ok c dp /\
                  (Forall (eq true) l <-> values_ok c /\ group_ok g)
  end.
Proof.
  intros [H1 [H2 H3]]. unfold construct. pose proof (class_sound c H1 H2) as S. pose proof (group_cases g H3) as G.
  destruct (class_init c) as [[]|dp l]; simpl in *; [tauto|tauto|].
  destruct (group_ndims g) as [[]|u m]; simpl; [tauto|tauto|].
  destruct S as [S1 [S2 S3]]. destruct G as [G1 G2]. rewrite app_nil_r, Forall_app. tauto.
Qed.

(** Whatever is known of shapes while the graph is built, the object is built and all
    its assertions hold when the graph runs exactly if the dtypes agree and are
    allowed, the run-time shapes fit each other, the integers are in range, and
    exactly one of std and logstd is given. *)
Theorem C49_accepts_exactly_the_contract c g : well_known c g ->
  (accepted (construct c g) <-> types_ok c /\ values_ok c /\ group_ok g).
Proof.
  intros W. pose proof (construct_cases c g W) as C. unfold accepted. split.
  - intros [a [l [E F]]]. rewrite E in C. destruct C as [h1 [_ [_ h2]]]. split; [exact h1|]. now apply h2.
  - intros [h1 [h2 h3]]. destruct (construct c g) as [[]|dp l].
    + destruct h3 as [h3 _]. tauto.
    + tauto.
    + exists dp, l. split; [reflexivity|]. apply C. auto.
Qed.

(** Arguments of the wrong type are always reported as a TypeError by the constructor
    itself, never when the graph runs, if nothing else is wrong with the call. *)
Theorem C49_type_error c g : well_known c g ->
  (~ types_ok c -> values_ok c -> group_ok g -> construct c g = Raise TypeError) /\
  (construct c g = Raise TypeError -> ~ types_ok c \/ ~ int_typed g).
Proof.
  intros W. pose proof (construct_cases c g W) as C. split.
  - intros h1 h2 h3. destruct (construct c g) as [[]|dp l]; tauto.
  - intros E. rewrite E in C. exact C.
Qed.
(** ... even if the group_ndims argument has the wrong type or value as well. *)
Theorem C49_type_error_first c g : well_known c g -> ~ types_ok c -> values_ok c -> construct c g = Raise TypeError.
Proof.
  intros [H1 [H2 H3]] T V. unfold construct. pose proof (class_sound c H1 H2) as S.
  destruct (class_init c) as [[]|dp l]; simpl in *; tauto.
Qed.

(** Well-typed calls with wrong values raise a ValueError or fail an assertion. *)
Theorem C49_value_error c g : well_known c g -> types_ok c -> int_typed g -> ~ (values_ok c /\ group_ok g) ->
  construct c g = Raise ValueError \/ exists dp asserts, construct c g = Built dp asserts /\ In false asserts.
Proof.
  intros W T G N. pose proof (construct_cases c g W) as C. destruct (construct c g) as [[]|dp l].
  - tauto.
  - now left.
  - right. exists dp, l. split; [reflexivity|]. destruct C as [_ [_ [_ C]]]. rewrite <- C in N.
    clear C. induction l as [|[] l IH]; [destruct N; constructor| |now left].
    right. apply IH. intros F. apply N. constructor; auto.
Qed.
Theorem C49_value_error_sound c g : well_known c g -> construct c g = Raise ValueError -> ~ values_ok c \/ ~ group_ok g.
Proof. intros W E. pose proof (construct_cases c g W) as C. rewrite E in C. exact C. Qed.

(** Acceptance does not depend on what is known while the graph is built. *)
Lemma forget_ok c : types_ok (forget c) <-> types_ok c.
Proof.
  assert (I1 : forall v, int_typed (forget_int v) <-> int_typed v) by (intros []; simpl; tauto).
  assert (PD : forall p, param_dtype_ok (forget c) p <-> param_dtype_ok c p) by (intros p; destruct c; simpl; tauto).
  assert (PM : map ta_dtype (params (forget c)) = map ta_dtype (params c))
    by (destruct c as [? ? ? [] []| | | | | | | | | | | | | | | | | |]; reflexivity).
  assert (PA : forall p, params_agree (forget c) p <-> params_agree c p).
  { assert (Q : forall l l' p, map ta_dtype l = map ta_dtype l' -> (forall t, In t l -> ta_dtype t = p) ->
      forall t, In t l' -> ta_dtype t = p).
    { intros l l' p E H t Ht. apply (in_map ta_dtype) in Ht. rewrite <- E in Ht. apply in_map_iff in Ht.
      destruct Ht as [y [<- hy]]. auto. }
    intros p. unfold params_agree. rewrite PD. split; intros [h1 h2]; split; auto; eapply Q; eauto. }
  unfold types_ok. assert (E : (exists p, params_agree (forget c) p) <-> exists p, params_agree c p)
    by (split; intros [p h]; exists p; now apply PA).
  rewrite E. assert (D : dtype_argument_ok (forget c) <-> dtype_argument_ok c) by (destruct c; simpl; tauto). rewrite D.
  assert (N : (forall n, n_experiments (forget c) = Some n -> int_typed n) <->
              (forall n, n_experiments c = Some n -> int_typed n)); [|rewrite N; tauto].
  destruct c as [| | | | | | |l n d| | | | |l n d| | | | | |]; simpl; try tauto.
  - split; intros h m E'; inversion E'; subst; apply I1; apply h; reflexivity.
  - destruct n as [n|]; simpl; [|split; intros h m E'; discriminate E'].
    split; intros h m E'; inversion E'; subst; apply I1; apply h; reflexivity.
Qed.
Lemma forget_int_value v z : int_value (forget_int v) z <-> int_value v z.
Proof. destruct v; simpl; tauto. Qed.
Lemma forget_int_typed v : int_typed (forget_int v) <-> int_typed v.
Proof. destruct v; simpl; tauto. Qed.
Lemma forget_pos v : pos_ok (forget_int v) <-> pos_ok v.
Proof.
  unfold pos_ok. rewrite forget_int_typed. split; intros h t; destruct (h t) as [z [h1 h2]]; exists z; split; auto;
    now apply forget_int_value.
Qed.
Lemma forget_values c : values_ok (forget c) <-> values_ok c.
Proof.
  unfold values_ok.
  assert (N : (forall n, n_experiments (forget c) = Some n -> pos_ok n) <-> (forall n, n_experiments c = Some n -> pos_ok n)).
  { destruct c as [| | | | | | |l n d| | | | |l n d| | | | | |]; simpl; try tauto.
    - split; intros h m E'; inversion E'; subst; apply forget_pos; apply h; reflexivity.
    - destruct n as [n|]; simpl; [|split; intros h m E'; discriminate E'].
      split; intros h m E'; inversion E'; subst; apply forget_pos; apply h; reflexivity. }
  unfold pos_ok in N. rewrite N.
  assert (S : shapes_ok (forget c) <-> shapes_ok c).
  { destruct c as [fold mean s std logstd| | | | | | | | | | | | | | | | | |]; simpl; try tauto.
    destruct std as [a|], logstd as [b|]; simpl; split; intros h x [E|E]; inversion E; subst;
      first [apply (h (forget_targ _)); auto; fail|apply h; auto; fail|apply (h a); auto; fail|apply (h b); auto]. }
  assert (A : normal_args_ok (forget c) <-> normal_args_ok c).
  { destruct c as [fold mean s std logstd| | | | | | | | | | | | | | | | | |]; simpl; try tauto.
    destruct std as [a|], logstd as [b|]; simpl; split; (intros [h1 [[x [h2 h3]]|[x [h2 h3]]]]; try discriminate);
      (split; [exact h1|]); first [left; eexists; split; [reflexivity|reflexivity] | right; eexists; split; [reflexivity|reflexivity]]. }
  rewrite S, A. tauto.
Qed.
Lemma forget_known c g : well_known (forget c) (forget_int g).
Proof.
  assert (F : forall v, int_knows (forget_int v)) by (intros []; exact I).
  split; [|split; [|apply F]].
  - destruct c as [? ? ? [] []| | | | | | | | | | | | | | | | | |]; simpl; intros tt0 H;
      repeat (destruct H as [<-|H]; [exact I|]); contradiction.
  - destruct c as [| | | | | | |l n d| | | | |l n d| | | | | |]; simpl; intros m E; try discriminate E.
    + inversion E. apply F.
    + destruct n; inversion E. apply F.
Qed.
Theorem C49_independent_of_static_knowledge c g : well_known c g ->
  (accepted (construct c g) <-> accepted (construct (forget c) (forget_int g))).
Proof.
  intros W. rewrite (C49_accepts_exactly_the_contract c g W).
  rewrite (C49_accepts_exactly_the_contract _ _ (forget_known c g)).
  rewrite forget_ok, forget_values. unfold group_ok. rewrite forget_int_typed.
  assert (V : (exists z, int_value (forget_int g) z /\ (0 <= z)%Z) <-> exists z, int_value g z /\ (0 <= z)%Z)
    by (split; intros [z [h1 h2]]; exists z; split; auto; now apply forget_int_value).
  rewrite V. tauto.
Qed.

(** With everything known while the graph is built, a constructor that returns has
    checked everything: no assertion is left that could fail when the graph runs. *)
Theorem C49_known_calls_are_decided c g : all_known c g -> no_empty_axis c ->
  forall dp asserts, construct c g = Built dp asserts -> Forall (eq true) asserts.
Proof.
  intros [H1 [H2 H3]] Hz. change (quiet (construct c g)). unfold construct.
  apply quiet_bind; [now apply quiet_class|]. intros dp l _.
  apply quiet_bind; [|intros; apply quiet_ret].
  destruct g as [z| | |]; simpl in H3; try contradiction; simpl.
  - destruct (z <? 0)%Z; [intros b k E; discriminate|apply quiet_ret].
  - intros b k E; discriminate.
Qed.
(** Without the condition on empty axes this is false: an extent 0 is taken for an
    unknown one, and the mismatch is only found when the graph runs. *)
Theorem C49_empty_axis_refuted : exists c g dp asserts, all_known c g /\ well_known c g /\
  construct c g = Built dp asserts /\ In false asserts.
Proof.
  exists (MultivariateNormalCholesky (TArg F32 (Some [Some 0]) [0]) (TArg F32 (Some [Some 0; Some 3]) [0; 3])), (IInt 0).
  eexists. eexists. split; [|split; [|split; [reflexivity|simpl; auto]]].
  - split; [|split; [intros n E; discriminate E|exact I]]. simpl. intros t [<-|[<-|[]]]; reflexivity.
  - split; [|split; [intros n E; discriminate E|exact I]]. simpl. intros t [<-|[<-|[]]]; simpl; repeat constructor.
Qed.

(** The dtypes of the object: param_dtype is the common dtype of the parameters, and
    dtype is the dtype argument, or the parameters' dtype for classes without one. *)
Theorem C49_dtypes c g d p asserts : well_known c g -> construct c g = Built (d, p) asserts ->
  (forall t, In t (params c) -> ta_dtype t = p) /\ is_float p /\
  d = match dtype_argument c with Some d' => d' | None => p end /\ (is_float d \/ is_int d).
Proof.
  intros W E. pose proof (construct_cases c g W) as C. rewrite E in C. destruct C as [T [_ [[[P1 P2] R] _]]]. simpl in *.
  assert (F : is_float p) by (destruct c; simpl in P1; unfold is_float in *; tauto).
  split; [exact P2|]. split; [exact F|]. split; [exact R|]. destruct T as [_ [D _]]. rewrite R.
  destruct c; simpl in *; unfold is_float, is_int in *; tauto.
Qed.

Print Assumptions C49_accepts_exactly_the_contract.
Print Assumptions C49_type_error.
Print Assumptions C49_type_error_first.
Print Assumptions C49_value_error.
Print Assumptions C49_value_error_sound.
Print Assumptions C49_independent_of_static_knowledge.
Print Assumptions C49_known_calls_are_decided.
Print Assumptions C49_empty_axis_refuted.
Print Assumptions C49_dtypes.

(** A batch of matrix normals whose batch axis is unknown while building is accepted,
    and rejected when the row factor has the wrong extent or dtype. *)
Example contract_case :
  let mean := TArg F64 (Some [None; Some 2; Some 3]) [5; 2; 3] in
  let v := TArg F64 None [5; 3; 3] in
  let ok := MatrixVariateNormalCholesky mean (TArg F64 (Some [None; Some 2; Some 2]) [5; 2; 2]) v in
  let run := MatrixVariateNormalCholesky mean (TArg F64 (Some [None; Some 2; None]) [5; 2; 4]) v in
  let bad := MatrixVariateNormalCholesky mean (TArg F64 (Some [None; Some 2; Some 4]) [5; 2; 4]) v in
  let typ := MatrixVariateNormalCholesky mean (TArg F32 (Some [None; Some 2; Some 2]) [5; 2; 2]) v in
  well_known ok (IInt 1) /\ accepted (construct ok (IInt 1)) /\ well_known run (IInt 1) /\
  ~ accepted (construct run (IInt 1)) /\ construct bad (IInt 1) = Raise ValueError /\
  construct typ (IInt 1) = Raise TypeError.
Proof.
  cbv zeta. split; [|split; [|split; [|split; [|split; reflexivity]]]].
  - split; [|split; [intros n E; discriminate E|exact I]]. simpl. intros t [<-|[<-|[<-|[]]]]; simpl; repeat constructor.
  - eexists. eexists. split; [reflexivity|]. repeat constructor.
  - split; [|split; [intros n E; discriminate E|exact I]]. simpl. intros t [<-|[<-|[<-|[]]]]; simpl; repeat constructor.
  - intros [a [l [E F]]]. vm_compute in E. inversion E; subst. inversion F as [|? ? ? F2]; subst.
    inversion F2; subst; discriminate.
Qed.
Example integers_case :
  construct (Binomial (TArg F32 (Some []) []) (IInt 0) I32) (IInt 0) = Raise ValueError /\
  construct (Binomial (TArg F32 (Some []) []) (ITensor I64 None (Tensor [] (fun _ => 3%Z))) I32) (IInt 0) = Raise TypeError /\
  construct (Multinomial (TArg F32 (Some [Some 3]) [3]) None I32) (IInt (-1)) = Raise ValueError /\
  accepted (construct (Multinomial (TArg F32 (Some [Some 3]) [3]) (Some (ITensor I32 None (Tensor [] (fun _ => 3%Z)))) I16) (IInt 0)) /\
  ~ accepted (construct (Multinomial (TArg F32 (Some [Some 3]) [3]) (Some (ITensor I32 None (Tensor [] (fun _ => 0%Z)))) I16) (IInt 0)).
Proof.
  repeat split; try reflexivity.
  - eexists. eexists. split; [reflexivity|]. repeat constructor.
  - intros [a [l [E F]]]. vm_compute in E. inversion E; subst. inversion F as [|? ? ? F2]; subst.
    inversion F2; subst; discriminate.
Qed.
