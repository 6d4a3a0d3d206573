(** Lemmas for PropInit.v: with everything known, nothing is left to run time. *)
From Coq Require Import List Arith Bool ZArith Lia.
From Verif Require Import ModelShape SpecShape ProofShape ModelInit SpecInit ProofInit.
Import ListNotations.

Definition quiet {A} (o : outcome A) : Prop := forall a l, o = Built a l -> Forall (eq true) l.
Lemma quiet_bind {A B} (o : outcome A) (f : A -> outcome B) :
  quiet o -> (forall a l, o = Built a l -> quiet (f a)) -> quiet (bindo o f).
Proof.
  intros Ho Hf b l E. destruct o as [e|a m]; simpl in E; [discriminate|].
  destruct (f a) as [e|c k] eqn:F; [discriminate|]. inversion E; subst. apply Forall_app. split.
  - eapply Ho; reflexivity.
  - eapply (Hf a m eq_refl). exact F.
Qed.
Lemma quiet_ret {A} (a : A) : quiet (ret a).
Proof. intros b l E. inversion E; subst. constructor. Qed.
Lemma quiet_require e b : quiet (require e b).
Proof. intros a l E. destruct b; inversion E; subst. constructor. Qed.
Lemma quiet_lift {A} (x : exn + option A) : quiet (lift x).
Proof. intros a l E. destruct x as [e|[y|]]; inversion E; subst. constructor. Qed.
Lemma quiet_check x : quiet (check_opt x).
Proof. intros a l E. destruct x as [e|]; inversion E; subst. constructor. Qed.
Lemma quiet_at_run b : b = true -> quiet (at_run b).
Proof. intros -> a l E. inversion E; subst. repeat constructor. Qed.
Lemma require_built e b a l : require e b = Built a l -> b = true.
Proof. destruct b; [reflexivity|discriminate]. Qed.

Section Known.
Variable t : targ.
Hypothesis known : ta_static t = Some (map Some (ta_run t)).
Lemma quiet_rank k : quiet (rank_at_least t k).
Proof. unfold rank_at_least. rewrite known. apply quiet_require. Qed.
Lemma rank_built k a l : rank_at_least t k = Built a l -> k <= length (ta_run t).
Proof.
  unfold rank_at_least. rewrite known. intros H. apply require_built in H.
  rewrite map_length, negb_true_iff in H. now apply Nat.ltb_ge in H.
Qed.
Lemma quiet_scalar : quiet (scalar t).
Proof.
  unfold scalar. rewrite known. apply quiet_bind; [apply quiet_require|]. intros a l H. apply require_built in H.
  rewrite map_length, negb_true_iff in H. apply Nat.leb_gt in H. apply quiet_at_run. apply Nat.eqb_eq. lia.
Qed.
End Known.
Lemma knows_full t s : knows (Some (map Some t)) s -> s = t.
Proof.
  simpl. revert s. induction t as [|a t IH]; intros s H; inversion H; subst; [reflexivity|]. f_equal; auto.
Qed.
Lemma quiet_broadcastable x y : ta_static x = Some (map Some (ta_run x)) -> ta_static y = Some (map Some (ta_run y)) ->
  quiet (broadcastable x y).
Proof.
  intros Hx Hy. unfold broadcastable. apply quiet_bind; [apply quiet_require|]. intros a l H. apply require_built in H.
  destruct (broadcast_static_shape (ta_static x) (ta_static y)) as [v|] eqn:E; [|discriminate].
  destruct (static_accept_complete _ _ _ E) as [s [t [Ks [Kt C]]]]. rewrite Hx in Ks. rewrite Hy in Kt.
  apply knows_full in Ks. apply knows_full in Kt. subst. apply quiet_at_run.
  destruct (bshape (ta_run x) (ta_run y)) eqn:B; [reflexivity|]. apply bshape_none in B. contradiction.
Qed.
Lemma quiet_two x y : ta_static x = Some (map Some (ta_run x)) -> ta_static y = Some (map Some (ta_run y)) ->
  quiet (two_params x y).
Proof.
  intros Hx Hy. unfold two_params. apply quiet_bind; [apply quiet_lift|]. intros d l _.
  apply quiet_bind; [now apply quiet_broadcastable|]. intros. apply quiet_ret.
Qed.
Lemma dims_full s : forall t, dims_compatible (map Some s) (map Some t) = true -> s = t.
Proof.
  induction s as [|a s IH]; intros [|b t] H; simpl in H; try discriminate; [reflexivity|].
  apply andb_true_iff in H. destruct H as [h1 h2]. apply Nat.eqb_eq in h1. f_equal; auto.
Qed.
Lemma known_int_full s k : k < length s -> ~ In 0 s -> known_int (Some (map Some s)) k = Some (end_extent s k).
Proof.
  intros Hk Hz. unfold known_int, end_extent. rewrite <- map_rev.
  rewrite (nth_indep _ None (Some 0)) by now rewrite map_length, rev_length.
  rewrite (map_nth Some (rev s) 0 k).
  destruct (nth k (rev s) 0) as [|n] eqn:E; [|reflexivity]. exfalso. apply Hz. apply in_rev. rewrite <- E.
  apply nth_In. now rewrite rev_length.
Qed.
Lemma quiet_class c : (forall t, In t (params c) -> ta_static t = Some (map Some (ta_run t))) ->
  (forall n, n_experiments c = Some n -> python_number n) -> no_empty_axis c -> quiet (class_init c).
Proof.
  intros H Hn Hz.
  destruct c as [fold mean sentinel std logstd|p d|l d|x y|x y|x y|p d|l n d|x y|x y|t l|m cv|l n d|l d|l d|a|t l|t l|m u v];
    simpl class_init; try (apply quiet_two; apply H; simpl; auto; fail);
    unfold normal_init, elementwise_discrete, categorical_init, over_categories, binomial_init, bin_concrete_init,
      concrete_init, multinomial_init, dirichlet_init;
    try (apply quiet_bind; [apply quiet_lift|]; intros p0 m0 _);
    try (apply quiet_bind; [apply quiet_check|]; intros a1 m1 _);
    try apply quiet_ret.
  - apply quiet_bind; [apply quiet_require|]. intros a l _. destruct std as [s|], logstd as [g|].
    + intros b k E. discriminate.
    + apply quiet_two; apply H; simpl; auto.
    + apply quiet_two; apply H; simpl; auto.
    + intros b k E. discriminate.
  - apply quiet_bind; [apply quiet_rank; apply H; simpl; auto|]. intros. apply quiet_ret.
  - apply quiet_bind; [|intros; apply quiet_ret]. specialize (Hn n eq_refl).
    destruct n as [z| | |]; simpl in Hn; try contradiction; simpl.
    + destruct (z <=? 0)%Z; [intros b k E; discriminate|apply quiet_ret].
    + intros b k E; discriminate.
  - apply quiet_bind; [apply quiet_scalar; apply H; simpl; auto|]. intros. apply quiet_ret.
  - unfold mvn_init. assert (Hm := H m (or_introl eq_refl)). assert (Hc := H cv (or_intror (or_introl eq_refl))).
    apply quiet_bind; [now apply quiet_rank|]. intros a l E1. apply rank_built in E1; [|exact Hm].
    apply quiet_bind; [now apply quiet_rank|]. intros a0 l0 _.
    apply quiet_bind; [apply quiet_require|]. intros a1 l1 E. apply require_built in E.
    rewrite Hm, Hc, known_int_full in E; [|lia|apply Hz; simpl; auto]. simpl in E.
    change [Some (end_extent (ta_run m) 0)] with (map Some [end_extent (ta_run m) 0]) in E.
    rewrite <- map_app in E. apply dims_full in E.
    apply quiet_bind.
    + apply quiet_at_run. rewrite <- E. apply vector_eqb_eq; rewrite ?E, ?app_length; simpl; try lia; auto.
      all: rewrite E, app_length; simpl; lia.
    + intros a2 l2 _. apply quiet_bind; [apply quiet_lift|]. intros. apply quiet_ret.
  - apply quiet_bind; [apply quiet_rank; apply H; simpl; auto|]. intros a l0 _. apply quiet_bind; [|intros; apply quiet_ret].
    destruct n as [n|]; [|apply quiet_ret]. specialize (Hn n eq_refl).
    destruct n as [z| | |]; simpl in Hn; try contradiction; simpl.
    + destruct (0 <? z)%Z; [apply quiet_ret|intros b k E; discriminate].
    + intros b k E; discriminate.
  - apply quiet_bind; [apply quiet_rank; apply H; simpl; auto|]. intros. apply quiet_ret.
  - apply quiet_bind; [apply quiet_rank; apply H; simpl; auto|]. intros. apply quiet_ret.
  - apply quiet_bind; [|intros; apply quiet_ret]. rewrite (H a) by (simpl; auto).
    destruct (snoc_cases (ta_run a)) as [->|[b [n ->]]]; [intros ? ? E; discriminate|].
    rewrite map_app. change (map Some [n]) with [Some n].
    pose proof (last_snoc (map Some b) (Some n) None) as L.
    destruct (map Some b ++ [Some n]) eqn:Q; [now destruct b|]. rewrite L. apply quiet_require.
  - apply quiet_bind; [apply quiet_rank; apply H; simpl; auto|]. intros a1 l1 _.
    apply quiet_bind; [apply quiet_scalar; apply H; simpl; auto|]. intros. apply quiet_ret.
  - apply quiet_bind; [apply quiet_rank; apply H; simpl; auto|]. intros a1 l1 _.
    apply quiet_bind; [apply quiet_scalar; apply H; simpl; auto|]. intros. apply quiet_ret.
  - unfold mvmn_init. assert (Hm := H m (or_introl eq_refl)). assert (Hu := H u (or_intror (or_introl eq_refl))).
    assert (Hv := H v (or_intror (or_intror (or_introl eq_refl)))).
    apply quiet_bind; [now apply quiet_rank|]. intros a l E1. apply rank_built in E1; [|exact Hm].
    apply quiet_bind; [now apply quiet_rank|]. intros a0 l0 _.
    apply quiet_bind; [now apply quiet_rank|]. intros a1 l1 _.
    apply quiet_bind; [apply quiet_require|]. intros a2 l2 E2. apply require_built in E2.
    apply quiet_bind; [apply quiet_require|]. intros a3 l3 E3. apply require_built in E3.
    rewrite Hm, Hu, known_int_full in E2; [|lia|apply Hz; simpl; auto].
    rewrite Hm, Hv, known_int_full in E3; [|lia|apply Hz; simpl; auto].
    simpl in E2, E3. rewrite map_length, firstn_map in E2, E3.
    change [Some (end_extent (ta_run m) 1)] with (map Some [end_extent (ta_run m) 1]) in E2.
    change [Some (end_extent (ta_run m) 0); Some (end_extent (ta_run m) 0)]
      with (map Some [end_extent (ta_run m) 0; end_extent (ta_run m) 0]) in E3.
    rewrite <- map_app in E2, E3. apply dims_full in E2. apply dims_full in E3.
    apply quiet_bind; [|intros a4 l4 _; apply quiet_bind; [|intros a5 l5 _; apply quiet_bind; [apply quiet_lift|intros; apply quiet_ret]]].
    + apply quiet_at_run. 
      assert (2 <= length (ta_run u)) by (rewrite E2, app_length, firstn_length; simpl; lia).
      rewrite <- E2. apply vector_eqb_eq; auto.
    + apply quiet_at_run. 
      assert (2 <= length (ta_run v)) by (rewrite E3, app_length, firstn_length; simpl; lia).
      rewrite <- E3. apply vector_eqb_eq; auto.
Qed.
