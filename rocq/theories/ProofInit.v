(** Lemmas for PropInit.v. *)
From Coq Require Import List Arith Bool ZArith Lia.
From Verif Require Import ModelShape SpecShape ProofShape ModelInit SpecInit.
Import ListNotations.

(** What a check establishes: [T] about types, [V] about values, [Q] of its result;
    [K] is known from earlier checks. *)
Definition sound {A} (K : Prop) (o : outcome A) (T V : Prop) (Q : A -> Prop) : Prop :=
  match o with
  | Raise TypeError => ~ T
  | Raise ValueError => K -> ~ V
  | Built a l => T /\ Q a /\ (K -> (Forall (eq true) l <-> V))
  end.

Lemma sound_bind {A B} (K : Prop) (o : outcome A) (f : A -> outcome B) T1 V1 Q1 T2 V2 Q2 :
  sound K o T1 V1 Q1 -> (forall a, Q1 a -> sound (K /\ V1) (f a) T2 V2 Q2) ->
  sound K (bindo o f) (T1 /\ T2) (V1 /\ V2) Q2.
Proof.
  unfold sound. destruct o as [[]|a l]; simpl; [intros; tauto|intros; tauto|].
  intros [HT [HQ HV]] H. specialize (H a HQ). destruct (f a) as [[]|b m]; simpl in *; try tauto.
  destruct H as [HT2 [HQ2 HV2]]. split; [tauto|]. split; [exact HQ2|]. intros k.
  rewrite Forall_app, (HV k). split.
  - intros [v1 a2]. split; [exact v1|]. now apply HV2.
  - intros [v1 v2]. split; [exact v1|]. now apply HV2.
Qed.
Lemma sound_ret {A} (K : Prop) (a : A) (Q : A -> Prop) : Q a -> sound K (ret a) True True Q.
Proof. intros q. simpl. repeat split; auto. Qed.
Lemma sound_weaken {A} (K : Prop) (o : outcome A) T V T' V' (Q Q' : A -> Prop) :
  sound K o T V Q -> (T <-> T') -> (K -> (V <-> V')) -> (forall a, Q a -> Q' a) -> sound K o T' V' Q'.
Proof.
  unfold sound. intros H HT HV HQ. destruct o as [[]|a l].
  - tauto.
  - intros k. specialize (H k). specialize (HV k). tauto.
  - destruct H as [h1 [h2 h3]]. split; [tauto|]. split; [auto|]. intros k. rewrite (h3 k). auto.
Qed.
Lemma sound_known {A} (K K' : Prop) (o : outcome A) T V Q : (K' -> K) -> sound K o T V Q -> sound K' o T V Q.
Proof.
  unfold sound. intros HK H. destruct o as [[]|a l]; auto. destruct H as [h1 [h2 h3]]. auto.
Qed.
Lemma Forall_one b : Forall (eq true) [b] <-> b = true.
Proof. split; [intros H; now inversion H|intros ->; repeat constructor]. Qed.
Lemma sound_require (K : Prop) b V : (K -> (b = true <-> V)) -> sound K (require ValueError b) True V (fun _ => True).
Proof.
  intros H. destruct b; simpl.
  - repeat split; auto. intros _. now apply H.
  - intros k v. apply H in v; [discriminate|exact k].
Qed.
Lemma sound_at_run (K : Prop) b V : (K -> (b = true <-> V)) -> sound K (at_run b) True V (fun _ => True).
Proof. intros H. simpl. split; [exact I|]. split; [exact I|]. intros k. rewrite Forall_one. auto. Qed.

(** ** Dtypes *)
Lemma dtype_eqb_eq a b : dtype_eqb a b = true <-> a = b.
Proof. destruct a, b; simpl; split; congruence. Qed.
Lemma mem_in d l : mem d l = true <-> In d l.
Proof.
  unfold mem. rewrite existsb_exists. split.
  - intros [x [H E]]. apply dtype_eqb_eq in E. now subst.
  - intros H. exists d. split; [exact H|]. now apply dtype_eqb_eq.
Qed.
Lemma same_loop_some allowed : allowed <> [] -> forall ts e, In e allowed ->
  (forall d, same_dtype_loop allowed (Some e) ts = inr d -> d = Some e /\ forall t, In t ts -> t = e) /\
  (forall x, same_dtype_loop allowed (Some e) ts = inl x -> x = TypeError /\ ~ forall t, In t ts -> t = e).
Proof.
  intros N ts. induction ts as [|t ts IH]; intros e He; simpl.
  - split; [|discriminate]. intros d H. inversion H. split; [reflexivity|]. intros t [].
  - destruct allowed as [|a al] eqn:Al; [contradiction|]. rewrite <- Al in *.
    destruct (mem t allowed) eqn:M; simpl.
    + destruct (dtype_eqb e t) eqn:E.
      * apply dtype_eqb_eq in E. subst t. destruct (IH e He) as [I1 I2]. split.
        -- intros d H. destruct (I1 d H) as [h1 h2]. split; [exact h1|]. intros t [<-|h]; auto.
        -- intros x H. destruct (I2 x H) as [h1 h2]. split; [exact h1|]. intros h. apply h2. intros; apply h; now right.
      * split; [discriminate|]. intros x H. inversion H. split; [reflexivity|]. intros h.
        assert (t = e) by (apply h; now left). subst. assert (dtype_eqb e e = true) by now apply dtype_eqb_eq. congruence.
    + split; [discriminate|]. intros x H. inversion H. split; [reflexivity|]. intros h.
      assert (t = e) by (apply h; now left). subst t. assert (mem e allowed = true) by now apply mem_in. congruence.
Qed.
Lemma sound_same_dtype (K : Prop) allowed t ts : allowed <> [] ->
  sound K (lift (assert_same_dtype_in allowed (t :: ts)))
    (exists p, In p allowed /\ forall x, In x (t :: ts) -> x = p) True
    (fun d => In d allowed /\ forall x, In x (t :: ts) -> x = d).
Proof.
  intros N. unfold assert_same_dtype_in. simpl.
  destruct allowed as [|a al] eqn:Al; [contradiction|]. rewrite <- Al in *.
  destruct (mem t allowed) eqn:M; simpl.
  - apply mem_in in M. destruct (same_loop_some allowed N ts t M) as [I1 I2].
    destruct (same_dtype_loop allowed (Some t) ts) as [x|d] eqn:E; simpl.
    + destruct (I2 x eq_refl) as [-> h]. simpl. intros [p [hp hs]]. apply h. intros y hy.
      rewrite (hs y); [|now right]. symmetry. apply hs. now left.
    + destruct (I1 d eq_refl) as [-> h]. simpl.
      assert (Q : forall x, t = x \/ In x ts -> x = t) by (intros x [<-|hx]; auto).
      split; [exists t; auto|]. split; [auto|]. split; auto.
  - intros [p [hp hs]]. assert (t = p) by (apply hs; now left). subst p.
    apply mem_in in hp. congruence.
Qed.
Lemma sound_dtype_in (K : Prop) d l : sound K (check_opt (assert_dtype_in_dtypes d l)) (In d l) True (fun _ => True).
Proof.
  unfold assert_dtype_in_dtypes. destruct (mem d l) eqn:M; simpl.
  - apply mem_in in M. repeat split; auto.
  - intros h. apply mem_in in h. congruence.
Qed.

(** ** Shapes *)
Lemma knows_length l s : knows (Some l) s -> length l = length s.
Proof. simpl. intros H. induction H; simpl; congruence. Qed.
Lemma sound_rank (K : Prop) t k : knows (ta_static t) (ta_run t) ->
  sound K (rank_at_least t k) True (k <= length (ta_run t)) (fun _ => True).
Proof.
  intros H. unfold rank_at_least. destruct (ta_static t) as [l|].
  - apply sound_require. intros _. rewrite (knows_length _ _ H). rewrite negb_true_iff, Nat.ltb_ge. reflexivity.
  - apply sound_at_run. intros _. apply Nat.leb_le.
Qed.
Lemma length_zero (s : shape) : Nat.eqb (length s) 0 = true <-> s = [].
Proof. rewrite Nat.eqb_eq. split; [apply length_zero_iff_nil|intros ->; reflexivity]. Qed.
Lemma sound_scalar (K : Prop) t : knows (ta_static t) (ta_run t) ->
  sound K (scalar t) True (ta_run t = []) (fun _ => True).
Proof.
  intros H. unfold scalar. destruct (ta_static t) as [l|].
  - eapply sound_weaken.
    + eapply sound_bind with (V1 := ta_run t = []) (Q1 := fun _ => True).
      * apply sound_require. intros _. rewrite (knows_length _ _ H).
        rewrite negb_true_iff, Nat.leb_gt, <- length_zero, Nat.eqb_eq. lia.
      * intros _ _. apply sound_at_run. intros _. apply length_zero.
    + tauto.
    + tauto.
    + auto.
  - apply sound_at_run. intros _. apply length_zero.
Qed.
Lemma sound_broadcastable (K : Prop) x y : knows (ta_static x) (ta_run x) -> knows (ta_static y) (ta_run y) ->
  sound K (broadcastable x y) True (compatible (ta_run x) (ta_run y)) (fun _ => True).
Proof.
  intros Hx Hy. unfold broadcastable.
  destruct (broadcast_static_shape (ta_static x) (ta_static y)) as [v|] eqn:E; simpl.
  - split; [exact I|]. split; [exact I|]. intros _. rewrite Forall_one.
    destruct (bshape (ta_run x) (ta_run y)) as [u|] eqn:B.
    + apply bshape_some in B. tauto.
    + apply bshape_none in B. split; [discriminate|]. intros h. contradiction.
  - intros _. eapply static_reject_sound; eauto.
Qed.

(** ** Integers *)
Lemma index_list_nil : index_list [] = [[]].
Proof. reflexivity. Qed.
Lemma assert_int (K : Prop) s t p : knows s (t_shape t) ->
  sound K (assert_rank_0 s t ;; assert_all p t) True (t_shape t = [] /\ p (t_at t []) = true) (fun _ => True).
Proof.
  intros H. eapply sound_weaken.
  - eapply sound_bind with (V1 := t_shape t = []) (Q1 := fun _ => True) (V2 := p (t_at t []) = true).
    + unfold assert_rank_0. destruct s as [l|].
      * apply sound_require. intros _. rewrite (knows_length _ _ H). apply length_zero.
      * apply sound_at_run. intros _. apply length_zero.
    + intros _ _. apply sound_at_run. intros [_ Z]. rewrite Z. simpl. rewrite andb_true_r. reflexivity.
  - tauto.
  - tauto.
  - auto.
Qed.
Lemma known_shape s : knows (Some (map Some s)) s.
Proof. simpl. induction s; simpl; constructor; auto. Qed.
Definition pos_ok (n : iarg) : Prop := int_typed n -> exists z, int_value n z /\ (0 < z)%Z.
Lemma pos_tensor (t : tensor Z) : (t_shape t = [] /\ (0 <? t_at t [])%Z = true) <->
  exists z, (t_shape t = [] /\ t_at t [] = z) /\ (0 < z)%Z.
Proof.
  rewrite Z.ltb_lt. split.
  - intros [a b]. exists (t_at t []). auto.
  - intros [z [[a <-] b]]. auto.
Qed.
Lemma nonneg_tensor (t : tensor Z) : (t_shape t = [] /\ (0 <=? t_at t [])%Z = true) <->
  exists z, (t_shape t = [] /\ t_at t [] = z) /\ (0 <= z)%Z.
Proof.
  rewrite Z.leb_le. split.
  - intros [a b]. exists (t_at t []). auto.
  - intros [z [[a <-] b]]. auto.
Qed.
Lemma sound_binomial_n (K : Prop) n : int_knows n -> sound K (binomial_n_experiments n) (int_typed n) (pos_ok n) (fun _ => True).
Proof.
  unfold binomial_n_experiments, pos_ok. destruct n as [z| |d s t|[[]|t]]; simpl.
  - intros _. destruct (Z.leb_spec z 0); simpl.
    + intros _ h. destruct (h I) as [y [-> h2]]. lia.
    + repeat split; auto. intros _ _. exists z. auto.
  - auto.
  - intros H. destruct (dtype_eqb d I32) eqn:E; simpl.
    + apply dtype_eqb_eq in E. eapply sound_weaken; [apply assert_int; exact H| | |].
      * tauto.
      * intros _. rewrite pos_tensor. tauto.
      * auto.
    + intros ->. discriminate.
  - intros _ [t h]. discriminate.
  - intros _ [t h]. discriminate.
  - intros _. eapply sound_weaken; [exact (assert_int K (Some (map Some (t_shape t))) t (fun z => (0 <? z)%Z) (known_shape _))| | |].
    + split; [eauto|auto].
    + intros _. rewrite pos_tensor. split; [auto|]. intros h. apply h. eauto.
    + auto.
Qed.
Lemma sound_positive_int32 (K : Prop) n : int_knows n ->
  sound K (assert_positive_int32_scalar n) (int_typed n) (pos_ok n) (fun _ => True).
Proof.
  unfold assert_positive_int32_scalar, pos_ok. destruct n as [z| |d s t|[[]|t]]; simpl.
  - intros _. destruct (Z.ltb_spec 0 z); simpl.
    + repeat split; auto. intros _ _. exists z. auto.
    + intros _ h. destruct (h I) as [y [-> h2]]. lia.
  - auto.
  - intros H. destruct (dtype_eqb d I32) eqn:E; simpl.
    + apply dtype_eqb_eq in E. eapply sound_weaken; [apply assert_int; exact H| | |].
      * tauto.
      * intros _. rewrite pos_tensor. tauto.
      * auto.
    + intros ->. discriminate.
  - intros _ [t h]. discriminate.
  - intros _ [t h]. discriminate.
  - intros _. eapply sound_weaken; [exact (assert_int K (Some (map Some (t_shape t))) t (fun z => (0 <? z)%Z) (known_shape _))| | |].
    + split; [eauto|auto].
    + intros _. rewrite pos_tensor. split; [auto|]. intros h. apply h. eauto.
    + auto.
Qed.
(** group_ndims raises whatever the conversion raises. *)
Lemma group_cases g : int_knows g ->
  match group_ndims g with
  | Raise TypeError => ~ int_typed g
  | Raise ValueError => ~ group_ok g
  | Built _ l => int_typed g /\ (Forall (eq true) l <-> group_ok g)
  end.
Proof.
  unfold group_ndims, group_ok. destruct g as [z| |d s t|[[]|t]]; cbn -[assert_rank_0 assert_all bindo].
  - intros _. destruct (Z.ltb_spec z 0); simpl.
    + intros [_ [y [-> h]]]. lia.
    + repeat split; auto. exists z. auto.
  - intros _. auto.
  - intros H. destruct (dtype_eqb d I32) eqn:E.
    + apply dtype_eqb_eq in E. pose proof (assert_int True s t (fun z => (0 <=? z)%Z) H) as S.
      destruct (assert_rank_0 s t ;; assert_all (fun z => (0 <=? z)%Z) t) as [[]|a l]; simpl in S.
      * tauto.
      * intros [_ h]. apply S; [exact I|]. now apply nonneg_tensor.
      * destruct S as [_ [_ S]]. split; [exact E|]. rewrite (S I), nonneg_tensor. tauto.
    + intros [-> _]. discriminate.
  - intros _ [t h]. discriminate.
  - intros _ [[t h] _]. discriminate.
  - intros _. pose proof (assert_int True (Some (map Some (t_shape t))) t (fun z => (0 <=? z)%Z) (known_shape _)) as S.
    destruct (assert_rank_0 (Some (map Some (t_shape t))) t ;; assert_all (fun z => (0 <=? z)%Z) t) as [[]|a l]; simpl in S.
    + tauto.
    + intros [_ h]. apply S; [exact I|]. now apply nonneg_tensor.
    + destruct S as [_ [_ S]]. split; [eauto|]. rewrite (S I), nonneg_tensor. split; [|tauto]. intros h. split; [eauto|exact h].
Qed.

(** ** Shapes of Dirichlet and of the matrix factors *)
Lemma last_snoc {A} (l : list A) x d : last (l ++ [x]) d = x.
Proof. induction l as [|a l IH]; [reflexivity|]. simpl. destruct (l ++ [x]) eqn:E; [now destruct l|exact IH]. Qed.
Lemma snoc_cases {A} (l : list A) : l = [] \/ exists b x, l = b ++ [x].
Proof. destruct l as [|a l] using rev_ind; [now left|right; eauto]. Qed.
Lemma last_ge2 (s : shape) : (1 <= length s /\ 2 <= last s 0) <-> exists batch n, s = batch ++ [n] /\ 2 <= n.
Proof.
  split.
  - intros [h1 h2]. destruct (snoc_cases s) as [->|[b [x ->]]]; [simpl in h1; lia|].
    rewrite last_snoc in h2. eauto.
  - intros [b [n [-> h]]]. rewrite app_length, last_snoc. simpl. lia.
Qed.
Definition kd (d : option nat) (n : nat) : Prop := match d with Some m => m = n | None => True end.
Lemma knows_snoc l d s : knows (Some (l ++ [d])) s -> exists b n, s = b ++ [n] /\ knows (Some l) b /\ kd d n.
Proof.
  simpl. intros H. apply Forall2_app_inv_l in H. destruct H as [b [q [H1 [H2 ->]]]].
  destruct q as [|y q]; [inversion H2|]. inversion H2 as [|? ? ? ? h3 h4]; subst. inversion h4; subst.
  exists b, y. split; [reflexivity|]. split; [exact H1|]. exact h3.
Qed.
Lemma knows_app l m s t : knows (Some l) s -> knows (Some m) t -> knows (Some (l ++ m)) (s ++ t).
Proof. simpl. apply Forall2_app. Qed.
Lemma sound_dirichlet (K : Prop) a : knows (ta_static a) (ta_run a) ->
  sound K (match ta_static a with
  | Some [] => Raise ValueError
  | Some l =>
      match last l None with
      | Some n => require ValueError (negb (Nat.ltb n 2))
      | None => at_run (Nat.leb 1 (length (ta_run a))) ;; at_run (Nat.leb 2 (last (ta_run a) 0))
      end
  | None => at_run (Nat.leb 1 (length (ta_run a))) ;; at_run (Nat.leb 2 (last (ta_run a) 0))
  end) True (exists batch n, ta_run a = batch ++ [n] /\ 2 <= n) (fun _ => True).
Proof.
  intros H.
  assert (D : sound K (at_run (Nat.leb 1 (length (ta_run a))) ;; at_run (Nat.leb 2 (last (ta_run a) 0))) True
    (exists batch n, ta_run a = batch ++ [n] /\ 2 <= n) (fun _ => True)).
  { eapply sound_weaken.
    - eapply sound_bind with (V1 := 1 <= length (ta_run a)) (Q1 := fun _ => True) (V2 := 2 <= last (ta_run a) 0).
      + apply sound_at_run. intros _. apply Nat.leb_le.
      + intros _ _. apply sound_at_run. intros _. apply Nat.leb_le.
    - tauto.
    - intros _. apply last_ge2.
    - auto. }
  destruct (ta_static a) as [l|]; [|exact D].
  destruct (snoc_cases l) as [->|[b [x ->]]].
  - simpl. intros _ [b [n [E _]]]. rewrite E in H. simpl in H. inversion H. now destruct b.
  - rewrite last_snoc. destruct (knows_snoc _ _ _ H) as [c [n [E [_ Hk]]]].
    assert (G : sound K (match x with
       | Some n => require ValueError (negb (Nat.ltb n 2))
       | None => at_run (Nat.leb 1 (length (ta_run a))) ;; at_run (Nat.leb 2 (last (ta_run a) 0)) end) True
        (exists batch n, ta_run a = batch ++ [n] /\ 2 <= n) (fun _ => True)).
    { destruct x as [m|]; [|exact D]. simpl in Hk. subst m. apply sound_require. intros _.
      rewrite negb_true_iff, Nat.ltb_ge. split; [eauto|]. intros [b' [n' [E' h]]].
      rewrite E in E'. apply app_inj_tail in E'. destruct E' as [_ ->]. exact h. }
    destruct (b ++ [x]) eqn:Q; [now destruct b|exact G].
Qed.

Lemma entries_eqb_eq s : forall t, length s = length t -> (entries_eqb s t = true <-> s = t).
Proof.
  induction s as [|a s IH]; intros [|b t] L; try discriminate; simpl; [tauto|].
  rewrite andb_true_iff, Nat.eqb_eq, IH by (simpl in L; lia). split; [intros [-> ->]; reflexivity|].
  intros E; inversion E; auto.
Qed.
Lemma vector_eqb_eq s t : 2 <= length s -> 2 <= length t -> (vector_eqb s t = true <-> s = t).
Proof.
  intros Hs Ht. unfold vector_eqb. destruct (Nat.eqb_spec (length s) (length t)) as [L|L].
  - now apply entries_eqb_eq.
  - destruct s as [|a [|a' s]]; simpl in Hs; try lia. destruct t as [|b [|b' t]]; simpl in Ht; try lia.
    split; [discriminate|]. intros E. rewrite E in L. now destruct L.
Qed.
Lemma compatible_dims l : forall m s, knows (Some l) s -> knows (Some m) s -> dims_compatible l m = true.
Proof.
  induction l as [|a l IH]; intros [|b m] s Hl Hm; simpl in *.
  - reflexivity.
  - inversion Hl; subst. inversion Hm.
  - inversion Hm; subst. inversion Hl.
  - destruct s as [|n s]; [inversion Hl|].
    inversion Hl as [|? ? ? ? h1 h2]; subst. inversion Hm as [|? ? ? ? h3 h4]; subst.
    rewrite (IH m s) by assumption. rewrite andb_true_r.
    destruct a as [c|], b as [e|]; auto. apply Nat.eqb_eq. congruence.
Qed.
Lemma compatible_statics s t r : knows s r -> knows t r -> is_compatible_with s t = true.
Proof.
  destruct s as [l|], t as [m|]; intros; simpl; auto. eapply compatible_dims; eassumption.
Qed.
Lemma knows_rev' l s : knows (Some l) s -> knows (Some (rev l)) (rev s).
Proof.
  simpl. intros H. induction H; simpl; [constructor|]. apply Forall2_app; [assumption|]. repeat constructor. assumption.
Qed.
Lemma knows_nth l s : knows (Some l) s -> forall k, kd (nth k l None) (nth k s 0).
Proof. simpl. intros H. induction H; intros [|k]; simpl; auto. Qed.
Lemma known_int_knows s r k : knows s r -> kd (known_int s k) (end_extent r k).
Proof.
  unfold known_int, end_extent. destruct s as [l|]; [|intros; exact I]. intros H.
  pose proof (knows_nth _ _ (knows_rev' _ _ H) k) as N. destruct (nth k (rev l) None) as [[|n]|]; simpl in *; auto.
Qed.
Lemma knows_sconcat s r l t : knows s r -> knows (Some l) t -> knows (sconcat s (Some l)) (r ++ t).
Proof. destruct s as [m|]; intros Hs Hl; [|exact I]. simpl. now apply Forall2_app. Qed.
Lemma knows_drop k s r : knows s r -> knows (drop_last k s) (firstn (length r - k) r).
Proof.
  destruct s as [l|]; intros H; [|exact I]. simpl drop_last. rewrite (knows_length _ _ H).
  simpl in *. generalize (length r - k). induction H; intros [|n]; simpl; constructor; auto.
Qed.
Lemma end_snoc b n : end_extent (b ++ [n]) 0 = n.
Proof. unfold end_extent. now rewrite rev_app_distr. Qed.
Lemma end_snoc2 b n m : end_extent (b ++ [n; m]) 0 = m /\ end_extent (b ++ [n; m]) 1 = n.
Proof. unfold end_extent. now rewrite rev_app_distr. Qed.
Lemma firstn_snoc (b t : shape) : firstn (length (b ++ t) - length t) (b ++ t) = b.
Proof. rewrite app_length, Nat.add_sub, firstn_app, Nat.sub_diag, firstn_all. simpl. apply app_nil_r. Qed.
Lemma snoc2_cases (l : shape) : 2 <= length l -> exists b n m, l = b ++ [n; m].
Proof.
  intros H. destruct (snoc_cases l) as [->|[b [m ->]]]; [simpl in H; lia|].
  rewrite app_length in H. simpl in H. destruct (snoc_cases b) as [->|[c [n ->]]]; [simpl in H; lia|].
  exists c, n, m. now rewrite <- app_assoc.
Qed.

Lemma sound_mvn_shapes (K : Prop) mean cov : knows (ta_static mean) (ta_run mean) -> knows (ta_static cov) (ta_run cov) ->
  forall B (f : outcome B) T Q, (forall K : Prop, sound K f T True Q) ->
  sound K (rank_at_least mean 1 ;;
    rank_at_least cov 2 ;;
    require ValueError (is_compatible_with (ta_static cov)
                        (sconcat (ta_static mean) (Some [known_int (ta_static mean) 0]))) ;;
    at_run (vector_eqb (ta_run mean ++ [end_extent (ta_run mean) 0]) (ta_run cov)) ;; f) T
    (exists batch n, ta_run mean = batch ++ [n] /\ ta_run cov = batch ++ [n; n]) Q.
Proof.
  intros Hm Hc B f T Q Hf. eapply sound_weaken.
  - eapply sound_bind; [apply sound_rank; exact Hm|]. intros _ _.
    eapply sound_bind; [apply sound_rank; exact Hc|]. intros _ _.
    eapply sound_bind; [apply sound_require; intros _; reflexivity|]. intros _ _.
    eapply sound_bind; [apply sound_at_run; intros _; reflexivity|]. intros _ _. apply Hf.
  - tauto.
  - intros _. split.
    + intros [h1 [h2 [_ [h3 _]]]].
      destruct (snoc_cases (ta_run mean)) as [E|[b [n E]]]; [rewrite E in h1; simpl in h1; lia|].
      exists b, n. split; [exact E|]. apply vector_eqb_eq in h3; [|rewrite app_length; simpl; lia|exact h2].
      rewrite <- h3, E, end_snoc, <- app_assoc. reflexivity.
    + intros [b [n [E1 E2]]]. rewrite E1, E2.
      assert (X : (b ++ [n]) ++ [end_extent (b ++ [n]) 0] = b ++ [n; n])
        by (rewrite end_snoc, <- app_assoc; reflexivity).
      split; [rewrite app_length; simpl; lia|]. split; [rewrite app_length; simpl; lia|]. split; [|split; [|exact I]].
      * apply compatible_statics with (b ++ [n; n]); [now rewrite <- E2|].
        rewrite <- X. rewrite <- E1. apply knows_sconcat; [exact Hm|]. simpl. repeat constructor.
        apply known_int_knows. exact Hm.
      * rewrite X. apply vector_eqb_eq; rewrite ?app_length; simpl; try lia. reflexivity.
  - auto.
Qed.
Lemma sound_mvmn_shapes (K : Prop) mean u v : knows (ta_static mean) (ta_run mean) ->
  knows (ta_static u) (ta_run u) -> knows (ta_static v) (ta_run v) ->
  forall B (f : outcome B) T Q, (forall K : Prop, sound K f T True Q) ->
  sound K (rank_at_least mean 2 ;; rank_at_least u 2 ;; rank_at_least v 2 ;;
    require ValueError (is_compatible_with (ta_static u)
      (sconcat (drop_last 1 (ta_static mean)) (Some [known_int (ta_static mean) 1]))) ;;
    require ValueError (is_compatible_with (ta_static v)
      (sconcat (drop_last 2 (ta_static mean)) (Some [known_int (ta_static mean) 0; known_int (ta_static mean) 0]))) ;;
    at_run (vector_eqb (firstn (length (ta_run mean) - 1) (ta_run mean) ++ [end_extent (ta_run mean) 1]) (ta_run u)) ;;
    at_run (vector_eqb (firstn (length (ta_run mean) - 2) (ta_run mean) ++
                     [end_extent (ta_run mean) 0; end_extent (ta_run mean) 0]) (ta_run v)) ;; f) T
    (exists batch n m, ta_run mean = batch ++ [n; m] /\ ta_run u = batch ++ [n; n] /\ ta_run v = batch ++ [m; m]) Q.
Proof.
  intros Hm Hu Hv B f T Q Hf. eapply sound_weaken.
  - eapply sound_bind; [apply sound_rank; exact Hm|]. intros _ _.
    eapply sound_bind; [apply sound_rank; exact Hu|]. intros _ _.
    eapply sound_bind; [apply sound_rank; exact Hv|]. intros _ _.
    eapply sound_bind; [apply sound_require; intros _; reflexivity|]. intros _ _.
    eapply sound_bind; [apply sound_require; intros _; reflexivity|]. intros _ _.
    eapply sound_bind; [apply sound_at_run; intros _; reflexivity|]. intros _ _.
    eapply sound_bind; [apply sound_at_run; intros _; reflexivity|]. intros _ _. apply Hf.
  - tauto.
  - intros _.
    assert (F : forall b n m, firstn (length (b ++ [n; m]) - 1) (b ++ [n; m]) ++ [end_extent (b ++ [n; m]) 1] = b ++ [n; n] /\
       firstn (length (b ++ [n; m]) - 2) (b ++ [n; m]) ++ [end_extent (b ++ [n; m]) 0; end_extent (b ++ [n; m]) 0] = b ++ [m; m]).
    { intros b n m. destruct (end_snoc2 b n m) as [-> ->]. split.
      - replace (b ++ [n; m]) with ((b ++ [n]) ++ [m]) by (rewrite <- app_assoc; reflexivity).
        pose proof (firstn_snoc (b ++ [n]) [m]) as X. change (length [m]) with 1 in X. rewrite X. rewrite <- app_assoc. reflexivity.
      - pose proof (firstn_snoc b [n; m]) as X. change (length [n; m]) with 2 in X. rewrite X. reflexivity. }
    split.
    + intros [h1 [h2 [h3 [_ [_ [h4 [h5 _]]]]]]].
      destruct (snoc2_cases _ h1) as [b [n [m E]]]. exists b, n, m. split; [exact E|]. rewrite E in h4, h5.
      destruct (F b n m) as [F1 F2]. rewrite F1 in h4. rewrite F2 in h5.
      apply vector_eqb_eq in h4; [|rewrite app_length; simpl; lia|exact h2].
      apply vector_eqb_eq in h5; [|rewrite app_length; simpl; lia|exact h3]. auto.
    + intros [b [n [m [E1 [E2 E3]]]]]. destruct (F b n m) as [F1 F2].
      assert (A1 : 2 <= length (b ++ [n; m])) by (rewrite app_length; simpl; lia).
      assert (A2 : 2 <= length (b ++ [n; n])) by (rewrite app_length; simpl; lia).
      assert (A3 : 2 <= length (b ++ [m; m])) by (rewrite app_length; simpl; lia).
      rewrite E1, E2, E3, F1, F2. repeat split; try assumption.
      * apply compatible_statics with (b ++ [n; n]); [now rewrite <- E2|].
        rewrite <- F1, <- E1. apply knows_sconcat; [apply knows_drop; exact Hm|].
        simpl. repeat constructor. apply known_int_knows. exact Hm.
      * apply compatible_statics with (b ++ [m; m]); [now rewrite <- E3|].
        rewrite <- F2, <- E1. apply knows_sconcat; [apply knows_drop; exact Hm|].
        simpl. repeat constructor; apply known_int_knows; exact Hm.
      * apply vector_eqb_eq; auto.
      * apply vector_eqb_eq; auto.
  - auto.
Qed.

(** ** Classes *)
Definition agree (allowed : list dtype) (ts : list targ) (p : dtype) : Prop :=
  In p allowed /\ forall t, In t ts -> ta_dtype t = p.
Lemma sound_agree (K : Prop) allowed t ts : allowed <> [] ->
  sound K (lift (assert_same_dtype_in allowed (map ta_dtype (t :: ts))))
    (exists p, agree allowed (t :: ts) p) True (agree allowed (t :: ts)).
Proof.
  intros N. change (map ta_dtype (t :: ts)) with (ta_dtype t :: map ta_dtype ts).
  assert (X : forall p, (In p allowed /\ forall x, In x (ta_dtype t :: map ta_dtype ts) -> x = p) <-> agree allowed (t :: ts) p).
  { intros p. unfold agree. split; intros [h1 h2]; split; auto.
    - intros y hy. apply h2. change (In (ta_dtype y) (map ta_dtype (t :: ts))). now apply in_map.
    - intros x hx. change (In x (map ta_dtype (t :: ts))) in hx. apply in_map_iff in hx. destruct hx as [y [<- hy]]. auto. }
  eapply sound_weaken; [apply sound_same_dtype; exact N| | |].
  - split; intros [p h]; exists p; now apply X.
  - tauto.
  - intros d h. now apply X.
Qed.
Definition same2 (Q : dtype -> Prop) (dp : dtypes) : Prop := Q (snd dp) /\ fst dp = snd dp.
Lemma float_nonempty : floating_dtypes <> []. Proof. discriminate. Qed.
Lemma is_float_in p : In p floating_dtypes <-> is_float p.
Proof. unfold is_float. simpl. intuition congruence. Qed.
Lemma int_or_float_in d : In d (integer_dtypes ++ floating_dtypes) <-> is_float d \/ is_int d.
Proof. unfold is_float, is_int. simpl. intuition congruence. Qed.
Lemma cat_params_in p : In p [F32; F64] <-> p = F32 \/ p = F64.
Proof. simpl. intuition congruence. Qed.
Lemma cat_dtypes_in p : In p [F32; F64; I32; I64] <-> p = F32 \/ p = F64 \/ p = I32 \/ p = I64.
Proof. simpl. intuition congruence. Qed.

Lemma sound_two_params (K : Prop) x y : knows (ta_static x) (ta_run x) -> knows (ta_static y) (ta_run y) ->
  sound K (two_params x y) (exists p, agree floating_dtypes [x; y] p) (compatible (ta_run x) (ta_run y))
    (same2 (agree floating_dtypes [x; y])).
Proof.
  intros Hx Hy. eapply sound_weaken.
  - eapply sound_bind; [exact (sound_agree K floating_dtypes x [y] float_nonempty)|]. intros d Hd.
    eapply sound_bind; [apply sound_broadcastable; assumption|]. intros _ _.
    apply sound_ret with (Q := same2 (agree floating_dtypes [x; y])). now split.
  - tauto.
  - tauto.
  - auto.
Qed.
Definition result_ok (c : call) (dp : dtypes) : Prop :=
  params_agree c (snd dp) /\ fst dp = match dtype_argument c with Some d => d | None => snd dp end.

Lemma positive_length (s : shape) : 1 <= length s <-> s <> [].
Proof. destruct s; simpl; split; intros; try lia; congruence. Qed.
Lemma sound_float1 (K : Prop) t B (f : dtype -> outcome B) T V Q :
  (forall p, agree floating_dtypes [t] p -> sound (K /\ True) (f p) T V Q) ->
  sound K (bindo (lift (assert_same_float_dtype [ta_dtype t])) f)
    ((exists p, agree floating_dtypes [t] p) /\ T) (True /\ V) Q.
Proof. intros H. eapply sound_bind; [exact (sound_agree K floating_dtypes t [] float_nonempty)|exact H]. Qed.

Ltac none_n := let n := fresh in let h := fresh in intros n h; discriminate h.
Lemma class_sound c : (forall t, In t (params c) -> knows (ta_static t) (ta_run t)) ->
  (forall n, n_experiments c = Some n -> int_knows n) ->
  sound True (class_init c) (types_ok c) (values_ok c) (result_ok c).
Proof.
  assert (TWO : forall c x y, class_init c = two_params x y -> params c = [x; y] -> dtype_argument c = None ->
    n_experiments c = None -> (forall p, param_dtype_ok c p = is_float p) ->
    (shapes_ok c <-> compatible (ta_run x) (ta_run y)) -> normal_args_ok c -> dtype_argument_ok c ->
    (forall t, In t (params c) -> knows (ta_static t) (ta_run t)) ->
    sound True (class_init c) (types_ok c) (values_ok c) (result_ok c)).
  { intros c' x y E P D N F S A O H. rewrite E. rewrite P in H. unfold types_ok, values_ok, result_ok, params_agree.
    rewrite P, D, N. eapply sound_weaken; [apply sound_two_params; apply H; simpl; auto| | |].
    - split.
      + intros [p [h1 h2]]. split; [|split; [exact O|none_n]]. exists p. rewrite F. split; [now apply is_float_in|exact h2].
      + intros [[p [h1 h2]] _]. exists p. rewrite F in h1. split; [now apply is_float_in|exact h2].
    - intros _. rewrite S. split; [intros h; split; [exact h|split; [exact A|none_n]]|tauto].
    - intros dp [[h1 h2] h3]. rewrite F. split; [|exact h3]. split; [now apply is_float_in|exact h2]. }
  assert (ELEM : forall c p d, class_init c = elementwise_discrete p d -> params c = [p] -> dtype_argument c = Some d ->
    n_experiments c = None -> (forall p, param_dtype_ok c p = is_float p) ->
    shapes_ok c -> normal_args_ok c -> (dtype_argument_ok c <-> is_float d \/ is_int d) ->
    sound True (class_init c) (types_ok c) (values_ok c) (result_ok c)).
  { intros c' x d E P D N F S A O. rewrite E. unfold types_ok, values_ok, result_ok, params_agree.
    rewrite P, D, N. unfold elementwise_discrete. eapply sound_weaken.
    - apply sound_float1. intros p Hp. eapply sound_bind; [apply sound_dtype_in|]. intros _ _.
      apply sound_ret with (Q := fun dp => agree floating_dtypes [x] (snd dp) /\ fst dp = d). split; [exact Hp|reflexivity].
    - rewrite int_or_float_in, O. split.
      + intros [[p [h1 h2]] [h3 _]]. split; [|split; [exact h3|none_n]]. exists p. rewrite F. split; [now apply is_float_in|exact h2].
      + intros [[p [h1 h2]] [h3 _]]. split; [|tauto]. exists p. rewrite F in h1. split; [now apply is_float_in|exact h2].
    - intros _. split; [intros _; split; [exact S|split; [exact A|none_n]]|tauto].
    - intros dp [[h1 h2] h3]. rewrite F. split; [|exact h3]. split; [now apply is_float_in|exact h2]. }
  assert (OVER : forall c l d, class_init c = over_categories l d -> params c = [l] -> dtype_argument c = Some d ->
    n_experiments c = None -> (forall p, param_dtype_ok c p = is_float p) ->
    (shapes_ok c <-> ta_run l <> []) -> normal_args_ok c -> (dtype_argument_ok c <-> is_float d \/ is_int d) ->
    (forall t, In t (params c) -> knows (ta_static t) (ta_run t)) ->
    sound True (class_init c) (types_ok c) (values_ok c) (result_ok c)).
  { intros c' x d E P D N F S A O H. rewrite E. rewrite P in H. unfold types_ok, values_ok, result_ok, params_agree.
    rewrite P, D, N. unfold over_categories. eapply sound_weaken.
    - apply sound_float1. intros p Hp. eapply sound_bind; [apply sound_dtype_in|]. intros _ _.
      eapply sound_bind; [apply sound_rank; apply H; simpl; auto|]. intros _ _.
      apply sound_ret with (Q := fun dp => agree floating_dtypes [x] (snd dp) /\ fst dp = d). split; [exact Hp|reflexivity].
    - rewrite int_or_float_in, O. split.
      + intros [[p [h1 h2]] [h3 _]]. split; [|split; [exact h3|none_n]]. exists p. rewrite F. split; [now apply is_float_in|exact h2].
      + intros [[p [h1 h2]] [h3 _]]. split; [|tauto]. exists p. rewrite F in h1. split; [now apply is_float_in|exact h2].
    - intros _. rewrite positive_length, S. split; [intros h; split; [tauto|split; [exact A|none_n]]|tauto].
    - intros dp [[h1 h2] h3]. rewrite F. split; [|exact h3]. split; [now apply is_float_in|exact h2]. }
  assert (CONC : forall c t l, class_init c = concrete_init t l -> params c = [t; l] -> dtype_argument c = None ->
    n_experiments c = None -> (forall p, param_dtype_ok c p = is_float p) ->
    (shapes_ok c <-> ta_run t = [] /\ ta_run l <> []) -> normal_args_ok c -> dtype_argument_ok c ->
    (forall t, In t (params c) -> knows (ta_static t) (ta_run t)) ->
    sound True (class_init c) (types_ok c) (values_ok c) (result_ok c)).
  { intros c' t l E P D N F S A O H. rewrite E. rewrite P in H. unfold types_ok, values_ok, result_ok, params_agree.
    rewrite P, D, N. unfold concrete_init.
    assert (SW : forall p, agree floating_dtypes [l; t] p <-> is_float p /\ forall x, In x [t; l] -> ta_dtype x = p).
    { intros p. unfold agree. rewrite is_float_in. simpl. split; intros [h1 h2]; split; auto; intros x hx; apply h2; tauto. }
    eapply sound_weaken.
    - eapply sound_bind; [exact (sound_agree True floating_dtypes l [t] float_nonempty)|]. intros p Hp.
      eapply sound_bind; [apply sound_rank; apply H; simpl; auto|]. intros _ _.
      eapply sound_bind; [apply sound_scalar; apply H; simpl; auto|]. intros _ _.
      apply sound_ret with (Q := same2 (agree floating_dtypes [l; t])). now split.
    - split.
      + intros [[p h] _]. split; [|split; [exact O|none_n]]. exists p. rewrite F. now apply SW.
      + intros [[p h] _]. split; [|tauto]. exists p. rewrite F in h. now apply SW.
    - intros _. rewrite positive_length, S. split; [intros h; split; [tauto|split; [exact A|none_n]]|tauto].
    - intros dp [h1 h3]. rewrite F. split; [|exact h3]. now apply SW. }
  destruct c as [fold mean sentinel std logstd|p d|l d|x y|x y|x y|p d|l n d|x y|x y|t l|m cv|l n d|l d|l d|a|t l|t l|m u v];
    intros H Hn;
    try (eapply TWO; [reflexivity|reflexivity|reflexivity|reflexivity|reflexivity|reflexivity|exact I|exact I|exact H]);
    try (eapply ELEM; [reflexivity|reflexivity|reflexivity|reflexivity|reflexivity|exact I|exact I|reflexivity]);
    try (eapply OVER; [reflexivity|reflexivity|reflexivity|reflexivity|reflexivity|reflexivity|exact I|reflexivity|exact H]);
    try (eapply CONC; [reflexivity|reflexivity|reflexivity|reflexivity|reflexivity|reflexivity|exact I|exact I|exact H]).
  - (* Normal *)
    simpl class_init. unfold normal_init. destruct sentinel; simpl.
    { intros _ [_ [[h _] _]]. discriminate. }
    assert (X : forall o : outcome dtypes, match o with Raise e => Raise e | Built b more => Built b more end = o)
      by (intros o; now destruct o).
    destruct std as [s|], logstd as [g|].
    + intros _ [_ [[_ [[z [_ h]]|[z [h _]]]] _]]; discriminate.
    + rewrite X. eapply sound_weaken; [apply sound_two_params; apply H; simpl; auto| | |].
      * unfold types_ok, params_agree. simpl. split.
        -- intros [p [h1 h2]]. split; [|split; [exact I|none_n]]. exists p. split; [now apply is_float_in|exact h2].
        -- intros [[p [h1 h2]] _]. exists p. split; [now apply is_float_in|exact h2].
      * intros _. unfold values_ok. simpl. split.
        -- intros h. split; [|split; [|none_n]].
           ++ intros s0 [E|E]; inversion E; subst; exact h.
           ++ split; [reflexivity|]. left. eauto.
        -- intros [h _]. apply h. now left.
      * intros dp [[h1 h2] h3]. split; [|exact h3]. split; [now apply is_float_in|exact h2].
    + rewrite X. eapply sound_weaken; [apply sound_two_params; apply H; simpl; auto| | |].
      * unfold types_ok, params_agree. simpl. split.
        -- intros [p [h1 h2]]. split; [|split; [exact I|none_n]]. exists p. split; [now apply is_float_in|exact h2].
        -- intros [[p [h1 h2]] _]. exists p. split; [now apply is_float_in|exact h2].
      * intros _. unfold values_ok. simpl. split.
        -- intros h. split; [|split; [|none_n]].
           ++ intros s0 [E|E]; inversion E; subst; exact h.
           ++ split; [reflexivity|]. right. eauto.
        -- intros [h _]. apply h. now right.
      * intros dp [[h1 h2] h3]. split; [|exact h3]. split; [now apply is_float_in|exact h2].
    + intros _ [_ [[_ [[z [h _]]|[z [_ h]]]] _]]; discriminate.
  - (* Categorical *)
    simpl class_init. unfold categorical_init. eapply sound_weaken.
    + eapply sound_bind; [exact (sound_agree True [F32; F64] l [] ltac:(discriminate))|]. intros p Hp.
      eapply sound_bind; [apply sound_dtype_in|]. intros _ _.
      eapply sound_bind; [apply sound_rank; apply H; simpl; auto|]. intros _ _.
      apply sound_ret with (Q := fun dp => agree [F32; F64] [l] (snd dp) /\ fst dp = d). split; [exact Hp|reflexivity].
    + rewrite cat_dtypes_in. unfold types_ok, params_agree. split.
      * intros [[p [h1 h2]] [h3 _]]. split; [|split; [exact h3|none_n]]. exists p. split; [now apply cat_params_in|exact h2].
      * intros [[p [h1 h2]] [h3 _]]. split; [|split; [exact h3|tauto]]. exists p. split; [now apply cat_params_in|exact h2].
    + intros _. rewrite positive_length. unfold values_ok. simpl. split; [|tauto].
      intros h. split; [tauto|]. split; [exact I|none_n].
    + intros dp [[h1 h2] h3]. split; [|exact h3]. split; [now apply cat_params_in|exact h2].
  - (* Binomial *)
    simpl class_init. unfold binomial_init. eapply sound_weaken.
    + apply sound_float1. intros p Hp. eapply sound_bind; [apply sound_dtype_in|]. intros _ _.
      eapply sound_bind; [apply sound_binomial_n; apply Hn; reflexivity|]. intros _ _.
      apply sound_ret with (Q := fun dp => agree floating_dtypes [l] (snd dp) /\ fst dp = d). split; [exact Hp|reflexivity].
    + rewrite int_or_float_in. unfold types_ok, params_agree. split.
      * intros [[p [h1 h2]] [h3 [h4 _]]]. split; [|split; [exact h3|intros m E; inversion E; subst; exact h4]].
        exists p. split; [now apply is_float_in|exact h2].
      * intros [[p [h1 h2]] [h3 h4]]. split; [|split; [exact h3|split; [apply h4; reflexivity|exact I]]].
        exists p. split; [now apply is_float_in|exact h2].
    + intros _. unfold values_ok. simpl. split.
      * intros h. split; [exact I|]. split; [exact I|]. intros m E. inversion E; subst. fold (pos_ok m). tauto.
      * intros [_ [_ h]]. specialize (h n eq_refl). fold (pos_ok n) in h. tauto.
    + intros dp [[h1 h2] h3]. split; [|exact h3]. split; [now apply is_float_in|exact h2].
  - (* BinConcrete *)
    simpl class_init. unfold bin_concrete_init.
    assert (SW : forall p, agree floating_dtypes [l; t] p <-> is_float p /\ forall x, In x [t; l] -> ta_dtype x = p).
    { intros p. unfold agree. rewrite is_float_in. simpl. split; intros [h1 h2]; split; auto; intros x hx; apply h2; tauto. }
    eapply sound_weaken.
    + eapply sound_bind; [exact (sound_agree True floating_dtypes l [t] float_nonempty)|]. intros p Hp.
      eapply sound_bind; [apply sound_scalar; apply H; simpl; auto|]. intros _ _.
      apply sound_ret with (Q := same2 (agree floating_dtypes [l; t])). now split.
    + unfold types_ok, params_agree. simpl. split.
      * intros [[p h] _]. split; [|split; [exact I|none_n]]. exists p. now apply SW.
      * intros [[p h] _]. split; [|tauto]. exists p. now apply SW.
    + intros _. unfold values_ok. simpl. split; [|tauto]. intros h. split; [tauto|]. split; [exact I|none_n].
    + intros dp [h1 h3]. split; [|exact h3]. now apply SW.
  - (* MultivariateNormalCholesky *)
    simpl class_init. unfold mvn_init. eapply sound_weaken.
    + apply sound_mvn_shapes with (T := (exists p, agree floating_dtypes [m; cv] p) /\ True)
        (Q := same2 (agree floating_dtypes [m; cv])).
      * apply H; simpl; auto.
      * apply H; simpl; auto.
      * intros K. eapply sound_weaken with (V := True /\ True).
        -- eapply sound_bind; [exact (sound_agree K floating_dtypes m [cv] float_nonempty)|]. intros p Hp.
           apply sound_ret with (Q := same2 (agree floating_dtypes [m; cv])). now split.
        -- tauto.
        -- tauto.
        -- auto.
    + unfold types_ok, params_agree. simpl. split.
      * intros [[p [h1 h2]] _]. split; [|split; [exact I|none_n]]. exists p. split; [now apply is_float_in|exact h2].
      * intros [[p [h1 h2]] _]. split; [|exact I]. exists p. split; [now apply is_float_in|exact h2].
    + intros _. unfold values_ok. simpl. split; [|tauto]. intros h. split; [exact h|]. split; [exact I|none_n].
    + intros dp [[h1 h2] h3]. split; [|exact h3]. split; [now apply is_float_in|exact h2].
  - (* Multinomial *)
    simpl class_init. unfold multinomial_init. eapply sound_weaken.
    + apply sound_float1. intros p Hp. eapply sound_bind; [apply sound_dtype_in|]. intros _ _.
      eapply sound_bind; [apply sound_rank; apply H; simpl; auto|]. intros _ _.
      eapply sound_bind with (T1 := forall m, n = Some m -> int_typed m) (V1 := forall m, n = Some m -> pos_ok m)
        (Q1 := fun _ => True).
      * destruct n as [n|].
        -- eapply sound_weaken; [apply sound_positive_int32; apply Hn; reflexivity| | |].
           ++ split; [intros h m0 E; inversion E; subst; exact h|intros h; now apply h].
           ++ intros _. split; [intros h m0 E; inversion E; subst; exact h|intros h; now apply h].
           ++ auto.
        -- simpl. split; [none_n|]. split; [exact I|]. intros _. split; [intros _; none_n|intros _; constructor].
      * intros _ _. apply sound_ret with (Q := fun dp => agree floating_dtypes [l] (snd dp) /\ fst dp = d).
        split; [exact Hp|reflexivity].
    + rewrite int_or_float_in. unfold types_ok, params_agree. split.
      * intros [[p [h1 h2]] [h3 [_ [h4 _]]]]. split; [|split; [exact h3|exact h4]].
        exists p. split; [now apply is_float_in|exact h2].
      * intros [[p [h1 h2]] [h3 h4]]. split; [|split; [exact h3|split; [exact I|split; [exact h4|exact I]]]].
        exists p. split; [now apply is_float_in|exact h2].
    + intros _. rewrite positive_length. unfold values_ok, pos_ok. simpl. tauto.
    + intros dp [[h1 h2] h3]. split; [|exact h3]. split; [now apply is_float_in|exact h2].
  - (* Dirichlet *)
    simpl class_init. unfold dirichlet_init. eapply sound_weaken.
    + apply sound_float1. intros p Hp. eapply sound_bind; [apply sound_dirichlet; apply H; simpl; auto|]. intros _ _.
      apply sound_ret with (Q := same2 (agree floating_dtypes [a])). now split.
    + unfold types_ok, params_agree. simpl. split.
      * intros [[p [h1 h2]] _]. split; [|split; [exact I|none_n]]. exists p. split; [now apply is_float_in|exact h2].
      * intros [[p [h1 h2]] _]. split; [|split; exact I]. exists p. split; [now apply is_float_in|exact h2].
    + intros _. unfold values_ok. simpl. split; [|tauto]. intros [_ [h _]]. split; [exact h|]. split; [exact I|none_n].
    + intros dp [[h1 h2] h3]. split; [|exact h3]. split; [now apply is_float_in|exact h2].
  - (* MatrixVariateNormalCholesky *)
    simpl class_init. unfold mvmn_init. eapply sound_weaken.
    + apply sound_mvmn_shapes with (T := (exists p, agree floating_dtypes [m; u; v] p) /\ True)
        (Q := same2 (agree floating_dtypes [m; u; v])).
      * apply H; simpl; auto.
      * apply H; simpl; auto.
      * apply H; simpl; auto.
      * intros K. eapply sound_weaken with (V := True /\ True).
        -- eapply sound_bind; [exact (sound_agree K floating_dtypes m [u; v] float_nonempty)|]. intros p Hp.
           apply sound_ret with (Q := same2 (agree floating_dtypes [m; u; v])). now split.
        -- tauto.
        -- tauto.
        -- auto.
    + unfold types_ok, params_agree. simpl. split.
      * intros [[p [h1 h2]] _]. split; [|split; [exact I|none_n]]. exists p. split; [now apply is_float_in|exact h2].
      * intros [[p [h1 h2]] _]. split; [|exact I]. exists p. split; [now apply is_float_in|exact h2].
    + intros _. unfold values_ok. simpl. split; [|tauto]. intros h. split; [exact h|]. split; [exact I|none_n].
    + intros dp [[h1 h2] h3]. split; [|exact h3]. split; [now apply is_float_in|exact h2].
Qed.
