(** C54: sampling operations over a session. *)
From Coq Require Import List Arith Bool Reals ZArith Lra Lia FunctionalExtensionality.
From Verif Require Import ModelShape ModelBN ModelDict ModelHMC ModelSGMCMC ModelSession ProofBN PropDict.
Import ListNotations.
Local Open Scope R_scope.

(** ** Which arguments sample() accepts *)
Lemma first_other_none latent : first_other latent = None <-> (forall k l, In (k, l) latent -> exists v, l = TfVariable v).
Proof.
  induction latent as [|[k [v|]] latent IH]; cbn.
  - split; [intros _ ? ? []|reflexivity].
  - rewrite IH. split.
    + intros H k' l [[= <- <-]|Hi]; [now exists v|eauto].
    + intros H k' l Hi. apply (H k' l). now right.
  - split; [discriminate|]. intros H. destruct (H k Other (or_introl eq_refl)). discriminate.
Qed.
Lemma first_other_some latent k : first_other latent = Some k <->
  exists l1 l2, latent = l1 ++ (k, Other) :: l2 /\ (forall k' l, In (k', l) l1 -> exists v, l = TfVariable v).
Proof.
  induction latent as [|[k0 [v|]] latent IH]; cbn.
  - split; [discriminate|]. intros ([|] & l2 & H & _); discriminate.
  - rewrite IH. split.
    + intros (l1 & l2 & -> & H). exists ((k0, TfVariable v) :: l1), l2. split; [reflexivity|].
      intros k' l [[= <- <-]|Hi]; [now exists v|eauto].
    + intros ([|p l1] & l2 & E & H); [discriminate|]. injection E as <- ->. exists l1, l2. split; [reflexivity|].
      intros k' l Hi. apply (H k' l). now right.
  - split.
    + intros [= <-]. exists [], latent. split; [reflexivity|]. intros ? ? [].
    + intros ([|p l1] & l2 & E & H); [now injection E as <- <-|]. injection E as <- ->.
      destruct (H k0 Other (or_introl eq_refl)). discriminate.
Qed.
Lemma variables_in_order latent : first_other latent = None -> map snd latent = map TfVariable (variables latent).
Proof.
  induction latent as [|[k [v|]] latent IH]; cbn; intros H; [reflexivity|now rewrite IH|discriminate].
Qed.
Lemma get_given observed k : dict_get (map (fun k => (k, Given)) observed) k = if in_dec Nat.eq_dec k observed then Some Given else None.
Proof.
  induction observed as [|a l IH]; [reflexivity|]. cbn [map dict_get]. rewrite IH.
  destruct (in_dec Nat.eq_dec k (a :: l)) as [H|H], (in_dec Nat.eq_dec k l) as [H'|H'], (Nat.eqb_spec k a) as [E|E]; try reflexivity; exfalso.
  - destruct H; [congruence|contradiction].
  - apply H. now left.
  - apply H. now right.
  - apply H. now left.
Qed.
Lemma get_latent ks : NoDup ks -> forall s k i, dict_get (combine ks (map Latent (seq s (length ks)))) k = Some (Latent i) <-> (s <= i)%nat /\ nth_error ks (i - s) = Some k.
Proof.
  induction 1 as [|a ks Ha N IH]; intros s k i; cbn.
  - split; [discriminate|]. intros (_ & H). destruct (i - s)%nat; discriminate.
  - destruct (Nat.eqb_spec k a) as [->|Hn].
    + split.
      * intros [= <-]. rewrite Nat.sub_diag. now split.
      * intros (Hs & H). destruct (i - s)%nat as [|d] eqn:E; [replace i with s by lia; reflexivity|].
        cbn in H. exfalso. apply Ha. eapply nth_error_In; eauto.
    + rewrite (IH (S s) k i). split.
      * intros (Hs & H). split; [lia|]. replace (i - s)%nat with (S (i - S s)) by lia. exact H.
      * intros (Hs & H). destruct (i - s)%nat as [|d] eqn:E; [cbn in H; congruence|]. cbn in H.
        split; [lia|]. now replace (i - S s)%nat with d by lia.
Qed.
Lemma reaches_iff latent observed reads j k : NoDup (map fst latent) -> NoDup observed -> nth_error (map fst latent) j = Some k ->
  reaches latent observed reads j = true <-> In k reads /\ ~ In k observed.
Proof.
  intros N1 N2 Hk. unfold reaches, merged, sampler_obs. rewrite existsb_exists.
  assert (G : forall k', dict_get (merge_dicts (@cons (dict source) (dict_zip (map fst latent) (map Latent (seq 0 (length latent)))) (@cons (dict source) (map (fun k => (k, Given)) observed) nil))) k' =
     if in_dec Nat.eq_dec k' observed then Some Given else dict_get (combine (map fst latent) (map Latent (seq 0 (length (map fst latent))))) k').
  { intros k'. etransitivity; [apply merge2|].
    - unfold dict_zip. apply update_nodup. constructor.
    - rewrite map_map. cbn. now rewrite map_id.
    - rewrite get_given. destruct (in_dec Nat.eq_dec k' observed); [reflexivity|]. rewrite dict_zip_get by assumption. now rewrite map_length. }
  split.
  - intros (k' & Hr & H). rewrite (G k') in H. destruct (in_dec Nat.eq_dec k' observed); [discriminate|].
    match type of H with match ?x with _ => _ end = _ => destruct x as [[i|]|] eqn:E; try discriminate end. apply Nat.eqb_eq in H as ->.
    apply get_latent in E as (_ & E); [|assumption]. rewrite Nat.sub_0_r in E. assert (X : Some k' = Some k) by exact (eq_trans (eq_sym E) Hk). injection X as ->. auto.
  - intros (Hr & Ho). exists k. split; [exact Hr|]. rewrite (G k). destruct (in_dec Nat.eq_dec k observed); [contradiction|].
    match goal with |- match ?x with _ => _ end = _ => assert (Y : x = Some (Latent j)) end; [|rewrite Y; apply Nat.eqb_refl]. apply get_latent; [assumption|]. rewrite Nat.sub_0_r. split; [lia|exact Hk].
Qed.
Lemma all_reach latent observed reads : NoDup (map fst latent) -> NoDup observed ->
  (forallb (reaches latent observed reads) (seq 0 (length latent)) = true <-> forall k l, In (k, l) latent -> In k reads /\ ~ In k observed).
Proof.
  intros N1 N2. rewrite forallb_forall. split.
  - intros H k l Hi. apply In_nth_error in Hi as (j & Hj). assert (Hk : nth_error (map fst latent) j = Some k) by (rewrite nth_error_map, Hj; reflexivity).
    apply (reaches_iff latent observed reads j k N1 N2 Hk). apply H. apply in_seq. split; [lia|]. cbn. apply nth_error_Some. congruence.
  - intros H j Hj. apply in_seq in Hj. destruct (nth_error latent j) as [[k l]|] eqn:E; [|apply nth_error_None in E; lia].
    apply (reaches_iff latent observed reads j k N1 N2); [rewrite nth_error_map, E; reflexivity|]. apply (H k l). eapply nth_error_In; eauto.
Qed.

(** Every latent is a tf.Variable, is read by the log joint and is not observed. *)
Definition usable (latent : dict lat) (observed reads : list nat) : Prop :=
  forall k l, In (k, l) latent -> (exists v, l = TfVariable v) /\ In k reads /\ ~ In k observed.

(** SGMCMC.sample accepts exactly a non-empty dictionary of usable latents, and then updates
    these variables in the order of the dictionary. *)
Theorem C54_sgmcmc_accepts c latent observed reads : is_dict latent -> NoDup observed ->
  (forall vs, sg_sample c latent observed reads = inr vs <->
     c <> Base /\ latent <> [] /\ usable latent observed reads /\ map snd latent = map TfVariable vs).
Proof.
  intros N1 N2 vs. unfold sg_sample.
  assert (INJ : forall a b : list nat, map TfVariable a = map TfVariable b -> a = b).
  { induction a as [|x a IH]; intros [|y b] H; cbn in H; try discriminate; [reflexivity|]. injection H as -> H. now rewrite (IH b H). }
  destruct latent as [|p l]; [split; [discriminate|intros (_ & H & _); congruence]|]. cbv iota. set (latent := p :: l) in *.
  split.
  - destruct (first_other latent) eqn:F; [discriminate|]. intros H.
    assert (c <> Base /\ forallb (reaches latent observed reads) (seq 0 (length latent)) = true /\ vs = variables latent) as (Hc & R & ->)
      by (destruct c; try discriminate; destruct (forallb _ _) eqn:R; try discriminate; injection H as <-; repeat split; discriminate).
    split; [exact Hc|]. split; [discriminate|]. split; [|now apply variables_in_order].
    intros k a Hi. split; [apply (proj1 (first_other_none latent) F k a Hi)|]. now apply (proj1 (all_reach latent observed reads N1 N2) R k a).
  - intros (Hc & _ & U & V). destruct (first_other latent) eqn:F.
    + apply first_other_some in F as (l1 & l2 & E & _). destruct (U n Other) as ((v & Hv) & _); [rewrite E; apply in_elt|discriminate].
    + assert (R : forallb (reaches latent observed reads) (seq 0 (length latent)) = true) by (apply all_reach; auto; intros k a Hi; now apply U in Hi).
      rewrite R. rewrite (variables_in_order latent F) in V. apply INJ in V as <-. destruct c; try reflexivity. congruence.
Qed.
(** What is raised otherwise. *)
Theorem C54_sgmcmc_errors c latent observed reads e : is_dict latent -> NoDup observed ->
  sg_sample c latent observed reads = inl e ->
  match e with
  | TypeError (Some k) => exists l1 l2, latent = l1 ++ (k, Other) :: l2 /\ (forall k' l, In (k', l) l1 -> exists v, l = TfVariable v)
  | TypeError None => c = Base \/ (exists d ep, c = PSGLD d ep) /\ exists k l, In (k, l) latent /\ (~ In k reads \/ In k observed)
  | ValueError => latent = [] \/ exists k l, In (k, l) latent /\ (~ In k reads \/ In k observed)
  | KeyError => False
  end.
Proof.
  intros N1 N2. unfold sg_sample. destruct latent as [|p l]; [intros [= <-]; now left|]. cbv iota. set (latent := p :: l) in *.
  destruct (first_other latent) eqn:F; [intros [= <-]; now apply first_other_some|].
  assert (B : forallb (reaches latent observed reads) (seq 0 (length latent)) = false -> exists k l, In (k, l) latent /\ (~ In k reads \/ In k observed)).
  { intros R. destruct (Exists_dec (fun p => ~ In (fst p) reads \/ In (fst p) observed) latent) as [X|X].
    - intros q. destruct (in_dec Nat.eq_dec (fst q) observed); [left; now right|]. destruct (in_dec Nat.eq_dec (fst q) reads); [right; tauto|left; now left].
    - apply Exists_exists in X as ([k a] & Hi & H). exists k, a. auto.
    - exfalso. apply eq_true_false_abs with (2 := R). apply all_reach; auto. intros k a Hi.
      destruct (in_dec Nat.eq_dec k reads) as [Hr|Hr], (in_dec Nat.eq_dec k observed) as [Ho|Ho]; auto; exfalso; apply X, Exists_exists; exists (k, a); auto. }
  destruct c; try (destruct (forallb _ _); [discriminate|]; intros [= <-]); cbn; eauto 8.
  intros [= <-]. now left.
Qed.
(** HMC.sample, which moreover needs a log joint of known rank. *)
Theorem C54_hmc_accepts known latent observed reads : is_dict latent -> NoDup observed ->
  (forall vs, hmc_sample known latent observed reads = inr vs <->
     known = true /\ latent <> [] /\ usable latent observed reads /\ map snd latent = map TfVariable vs) /\
  (forall e, hmc_sample known latent observed reads = inl e ->
     (e = ValueError /\ (latent = [] \/ known = false \/ exists k l, In (k, l) latent /\ (~ In k reads \/ In k observed))) \/
     (exists k l1 l2, e = TypeError (Some k) /\ latent = l1 ++ (k, Other) :: l2 /\ (forall k' l, In (k', l) l1 -> exists v, l = TfVariable v))).
Proof.
  intros N1 N2. pose proof (C54_sgmcmc_accepts SGLD latent observed reads N1 N2) as A.
  assert (E : hmc_sample known latent observed reads =
    match sg_sample SGLD latent observed reads with
    | inl (TypeError k) => inl (TypeError k) | inl _ => inl ValueError | inr vs => if known then inr vs else inl ValueError end).
  { unfold hmc_sample, sg_sample. destruct latent; [reflexivity|]. destruct (first_other _); [reflexivity|]. destruct (forallb _ _), known; reflexivity. }
  split.
  - intros vs. rewrite E. specialize (A vs). destruct (sg_sample SGLD latent observed reads) as [e|us].
    + assert (X : match e with TypeError k => inl (TypeError k) | _ => inl ValueError end <> (inr vs : error + list nat)) by (destruct e; discriminate).
      split; [intros H; destruct e; discriminate|]. intros (_ & H1 & H2 & H3). assert (Y : inl e = (inr vs : error + list nat)) by (apply A; repeat split; auto; try discriminate; now apply H2 in H). discriminate.
    + destruct known; [|split; [discriminate|intros (H & _); discriminate]]. rewrite A. split; [intros (_ & H); tauto|]. intros (_ & H). split; [discriminate|exact H].
  - intros e. rewrite E. pose proof (C54_sgmcmc_errors SGLD latent observed reads) as X.
    destruct (sg_sample SGLD latent observed reads) as [e'|us]; intros H.
    + specialize (X e' N1 N2 eq_refl). destruct e' as [|[k|]|]; injection H as <-.
      * left. split; [reflexivity|tauto].
      * right. destruct X as (l1 & l2 & X). exists k, l1, l2. split; [reflexivity|exact X].
      * destruct X as [X|((d & ep & X) & _)]; discriminate.
      * contradiction.
    + destruct known; [discriminate|]. injection H as <-. left. split; [reflexivity|tauto].
Qed.
(** A preconditioner by another name, and the default hyper-parameters. *)
Theorem C54_psgld_init rms h : psgld_init rms h =
  if rms then inr (match h with Some (d, e) => PSGLD d e | None => PSGLD (9 / 10) (1 / 1000) end) else inl KeyError.
Proof. reflexivity. Qed.

(** ** The statistics: sgmcmc_info.attr[name] is the attribute of the latent of that name *)
Lemma zip_star_rows {A} (rows : list (list A)) w : (forall r, In r rows -> (w <= length r)%nat) ->
  length (zip_star rows w) = w /\
  forall i, (i < w)%nat -> nth_error (zip_star rows w) i = Some (flat_map (fun r => match nth_error r i with Some a => [a] | None => [] end) rows).
Proof.
  induction w as [|w IH]; intros H; [split; [reflexivity|intros; lia]|]. cbn [zip_star].
  destruct IH as (L & E); [intros r Hr; specialize (H r Hr); lia|].
  replace (forallb _ rows) with true by (symmetry; apply forallb_forall; intros r Hr; apply Nat.ltb_lt; specialize (H r Hr); lia).
  split; [rewrite app_length, L; cbn; lia|]. intros i Hi. destruct (Nat.eq_dec i w) as [->|N].
  - rewrite nth_error_app2, L, Nat.sub_diag by lia. reflexivity.
  - rewrite nth_error_app1 by lia. apply E. lia.
Qed.
Lemma column {A} (rows : list (list A)) i : (forall r, In r rows -> (i < length r)%nat) ->
  forall j r, nth_error rows j = Some r -> nth_error (flat_map (fun r => match nth_error r i with Some a => [a] | None => [] end) rows) j = nth_error r i.
Proof.
  induction rows as [|r0 rows IH]; intros H [|j] r E; cbn in E; try discriminate.
  - injection E as ->. cbn. destruct (nth_error r i) eqn:X; [reflexivity|]. apply nth_error_None in X. specialize (H r (or_introl eq_refl)). lia.
  - cbn. destruct (nth_error r0 i) eqn:X; [cbn; apply IH; auto; intros; apply H; now right|]. apply nth_error_None in X. specialize (H r0 (or_introl eq_refl)). lia.
Qed.
Lemma get_combine {A} ks : NoDup ks -> forall (vs : list A) j k v, nth_error ks j = Some k -> nth_error vs j = Some v -> dict_get (combine ks vs) k = Some v.
Proof.
  induction 1 as [|a ks Ha N IH]; intros vs [|j] k v Hk Hv; cbn in Hk; try discriminate; destruct vs as [|v0 vs]; cbn in Hv; try discriminate; cbn.
  - injection Hk as ->. injection Hv as ->. now rewrite Nat.eqb_refl.
  - destruct (Nat.eqb_spec k a) as [->|_]; [exfalso; apply Ha; eapply nth_error_In; eauto|]. eapply IH; eauto.
Qed.
Lemma zip_keys {A} ks : NoDup ks -> forall (vs : list A), length ks = length vs -> map fst (dict_zip ks vs) = ks.
Proof.
  intros N vs L. unfold dict_zip, update.
  assert (G : forall (d r : dict A), NoDup (map fst r ++ map fst d) -> map fst (fold_left (fun r p => dict_set r (fst p) (snd p)) d r) = map fst r ++ map fst d).
  { induction d as [|[k v] d IH]; intros r H; cbn; [now rewrite app_nil_r|]. rewrite IH.
    - rewrite dict_set_fresh, map_app, <- app_assoc; [reflexivity|]. destruct (dict_get r k) eqn:E; [|reflexivity].
      exfalso. apply dict_get_in in E. cbn in H. apply NoDup_remove_2 in H. apply H, in_or_app. left. apply in_map_iff. exists (k, a). auto.
    - rewrite dict_set_fresh, map_app, <- app_assoc; [exact H|]. destruct (dict_get r k) eqn:E; [|reflexivity].
      exfalso. apply dict_get_in in E. cbn in H. apply NoDup_remove_2 in H. apply H, in_or_app. left. apply in_map_iff. exists (k, a). auto. }
  assert (F : map fst (combine ks vs) = ks).
  { clear N G. revert vs L. induction ks as [|k ks IH]; intros [|v vs] L; cbn in *; try discriminate; [reflexivity|]. now rewrite IH by lia. }
  rewrite G; cbn; rewrite F; auto.
Qed.
Theorem C54_info {A} latent_k attrs (infos : list (dict A)) : NoDup latent_k -> NoDup attrs -> infos <> [] ->
  length infos = length latent_k -> (forall d, In d infos -> map fst d = attrs) ->
  map fst (sgmcmc_info latent_k infos) = attrs /\
  forall j name row a v, nth_error latent_k j = Some name -> nth_error infos j = Some row -> In (a, v) row ->
    exists d, dict_get (sgmcmc_info latent_k infos) a = Some d /\ map fst d = latent_k /\ dict_get d name = Some v.
Proof.
  intros N1 N2 NE Len K. unfold sgmcmc_info.
  assert (W : forall d, In d infos -> length d = length attrs) by (intros d Hd; rewrite <- (K d Hd); now rewrite map_length).
  replace (fold_right Nat.max 0%nat (map (@length (nat * A)) infos)) with (length attrs).
  2:{ destruct infos as [|d0 l]; [congruence|]. clear - W. rewrite <- (W d0 (or_introl eq_refl)).
      assert (G : forall l : list (dict A), (forall d, In d l -> length d = length attrs) -> (fold_right Nat.max 0 (map (@length (nat * A)) l) <= length attrs)%nat).
      { induction l0 as [|x l0 IH]; intros H; cbn; [lia|]. rewrite (H x (or_introl eq_refl)). specialize (IH (fun d Hd => H d (or_intror Hd))). lia. }
      cbn. specialize (G l (fun d Hd => W d (or_intror Hd))). rewrite (W d0 (or_introl eq_refl)) in *. lia. }
  destruct (zip_star_rows (map (map snd) infos) (length attrs)) as (L & E).
  { intros r Hr. apply in_map_iff in Hr as (d & <- & Hd). rewrite map_length, (W d Hd). lia. }
  replace (map fst (hd [] infos)) with attrs by (destruct infos as [|d0 l]; [congruence|symmetry; apply (K d0 (or_introl eq_refl))]).
  split; [apply zip_keys; [assumption|now rewrite map_length, L]|].
  intros j name row a v Hn Hr Hi. assert (Hrow : In row infos) by (eapply nth_error_In; eauto).
  apply In_nth_error in Hi as (i & Hi). assert (Ha : nth_error attrs i = Some a) by (rewrite <- (K row Hrow), nth_error_map, Hi; reflexivity).
  assert (Hlt : (i < length attrs)%nat) by (apply nth_error_Some; congruence).
  set (col := flat_map (fun r => match nth_error r i with Some a => [a] | None => [] end) (map (map snd) infos)).
  exists (dict_zip latent_k col). split; [|split].
  - rewrite dict_zip_get by assumption. apply (get_combine attrs N2 _ i); [exact Ha|]. rewrite nth_error_map, E by assumption. reflexivity.
  - apply zip_keys; [assumption|]. unfold col. clear - Len W Hlt. rewrite <- Len. clear Len. induction infos as [|d infos IH]; [reflexivity|]. cbn.
    rewrite nth_error_map. destruct (nth_error d i) eqn:X; [cbn; f_equal; apply IH; intros; apply W; now right|].
    apply nth_error_None in X. rewrite (W d (or_introl eq_refl)) in X. lia.
  - rewrite dict_zip_get by assumption. apply (get_combine latent_k N1 _ j); [exact Hn|]. unfold col.
    rewrite (column (map (map snd) infos) i) with (r := map snd row).
    + rewrite nth_error_map, Hi. reflexivity.
    + intros r Hr'. apply in_map_iff in Hr' as (d & <- & Hd). rewrite map_length, (W d Hd). exact Hlt.
    + rewrite nth_error_map. exact (f_equal (option_map (map snd)) Hr).
Qed.


(** ** One run: its effect and everything it leaves alone *)
Lemma replace_spec {A} (l : list A) i a j :
  nth_error (replace l i a) j = if Nat.eqb i j then (match nth_error l j with Some _ => Some a | None => None end) else nth_error l j.
Proof. revert i j. induction l as [|b l IH]; intros [|i] [|j]; cbn; auto. now destruct (Nat.eqb i j). Qed.
Lemma replace_length {A} (l : list A) i a : length (replace l i a) = length l.
Proof. revert i. induction l as [|b l IH]; intros [|i]; cbn; auto. Qed.
Lemma assign_other vars q : forall k m v, ~ In v vars -> assign vars k q m v = m v.
Proof.
  induction vars as [|u vars IH]; intros k m v H; cbn in *; [reflexivity|]. rewrite IH by tauto.
  destruct (Nat.eqb_spec v u) as [->|_]; [exfalso; tauto|reflexivity].
Qed.
Lemma assign_var vars q : NoDup vars -> forall k m j v, nth_error vars j = Some v -> assign vars k q m v = content q (k + j).
Proof.
  induction 1 as [|u vars Hu N IH]; intros k m [|j] v E; cbn in E; try discriminate.
  - injection E as ->. cbn. rewrite assign_other by assumption. now rewrite Nat.eqb_refl, Nat.add_0_r.
  - cbn. rewrite (IH _ _ j v E). now rewrite Nat.add_succ_r.
Qed.
Lemma update_vars c f t q o : o_vars (snd (update_op c f t q o)) = o_vars o /\ o_shapes (snd (update_op c f t q o)) = o_shapes o.
Proof.
  destruct c as [| |d e|a b n so|a tu n so va]; cbn; auto. all: destruct so; cbn; auto.
Qed.
Theorem C54_run c s i f o : nth_error (s_ops s) i = Some o -> NoDup (o_vars o) ->
  s_t (run_op c s i f) = S (s_t s) /\
  (forall k v, nth_error (o_vars o) k = Some v ->
     s_vars (run_op c s i f) v = content (fst (update_op c f (s_t s) (latents s o) o)) k) /\
  nth_error (s_ops (run_op c s i f)) i = Some (snd (update_op c f (s_t s) (latents s o) o)).
Proof.
  intros E N. unfold run_op. rewrite E. destruct (update_op c f (s_t s) (latents s o) o) as (q, o'). cbn.
  split; [reflexivity|split].
  - intros k v Hk. exact (assign_var _ _ N 0 _ _ _ Hk).
  - now rewrite replace_spec, Nat.eqb_refl, E.
Qed.
Theorem C54_frame c s i f :
  length (s_ops (run_op c s i f)) = length (s_ops s) /\
  (forall j, j <> i -> nth_error (s_ops (run_op c s i f)) j = nth_error (s_ops s) j) /\
  (forall v, (forall o, nth_error (s_ops s) i = Some o -> ~ In v (o_vars o)) -> s_vars (run_op c s i f) v = s_vars s v) /\
  (forall j o, nth_error (s_ops s) j = Some o -> exists o', nth_error (s_ops (run_op c s i f)) j = Some o' /\ o_vars o' = o_vars o /\ o_shapes o' = o_shapes o).
Proof.
  unfold run_op. destruct (nth_error (s_ops s) i) as [o|] eqn:E; [|repeat split; eauto].
  pose proof (update_vars c f (s_t s) (latents s o) o) as U. destruct (update_op c f (s_t s) (latents s o) o) as (q, o'). cbn in *.
  split; [apply replace_length|split; [|split]].
  - intros j Hj. rewrite replace_spec. destruct (Nat.eqb_spec i j); [congruence|reflexivity].
  - intros v Hv. apply assign_other, Hv. reflexivity.
  - intros j oj Ej. rewrite replace_spec, Ej. destruct (Nat.eqb_spec i j) as [->|_]; [|eauto]. exists o'. split; [reflexivity|]. congruence.
Qed.

(** ** The counter counts the runs of all operations of the object *)
Lemma runs_length c l : forall s, length (s_ops (runs c s l)) = length (s_ops s).
Proof. induction l as [|[i f] l IH]; intros s; [reflexivity|]. change (runs c s ((i, f) :: l)) with (runs c (run_op c s i f) l). rewrite IH. apply C54_frame. Qed.
Theorem C54_counter c l : forall s, (forall r, In r l -> (fst r < length (s_ops s))%nat) -> s_t (runs c s l) = (s_t s + length l)%nat.
Proof.
  induction l as [|[i f] l IH]; intros s H; [cbn; lia|]. change (runs c s ((i, f) :: l)) with (runs c (run_op c s i f) l). cbn [length]. rewrite IH.
  - pose proof (H (i, f) (or_introl eq_refl)) as Hi. cbn in Hi. apply nth_error_Some in Hi. unfold run_op.
    destruct (nth_error (s_ops s) i) as [o|]; [|congruence]. destruct (update_op _ _ _ _ _). cbn. lia.
  - intros r Hr. rewrite (proj1 (C54_frame c s i f)). apply H. now right.
Qed.
(** The momentum entering the next run of an operation after a history [l] of runs of any
    operations: fresh exactly when the number of all these runs is a multiple of n. *)
Theorem C54_entering c s l n f o : s_t s = 0%nat -> (forall r, In r l -> (fst r < length (s_ops s))%nat) ->
  (forall k, f_late f k = false) ->
  (forall k i, (n <> 0)%Z -> (Z.of_nat (length l) mod n = 0)%Z -> entering f n (s_t (runs c s l)) o (k, i) = sqrt (f_lr f) * f_zeta f (k, i)) /\
  (forall k i, (n = 0)%Z \/ (Z.of_nat (length l) mod n <> 0)%Z -> entering f n (s_t (runs c s l)) o (k, i) = o_mom o (k, i)).
Proof.
  intros T V L. rewrite (C54_counter c l s V), T. unfold entering, old_momentum, resamples. cbn [fst].
  split; intros k i H; rewrite L; cbn [Nat.add].
  - intros M. destruct (Z.eqb_spec n 0); [contradiction|]. now rewrite (proj2 (Z.eqb_eq _ _) M).
  - destruct (Z.eqb_spec n 0) as [_|Hn]; [reflexivity|]. destruct H as [H|H]; [contradiction|]. now rewrite (proj2 (Z.eqb_neq _ _) H).
Qed.
(** When the counter of a latent is read after its increment, the schedule of that latent is one
    run early; the others keep theirs. *)
Theorem C54_entering_late c s l n f o k i : s_t s = 0%nat -> (forall r, In r l -> (fst r < length (s_ops s))%nat) ->
  f_late f k = true ->
  ((n <> 0)%Z -> (Z.of_nat (length l + 1) mod n = 0)%Z -> entering f n (s_t (runs c s l)) o (k, i) = sqrt (f_lr f) * f_zeta f (k, i)) /\
  ((n = 0)%Z \/ (Z.of_nat (length l + 1) mod n <> 0)%Z -> entering f n (s_t (runs c s l)) o (k, i) = o_mom o (k, i)).
Proof.
  intros T V L. rewrite (C54_counter c l s V), T. unfold entering, old_momentum, resamples. cbn [fst]. rewrite L. cbn [Nat.add].
  replace (S (length l)) with (length l + 1)%nat by lia. split; intros H.
  - intros M. destruct (Z.eqb_spec n 0); [contradiction|]. now rewrite (proj2 (Z.eqb_eq _ _) M).
  - destruct (Z.eqb_spec n 0) as [_|Hn]; [reflexivity|]. destruct H as [H|H]; [contradiction|]. now rewrite (proj2 (Z.eqb_neq _ _) H).
Qed.

(** ** Operations on different variables: with resampling switched off, the runs of one leave
    no trace in the other. [runs_of i l]: the runs of operation [i] alone. *)
Definition never_resamples (c : sampler) : Prop :=
  match c with SGHMC _ _ n _ | SGNHT _ _ n _ _ => n = 0%Z | _ => True end.
Definition runs_of (i : nat) (l : list (nat * feed)) : list (nat * feed) := filter (fun r => Nat.eqb (fst r) i) l.
Definition same_at (i : nat) (s s' : session) : Prop := exists o, nth_error (s_ops s) i = Some o /\ nth_error (s_ops s') i = Some o /\
  NoDup (o_vars o) /\ forall v, In v (o_vars o) -> s_vars s v = s_vars s' v.
Definition apart (i : nat) (s : session) : Prop := forall o j oj v, nth_error (s_ops s) i = Some o -> j <> i -> nth_error (s_ops s) j = Some oj ->
  In v (o_vars o) -> ~ In v (o_vars oj).
Lemma latents_same s s' o : (forall v, In v (o_vars o) -> s_vars s v = s_vars s' v) -> latents s o = latents s' o.
Proof.
  intros H. extensionality x. unfold latents. destruct (nth_error (o_vars o) (fst x)) as [v|] eqn:E; [|reflexivity].
  rewrite (H v); [reflexivity|]. eapply nth_error_In; eauto.
Qed.
Lemma update_time c f t t' q o : never_resamples c -> update_op c f t q o = update_op c f t' q o.
Proof. destruct c; cbn; try reflexivity; intros ->; reflexivity. Qed.
Lemma apart_run c s i j f : apart i s -> apart i (run_op c s j f).
Proof.
  intros A o k ok v E N Ek Hv Hk. destruct (C54_frame c s j f) as (L & _ & _ & K).
  assert (B : forall m om, nth_error (s_ops (run_op c s j f)) m = Some om -> exists om', nth_error (s_ops s) m = Some om' /\ o_vars om' = o_vars om).
  { intros m om Em. destruct (nth_error (s_ops s) m) as [om'|] eqn:X.
    - exists om'. split; [reflexivity|]. destruct (K m om' X) as (o2 & E2 & V2 & _). congruence.
    - apply nth_error_None in X. rewrite <- L in X. apply nth_error_None in X. congruence. }
  destruct (B i o E) as (o1 & E1 & V1). destruct (B k ok Ek) as (o2 & E2 & V2). rewrite <- V1 in Hv. rewrite <- V2 in Hk. exact (A o1 k o2 v E1 N E2 Hv Hk).
Qed.
Lemma alone_step c i l : never_resamples c -> forall s s', apart i s -> same_at i s s' -> same_at i (runs c s l) (runs c s' (runs_of i l)).
Proof.
  intros NR. induction l as [|[j f] l IH]; intros s s' A M; [exact M|]. change (runs c s ((j, f) :: l)) with (runs c (run_op c s j f) l).
  unfold runs_of. cbn [filter fst]. fold (runs_of i l). destruct M as (o & E & E' & N & V). destruct (Nat.eqb_spec j i) as [->|D].
  - change (runs c s' ((i, f) :: runs_of i l)) with (runs c (run_op c s' i f) (runs_of i l)). apply IH; [now apply apart_run|].
    destruct (C54_run c s i f o E N) as (_ & Q & O). destruct (C54_run c s' i f o E' N) as (_ & Q' & O').
    rewrite <- (latents_same s s' o V), <- (update_time c f (s_t s) (s_t s') _ _ NR) in Q', O'.
    exists (snd (update_op c f (s_t s) (latents s o) o)). split; [exact O|split; [exact O'|]]. rewrite (proj1 (update_vars _ _ _ _ _)).
    split; [exact N|]. intros v Hv. apply In_nth_error in Hv as (k & Hk). rewrite (Q k v Hk), (Q' k v Hk). reflexivity.
  - apply IH; [now apply apart_run|]. destruct (C54_frame c s j f) as (_ & O & F & _). exists o. split; [rewrite O by congruence; exact E|].
    split; [exact E'|split; [exact N|]]. intros v Hv. rewrite F; [now apply V|]. intros oj Ej. exact (A o j oj v E D Ej Hv).
Qed.
Theorem C54_isolated c i l s o : never_resamples c -> apart i s -> nth_error (s_ops s) i = Some o -> NoDup (o_vars o) ->
  same_at i (runs c s l) (runs c s (runs_of i l)).
Proof. intros NR A E N. apply alone_step; auto. exists o. auto. Qed.

(** With resampling it is not so: n_iter_resample_v counts the runs of the object, not "calls to
    the sampling operation". With n = 2 and two operations run in turn, the first starts every
    run from fresh momenta and the second never gets any. *)
Fixpoint turns (fs : list (feed * feed)) : list (nat * feed) :=
  match fs with [] => [] | (f, g) :: fs => (0%nat, f) :: (1%nat, g) :: turns fs end.
Theorem C54_shared_counter_refuted c s fs f o : s_t s = 0%nat -> length (s_ops s) = 2%nat -> (forall k, f_late f k = false) ->
  (forall x, entering f 2 (s_t (runs c s (turns fs))) o x = sqrt (f_lr f) * f_zeta f x) /\
  (forall g x, entering f 2 (s_t (runs c s (turns fs ++ [(0%nat, g)]))) o x = o_mom o x).
Proof.
  intros T L F. assert (H : forall r, In r (turns fs) -> (fst r < 2)%nat) by (induction fs as [|[? ?] fs IH]; cbn; [intros ? []|intros r [<-|[<-|Hr]]; cbn; auto]).
  assert (Len : length (turns fs) = (2 * length fs)%nat) by (induction fs as [|[? ?] fs IH]; cbn; [reflexivity|rewrite IH by (intros r Hr; apply H; cbn; auto); lia]).
  split.
  - intros (k, i). apply (C54_entering c s (turns fs) 2 f o T); [rewrite L; exact H|exact F|lia|]. rewrite Len, Nat2Z.inj_mul, Z.mul_comm. apply Z.mod_mul. lia.
  - intros g (k, i). apply (C54_entering c s (turns fs ++ [(0%nat, g)]) 2 f o T); [rewrite L; intros r Hr; apply in_app_or in Hr as [Hr|[<-|[]]]; cbn; auto|exact F|].
    right. rewrite app_length, Len. cbn [length]. replace (Z.of_nat (2 * length fs + 1)) with (1 + Z.of_nat (length fs) * 2)%Z by lia. rewrite Z.mod_add by lia. discriminate.
Qed.

(** ** The first run resamples, so the initial momenta are never used *)
Definition with_momenta (s : session) (m : state) : session :=
  Session (s_t s) (s_vars s) (map (fun o => Op (o_vars o) (o_shapes o) m (o_fric o) (o_aux o)) (s_ops s)).
Theorem C54_initial_momenta_unused c s o m f l :
  (match c with SGHMC _ _ n _ | SGNHT _ _ n _ _ => n <> 0%Z | _ => False end) ->
  s_t s = 0%nat -> s_ops s = [o] -> (forall k, f_late f k = false) ->
  runs c (with_momenta s m) ((0%nat, f) :: l) = runs c s ((0%nat, f) :: l).
Proof.
  intros H T O F. change (runs c (run_op c (with_momenta s m) 0 f) l = runs c (run_op c s 0 f) l). apply (f_equal (fun s => runs c s l)).
  unfold run_op, with_momenta. rewrite O, T. cbn.
  assert (E : forall n, n <> 0%Z -> entering f n 0 (Op (o_vars o) (o_shapes o) m (o_fric o) (o_aux o)) = entering f n 0 o).
  { intros n Hn. extensionality x. unfold entering, old_momentum, resamples. rewrite F. destruct (Z.eqb_spec n 0); [contradiction|]. now rewrite Z.mod_0_l. }
  destruct c as [| | |al be n so|a tu n so va]; try contradiction; cbn; rewrite (E n H); destruct so; reflexivity.
Qed.

(** ** The friction of SGNHT is the history of its thermostat *)
(** A quantity of every run of operation [i] (its feed, the counter, the operation before and
    after), summed over these runs. *)
Fixpoint total_over (c : sampler) (d : feed -> nat -> op -> op -> R) (i : nat) (s : session) (l : list (nat * feed)) : R :=
  match l with
  | [] => 0
  | (j, f) :: l =>
    (if Nat.eqb j i then
       match nth_error (s_ops s) i, nth_error (s_ops (run_op c s j f)) i with Some o, Some o' => d f (s_t s) o o' | _, _ => 0 end
     else 0)
    + total_over c d i (run_op c s j f) l
  end.
(** Kinetic energy above the target, at the momenta [v]. *)
Definition surplus (vec : bool) (o : op) (v : state) (f : feed) (x : nat * index) : R := mean_kinetic (o_shapes o) vec v x - f_lr f.
Theorem C54_friction_history a tune n second vec i l : forall s o, nth_error (s_ops s) i = Some o ->
  exists o', nth_error (s_ops (runs (SGNHT a tune n second vec) s l)) i = Some o' /\
  forall x, o_fric o' x = o_fric o x + tune * total_over (SGNHT a tune n second vec)
    (fun f t o o' => if second then (surplus vec o (entering f n t o) f x + surplus vec o (o_mom o') f x) / 2
                     else surplus vec o (o_mom o') f x) i s l.
Proof.
  set (c := SGNHT a tune n second vec). induction l as [|[j f] l IH]; intros s o E.
  - exists o. split; [exact E|]. intros x. cbn. ring.
  - change (runs c s ((j, f) :: l)) with (runs c (run_op c s j f) l). cbn [total_over].
    destruct (Nat.eqb_spec j i) as [->|D].
    + assert (E1 : nth_error (s_ops (run_op c s i f)) i = Some (snd (update_op c f (s_t s) (latents s o) o))).
      { unfold run_op. rewrite E. destruct (update_op _ _ _ _ _). cbn. now rewrite replace_spec, Nat.eqb_refl, E. }
      destruct (IH _ _ E1) as (o' & E' & H).
      exists o'. split; [exact E'|]. intros x. rewrite H, E, E1. unfold surplus. cbn. destruct second; cbn; field.
    + destruct (IH (run_op c s j f) o) as (o' & E' & H); [rewrite (proj1 (proj2 (C54_frame c s j f))) by congruence; exact E|].
      exists o'. split; [exact E'|]. intros x. rewrite H. ring.
Qed.

(** ** The variables an operation starts with, and the history of PSGLD's averages *)
Theorem C54_initial_variables c vars shapes lr draw x : let o := new_op c vars shapes lr draw in
  o_vars o = vars /\ o_shapes o = shapes /\ o_mom o x = sqrt lr * draw x /\ o_aux o x = 0 /\
  (forall a tune n second vec, c = SGNHT a tune n second vec -> o_fric o x = a).
Proof. cbn. repeat split. intros a tune n second vec ->. reflexivity. Qed.
Theorem C54_friction_from_start a tune n second vec i l s vars shapes lr draw : let c := SGNHT a tune n second vec in
  nth_error (s_ops s) i = Some (new_op c vars shapes lr draw) ->
  exists o', nth_error (s_ops (runs c s l)) i = Some o' /\
  forall x, o_fric o' x = a + tune * total_over c
    (fun f t o o' => if second then (surplus vec o (entering f n t o) f x + surplus vec o (o_mom o') f x) / 2
                     else surplus vec o (o_mom o') f x) i s l.
Proof. intros c E. destruct (C54_friction_history a tune n second vec i l s _ E) as (o' & E' & H). exists o'. split; [exact E'|]. intros x. rewrite H. reflexivity. Qed.
(** The gradients at [x] used by the runs of operation [i], first one first. *)
Fixpoint gradients (c : sampler) (i : nat) (s : session) (l : list (nat * feed)) (x : nat * index) : list R :=
  match l with
  | [] => []
  | (j, f) :: l =>
    (if Nat.eqb j i then match nth_error (s_ops s) i with Some o => [f_grad f (latents s o) x] | None => [] end else [])
    ++ gradients c i (run_op c s j f) l x
  end.
Theorem C54_average_history decay epsilon i l : forall s o, nth_error (s_ops s) i = Some o ->
  exists o', nth_error (s_ops (runs (PSGLD decay epsilon) s l)) i = Some o' /\
  forall x, o_aux o' x = fold_left (fun a g => decay * a + (1 - decay) * (g * g)) (gradients (PSGLD decay epsilon) i s l x) (o_aux o x).
Proof.
  set (c := PSGLD decay epsilon). induction l as [|[j f] l IH]; intros s o E.
  - exists o. split; [exact E|]. reflexivity.
  - change (runs c s ((j, f) :: l)) with (runs c (run_op c s j f) l). cbn [gradients].
    destruct (Nat.eqb_spec j i) as [->|D].
    + assert (E1 : nth_error (s_ops (run_op c s i f)) i = Some (snd (update_op c f (s_t s) (latents s o) o))).
      { unfold run_op. rewrite E. destruct (update_op _ _ _ _ _). cbn. now rewrite replace_spec, Nat.eqb_refl, E. }
      destruct (IH _ _ E1) as (o' & E' & H). exists o'. split; [exact E'|]. intros x. rewrite H, E. cbn [app fold_left]. f_equal. unfold c. cbn. unfold rms_aux. ring.
    + destruct (IH (run_op c s j f) o) as (o' & E' & H); [rewrite (proj1 (proj2 (C54_frame c s j f))) by congruence; exact E|].
      exists o'. split; [exact E'|]. intros x. rewrite H. reflexivity.
Qed.

(** ** Cases *)
(** Latents "0" and "1" are variables 7 and 9, name 5 is observed, the log joint reads all. *)
Example C54_case_accepts : sg_sample SGLD [(0, TfVariable 7); (1, TfVariable 9)]%nat [5]%nat [0; 1; 5]%nat = inr [7; 9]%nat /\
  sg_sample (PSGLD 1 1) [(0, TfVariable 7); (1, Other)]%nat [5]%nat [0; 1; 5]%nat = inl (TypeError (Some 1%nat)) /\
  sg_sample SGLD [(0, TfVariable 7)]%nat [0]%nat [0]%nat = inl ValueError /\
  hmc_sample true [(0, TfVariable 7); (1, TfVariable 9)]%nat [5]%nat [0; 1; 5]%nat = inr [7; 9]%nat /\
  sg_sample Base [(0, TfVariable 7)]%nat [] [0]%nat = inl (TypeError None) /\ sg_sample SGLD [] [] [] = inl ValueError.
Proof. repeat split. Qed.
Example C54_case_info : sgmcmc_info [3; 4]%nat [[(0, 10); (1, 11)]; [(0, 20); (1, 21)]]%nat =
  [(0, [(3, 10); (4, 20)]); (1, [(3, 11); (4, 21)])]%nat.
Proof. reflexivity. Qed.
Definition case_feed : feed := Feed 4 (fun q => q) (fun _ => 3) (fun _ => 0) (fun _ => false).
Definition case_session : session := Session 0 (fun v _ => INR v)
  [new_op (SGHMC 1 0 2 false) [7; 9]%nat [[]; []] 4 (fun _ => 1); new_op (SGHMC 1 0 2 false) [8]%nat [[]] 4 (fun _ => 5)].
(** Two distinct scalar variables, and another operation on a third; the first run resamples. *)
Example C54_case_run : let s := runs (SGHMC 1 0 2 false) case_session [(0%nat, case_feed); (1%nat, case_feed)] in
  s_t s = 2%nat /\ s_vars s 7%nat [] = 35 /\ s_vars s 8%nat [] = 40 /\ s_vars s 6%nat [] = 6.
Proof.
  cbn. replace (sqrt (2 * (1 - 0) * 4) * 0) with 0 by ring.
  repeat split; unfold content, latents; cbn; lra.
Qed.
Example C54_case_apart : apart 0 case_session.
Proof.
  intros o j oj v E N Ej Hv Hj. cbn in E. injection E as <-. destruct j as [|[|[|j]]]; cbn in Ej; try discriminate; [congruence|]. injection Ej as <-.
  cbn in Hv, Hj. lia.
Qed.
(** Scalar friction of a 2-vector: after one first-order run from 1/2 with tune rate 2. *)
Example C54_case_friction : let c := SGNHT 0 2 0 false false in
  let s := Session 0 (fun _ _ => 0) [Op [7]%nat [[2%nat]] (fun x => match snd x with [0%nat] => 1 | _ => 3 end) (fun _ => 0) (fun _ => 0)] in
  let f := Feed 1 (fun _ _ => 0) (fun _ => 0) (fun _ => 0) (fun _ => false) in
  exists o, nth_error (s_ops (runs c s [(0%nat, f)])) 0 = Some o /\ o_fric o (0%nat, []) = 8.
Proof.
  cbn. eexists. split; [reflexivity|]. cbn. unfold mean_kinetic, avg, entering, old_momentum, friction_at. cbn.
  replace (sqrt (2 * 0 * 1) * 0) with 0 by ring. lra.
Qed.

(** The average of a PSGLD object with decay 1/2 after two runs at gradients 2 and 4. *)
Example C54_case_average : let c := PSGLD (1/2) 1 in
  let s := Session 0 (fun _ _ => 0) [new_op c [7]%nat [[]] 0 (fun _ => 0)] in
  let f g := Feed 0 (fun _ _ => g) (fun _ => 0) (fun _ => 0) (fun _ => false) in
  exists o, nth_error (s_ops (runs c s [(0%nat, f 2); (0%nat, f 4)])) 0 = Some o /\ o_aux o (0%nat, []) = 9.
Proof.
  intros c s f. destruct (C54_average_history (1/2) 1 0 [(0%nat, f 2); (0%nat, f 4)] s _ eq_refl) as (o & E & H). exists o. split; [exact E|]. rewrite H. cbn. lra.
Qed.

Print Assumptions C54_sgmcmc_accepts.
Print Assumptions C54_sgmcmc_errors.
Print Assumptions C54_hmc_accepts.
Print Assumptions C54_psgld_init.
Print Assumptions C54_info.
Print Assumptions C54_run.
Print Assumptions C54_frame.
Print Assumptions C54_counter.
Print Assumptions C54_entering.
Print Assumptions C54_entering_late.
Print Assumptions C54_isolated.
Print Assumptions C54_shared_counter_refuted.
Print Assumptions C54_initial_momenta_unused.
Print Assumptions C54_friction_history.
Print Assumptions C54_initial_variables.
Print Assumptions C54_friction_from_start.
Print Assumptions C54_average_history.
