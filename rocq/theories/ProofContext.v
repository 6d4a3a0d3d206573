From Coq Require Import List Arith Bool Lia.
From Verif Require Import ModelContext SpecContext.
Import ListNotations.

Lemma cls_eqb_eq a b : cls_eqb a b = true <-> a = b.
Proof. unfold cls_eqb. destruct (list_eq_dec Nat.eq_dec a b); split; congruence. Qed.
Lemma cls_eqb_neq a b : cls_eqb a b = false <-> a <> b.
Proof. unfold cls_eqb. destruct (list_eq_dec Nat.eq_dec a b); split; congruence. Qed.
Lemma cls_eqb_refl a : cls_eqb a a = true.
Proof. now apply cls_eqb_eq. Qed.

Lemma own_set_eq h c l : own_attr (set_attr h c l) c = Some l.
Proof.
  induction h as [|[c' l'] h IH]; simpl.
  - now rewrite cls_eqb_refl.
  - destruct (cls_eqb c c') eqn:E; simpl; rewrite E; [reflexivity|assumption].
Qed.

Lemma own_set_neq h c l c2 : c2 <> c -> own_attr (set_attr h c l) c2 = own_attr h c2.
Proof.
  intros Hn. induction h as [|[c' l'] h IH]; simpl.
  - apply cls_eqb_neq in Hn. now rewrite Hn.
  - destruct (cls_eqb c c') eqn:E; simpl.
    + apply cls_eqb_eq in E; subst c'. apply cls_eqb_neq in Hn. now rewrite Hn.
    + destruct (cls_eqb c2 c'); [reflexivity|assumption].
Qed.

Lemma owner_own h : forall c o, owner h c = Some o -> exists l, own_attr h o = Some l.
Proof.
  induction c as [|n p IH]; simpl; intros o H; [discriminate|].
  destruct (own_attr h (n :: p)) as [l|] eqn:E.
  - inversion H; subst. eauto.
  - now apply IH.
Qed.

(** [h'] differs from [h] only by empty lists created for classes that had no
    list in their MRO. *)
Definition ext (h h' : heap) : Prop :=
  (forall c l, own_attr h c = Some l -> own_attr h' c = Some l) /\
  (forall c l, own_attr h c = None -> own_attr h' c = Some l ->
     l = [] /\ owner h c = None).

Lemma ext_refl h : ext h h.
Proof. split; intros; congruence. Qed.

Lemma ext_owner h h' : ext h h' -> forall c o, owner h c = Some o -> owner h' c = Some o.
Proof.
  intros [H1 H2]. induction c as [|n p IH]; simpl; intros o H; [discriminate|].
  destruct (own_attr h (n :: p)) as [l|] eqn:E.
  - rewrite (H1 _ _ E). assumption.
  - destruct (own_attr h' (n :: p)) as [l|] eqn:E'.
    + destruct (H2 _ _ E E') as [_ Hc]. simpl in Hc. rewrite E in Hc. congruence.
    + now apply IH.
Qed.

Lemma ext_owner_none h h' : ext h h' -> forall c, owner h' c = None -> owner h c = None.
Proof.
  intros He c H. destruct (owner h c) as [o|] eqn:E; [|reflexivity].
  apply (ext_owner _ _ He) in E. congruence.
Qed.

Lemma ext_trans h1 h2 h3 : ext h1 h2 -> ext h2 h3 -> ext h1 h3.
Proof.
  intros He1 He2. pose proof He1 as [A1 B1]. pose proof He2 as [A2 B2]. split.
  - intros c l H. now apply A2, A1.
  - intros c l H H3. destruct (own_attr h2 c) as [l2|] eqn:E.
    + destruct (B1 _ _ H E) as [-> Hn]. apply A2 in E. split; [congruence|assumption].
    + destruct (B2 _ _ E H3) as [-> Hn]. split; [reflexivity|].
      now apply (ext_owner_none _ _ He1).
Qed.

Lemma ext_visible h h' c : ext h h' -> visible h' c = visible h c.
Proof.
  intros He. unfold visible. destruct (owner h c) as [o|] eqn:E.
  - rewrite (ext_owner _ _ He _ _ E). destruct (owner_own _ _ _ E) as [l Hl].
    rewrite Hl. destruct He as [A _]. now rewrite (A _ _ Hl).
  - destruct (owner h' c) as [o|] eqn:E'; [|reflexivity].
    destruct (owner_own _ _ _ E') as [l Hl]. rewrite Hl.
    destruct He as [A B]. destruct (own_attr h o) as [l0|] eqn:E0.
    + exfalso.
      (* o owns in h and is an ancestor of c, so c has an owner in h *)
      assert (H : forall c, owner h' c = Some o -> owner h c <> None).
      { clear - E0. induction c as [|n p IH]; simpl; [discriminate|].
        destruct (own_attr h' (n :: p)).
        - intros H; inversion H; subst. rewrite E0. discriminate.
        - intros H. destruct (own_attr h (n :: p)); [discriminate|]. now apply IH. }
      now apply (H c E').
    + now destruct (B _ _ E0 Hl) as [-> _].
Qed.

Lemma get_contexts_spec h c h' o l : c <> [] -> get_contexts h c = (h', o, l) ->
  ext h h' /\ owner h' c = Some o /\ own_attr h' o = Some l /\ l = visible h c /\
  (forall c', c' <> o -> own_attr h' c' = own_attr h c') /\
  (own_attr h o = Some l \/ (own_attr h o = None /\ o = c /\ l = [] /\ owner h c = None)).
Proof.
  intros Hc. unfold get_contexts, visible. destruct (owner h c) as [o1|] eqn:E.
  - destruct (owner_own _ _ _ E) as [l1 Hl]. rewrite Hl. intros H; inversion H; subst.
    repeat split; auto; intros; congruence.
  - intros H; inversion H; subst. clear H.
    assert (Hn : own_attr h o = None).
    { destruct o; [contradiction|]. simpl in E. destruct (own_attr h (n :: o)); congruence. }
    assert (He : ext h (set_attr h o [])).
    { split.
      - intros c l Hl. rewrite own_set_neq; [assumption|]. congruence.
      - intros c l H1 H2. destruct (list_eq_dec Nat.eq_dec c o) as [->|Hne].
        + rewrite own_set_eq in H2. inversion H2; auto.
        + rewrite own_set_neq in H2; congruence. }
    split; [assumption|]. split.
    + destruct o; [contradiction|]. simpl. now rewrite own_set_eq.
    + rewrite own_set_eq. repeat split; auto.
      intros c' Hc'. now apply own_set_neq.
Qed.

Lemma get_context_spec h c h' a : c <> [] -> get_context h c = (h', a) ->
  ext h h' /\ a = match rev (visible h c) with [] => None | x :: _ => Some x end.
Proof.
  intros Hc. unfold get_context. destruct (get_contexts h c) as [[h1 o] l] eqn:E.
  intros H; inversion H; subst. apply get_contexts_spec in E; [|assumption].
  destruct E as [E1 [_ [_ [-> _]]]]. auto.
Qed.

(** Entering, then anything that restores the lists, then leaving. *)
Lemma enter_exit h c x h2 : c <> [] -> ext (ctx_enter h c x) h2 ->
  exists h3, ctx_exit h2 c = Some h3 /\ ext h h3.
Proof.
  intros Hc He. unfold ctx_enter in He.
  destruct (get_contexts h c) as [[h' o] l] eqn:E.
  apply get_contexts_spec in E; [|assumption].
  destruct E as [E1 [E2 [E3 [E4 [E5 E6]]]]].
  set (h1 := set_attr h' o (l ++ [x])) in *.
  assert (Ho1 : owner h1 c = Some o).
  { assert (G : forall c, owner h' c = Some o -> owner h1 c = Some o).
    { clear - E3. induction c as [|n p IH]; simpl; [discriminate|].
      intros H. destruct (list_eq_dec Nat.eq_dec (n :: p) o) as [<-|Hne].
      - unfold h1. now rewrite own_set_eq.
      - unfold h1 at 1. rewrite own_set_neq by assumption.
        destruct (own_attr h' (n :: p)); [assumption|]. now apply IH. }
    now apply G. }
  assert (Ha1 : own_attr h1 o = Some (l ++ [x])) by apply own_set_eq.
  pose proof (ext_owner _ _ He _ _ Ho1) as Ho2.
  pose proof He as [A B]. pose proof (A _ _ Ha1) as Ha2.
  exists (set_attr h2 o l). unfold ctx_exit, get_contexts. rewrite Ho2, Ha2.
  split.
  - destruct (l ++ [x]) eqn:El; [destruct l; discriminate|].
    rewrite <- El, removelast_last. reflexivity.
  - split.
    + intros c' s Hs. destruct (list_eq_dec Nat.eq_dec c' o) as [->|Hne].
      * rewrite own_set_eq. destruct E6 as [E6|[E6 _]]; congruence.
      * rewrite own_set_neq by assumption. apply A.
        unfold h1. rewrite own_set_neq by assumption. now rewrite E5.
    + intros c' s Hn Hs. destruct (list_eq_dec Nat.eq_dec c' o) as [->|Hne].
      * rewrite own_set_eq in Hs. inversion Hs; subst.
        destruct E6 as [E6|[_ [-> [E6 E7]]]]; [congruence|]. auto.
      * rewrite own_set_neq in Hs by assumption.
        destruct (own_attr h1 c') as [s1|] eqn:E1'.
        -- unfold h1 in E1'. rewrite own_set_neq, E5 in E1' by assumption. congruence.
        -- destruct (B _ _ E1' Hs) as [-> Hw]. split; [reflexivity|].
           destruct (owner h c') as [ow|] eqn:Ew; [|reflexivity].
           apply (ext_owner _ _ E1) in Ew.
           assert (G : forall c, owner h' c <> None -> owner h1 c <> None).
           { clear. induction c as [|n p IH]; simpl; [auto|].
             intros H. destruct (list_eq_dec Nat.eq_dec (n :: p) o) as [<-|Hne].
             - unfold h1. rewrite own_set_eq. discriminate.
             - unfold h1 at 1. rewrite own_set_neq by assumption.
               destruct (own_attr h' (n :: p)); [discriminate|]. now apply IH. }
           exfalso. apply (G c'); [congruence|assumption].
Qed.

Lemma u_with_inv P c x body k : uses_only P (With c x body k) ->
  P c /\ uses_only P body /\ forall o, uses_only P (k o).
Proof. intros U; inversion U; auto. Qed.
Lemma u_get_inv P c k : uses_only P (GetContext c k) ->
  P c /\ forall a, uses_only P (k a).
Proof. intros U; inversion U; auto. Qed.
Lemma u_obs_inv P m obs body k : uses_only P (Observe m obs body k) ->
  uses_only P body /\ forall o, uses_only P (k o).
Proof. intros U; inversion U; auto. Qed.
Lemma u_bn_inv P k : uses_only P (NewBN k) -> uses_only P k.
Proof. intros U; inversion U; auto. Qed.
Ltac inv_uses U :=
  first [ apply u_with_inv in U; destruct U as [U1 [U2 U3]]
        | apply u_get_inv in U; destruct U as [U1 U3]
        | apply u_obs_inv in U; destruct U as [U2 U3]
        | apply u_bn_inv in U; rename U into U2
        | idtac ].

Definition named (c : cls) : Prop := c <> [].

Lemma with_block_balance c x f s :
  c <> [] -> (forall s, ext (s_heap s) (s_heap (fst (f s)))) ->
  let s1 := St (ctx_enter (s_heap s) c x) (s_locals s) (s_events s) in
  exists h3, ctx_exit (s_heap (fst (f s1))) c = Some h3 /\
  with_block c x f s =
    (St h3 (s_locals (fst (f s1))) (s_events (fst (f s1))), snd (f s1))
  /\ ext (s_heap s) h3.
Proof.
  intros Hc Hf. cbv zeta. unfold with_block.
  specialize (Hf (St (ctx_enter (s_heap s) c x) (s_locals s) (s_events s))).
  destruct (f (St (ctx_enter (s_heap s) c x) (s_locals s) (s_events s))) as [s2 o].
  simpl in *. destruct (enter_exit _ _ _ _ Hc Hf) as [h3 [E1 E2]].
  exists h3. rewrite E1. auto.
Qed.

Lemma run_ext p : uses_only named p -> forall s,
  ext (s_heap s) (s_heap (fst (run p s))).
Proof.
  induction p as [o|c x body IHb k IHk|c k IHk|m obs body IHb k IHk|k IHk];
    intros U s; inversion U; subst; simpl.
  - apply ext_refl.
  - destruct (with_block_balance c x (run body) s) as [h3 [_ [E1 E2]]]; auto.
    rewrite E1. eapply ext_trans; [exact E2|].
    match goal with |- ext ?h (s_heap (fst (run (k ?o) ?s'))) =>
      change h with (s_heap s') end.
    apply IHk; auto.
  - destruct (get_context (s_heap s) c) as [h a] eqn:E.
    apply get_context_spec in E; [|assumption]. destruct E as [E _].
    eapply ext_trans; [exact E|].
    match goal with |- ext ?h (s_heap (fst (run (k ?o) ?s'))) =>
      change h with (s_heap s') end.
    apply IHk; auto.
  - unfold observe.
    destruct (with_block_balance Local_cls (length (s_locals s)) (run body)
       (St (s_heap s) (s_locals s ++ [(m, obs)]) (s_events s))) as [h3 [_ [E1 E2]]];
      auto; [discriminate|].
    rewrite E1. eapply ext_trans; [exact E2|].
    match goal with |- ext ?h (s_heap (fst (run (k ?o) ?s'))) =>
      change h with (s_heap s') end.
    apply IHk; auto.
  - eapply ext_trans; [|apply IHk; assumption].
    unfold new_bn. destruct (get_context (s_heap s) Local_cls) as [h a] eqn:E.
    apply get_context_spec in E; [|discriminate]. apply E.
Qed.

(** Refinement to lexical scoping. *)
Section Refine.
  Context (P : cls -> Prop).
  Definition Q (c : cls) : Prop := P c \/ c = Local_cls.
  Context (HQ : unrelated_classes Q) (HL : ~ P Local_cls).

  Definition hinv (h : heap) : Prop := forall c, own_attr h c <> None -> Q c.

  Lemma hinv_owner h c : hinv h -> Q c ->
    owner h c = match own_attr h c with Some _ => Some c | None => None end.
  Proof.
    intros Hh Hq. destruct c as [|n p]; [destruct HQ as [H _]; now apply H in Hq|].
    simpl. destruct (own_attr h (n :: p)) eqn:E; [reflexivity|].
    destruct (owner h p) as [o|] eqn:Eo; [|reflexivity]. exfalso.
    assert (Hsuf : forall c, owner h c = Some o -> exists pre, c = pre ++ o).
    { induction c as [|a c IH]; simpl; [discriminate|].
      destruct (own_attr h (a :: c)).
      - intros H; inversion H; subst. now exists [].
      - intros H. destruct (IH H) as [pre ->]. now exists (a :: pre). }
    destruct (Hsuf _ Eo) as [pre Hp]. destruct (owner_own _ _ _ Eo) as [l Hl].
    destruct HQ as [_ HQ2]. apply (HQ2 (n :: p) o Hq).
    - apply Hh. congruence.
    - exists (n :: pre). split; [discriminate|]. simpl. now rewrite Hp.
  Qed.

  Lemma hinv_visible h c : hinv h -> Q c ->
    visible h c = match own_attr h c with Some l => l | None => [] end.
  Proof.
    intros H1 H2. unfold visible. rewrite hinv_owner by assumption.
    destruct (own_attr h c) eqn:E; [now rewrite E|reflexivity].
  Qed.

  Lemma hinv_set h c l : hinv h -> Q c -> hinv (set_attr h c l).
  Proof.
    intros H1 H2 c' Hc'. destruct (list_eq_dec Nat.eq_dec c' c) as [->|Hn]; [assumption|].
    rewrite own_set_neq in Hc' by assumption. now apply H1.
  Qed.

  Lemma hinv_get_contexts h c h' o l : hinv h -> Q c ->
    get_contexts h c = (h', o, l) ->
    hinv h' /\ o = c /\ l = visible h c /\ own_attr h' c = Some l /\
    (forall c', c' <> c -> own_attr h' c' = own_attr h c').
  Proof.
    intros Hh Hq. unfold get_contexts. rewrite (hinv_owner h c Hh Hq).
    rewrite (hinv_visible h c Hh Hq).
    destruct (own_attr h c) as [l1|] eqn:E.
    - rewrite E. intros H; inversion H; subst. auto.
    - intros H; inversion H; subst. split; [now apply hinv_set|].
      split; [reflexivity|]. split; [reflexivity|]. split; [apply own_set_eq|].
      intros c' Hn. now apply own_set_neq.
  Qed.

  (** Lexical scope, with the identifiers of Local instances made explicit. *)
  Inductive match_scope (locals : list (nat * observations))
    : list scope -> list (cls * ctx) -> Prop :=
  | ms_nil : match_scope locals [] []
  | ms_with c x sc env : P c -> match_scope locals sc env ->
      match_scope locals (InWith c x :: sc) ((c, x) :: env)
  | ms_obs m obs i sc env : nth_error locals i = Some (m, obs) ->
      match_scope locals sc env ->
      match_scope locals (InObserve m obs :: sc) ((Local_cls, i) :: env).

  Definition env_stack (env : list (cls * ctx)) (c : cls) : list ctx :=
    rev (map snd (filter (fun e => cls_eqb c (fst e)) env)).

  Lemma match_scope_ext l1 l2 sc env :
    match_scope l1 sc env -> match_scope (l1 ++ l2) sc env.
  Proof.
    induction 1; constructor; auto. rewrite nth_error_app1; [assumption|].
    apply nth_error_Some. congruence.
  Qed.

  Definition agrees (s : st) (sc : list scope) (env : list (cls * ctx)) : Prop :=
    hinv (s_heap s) /\ match_scope (s_locals s) sc env /\
    forall c, Q c -> visible (s_heap s) c = env_stack env c.

  Lemma lookup_with locals sc env c : P c -> match_scope locals sc env ->
    match rev (env_stack env c) with [] => None | x :: _ => Some x end
    = innermost_with sc c.
  Proof.
    intros Hp. unfold env_stack. rewrite rev_involutive.
    induction 1 as [|c' x sc env Hp' _ IH|m obs i sc env _ _ IH]; simpl; [reflexivity| |].
    - destruct (cls_eqb c c'); simpl; [reflexivity|assumption].
    - destruct (cls_eqb c Local_cls) eqn:E; [|assumption].
      apply cls_eqb_eq in E; subst. contradiction.
  Qed.

  Lemma lookup_obs locals sc env : match_scope locals sc env ->
    match (match rev (env_stack env Local_cls) with [] => None | x :: _ => Some x end) with
    | Some i => nth_error locals i | None => None end
    = innermost_observe sc.
  Proof.
    unfold env_stack. rewrite rev_involutive.
    induction 1 as [|c' x sc env Hp' _ IH|m obs i sc env Hi _ IH]; cbn [filter fst]; [reflexivity| |].
    - destruct (cls_eqb Local_cls c') eqn:E; [|assumption].
      apply cls_eqb_eq in E; subst. contradiction.
    - rewrite cls_eqb_refl. simpl. assumption.
  Qed.

  Lemma get_context_agrees s sc env c h a : Q c -> agrees s sc env ->
    get_context (s_heap s) c = (h, a) ->
    a = match rev (env_stack env c) with [] => None | x :: _ => Some x end /\
    forall ev, agrees (St h (s_locals s) ev) sc env.
  Proof.
    intros Hq [A1 [A2 A3]] H.
    assert (Hc : c <> []) by (destruct HQ as [H0 _]; auto).
    pose proof (get_context_spec _ _ _ _ Hc H) as [He Ha].
    rewrite A3 in Ha by assumption. split; [assumption|].
    intros ev. unfold get_context in H.
    destruct (get_contexts (s_heap s) c) as [[h1 o] l] eqn:E.
    inversion H; subst h1.
    destruct (hinv_get_contexts _ _ _ _ _ A1 Hq E) as [B1 _].
    split; [assumption|]. split; [assumption|]. simpl.
    intros c' Hc'. rewrite (ext_visible _ _ _ He). now apply A3.
  Qed.

  Lemma enter_agrees s sc env c x sc' : Q c -> agrees s sc env ->
    match_scope (s_locals s) sc' ((c, x) :: env) ->
    agrees (St (ctx_enter (s_heap s) c x) (s_locals s) (s_events s)) sc' ((c, x) :: env).
  Proof.
    intros Hq [A1 [A2 A3]] Hm. unfold ctx_enter.
    destruct (get_contexts (s_heap s) c) as [[h1 o] l] eqn:E.
    destruct (hinv_get_contexts _ _ _ _ _ A1 Hq E) as [B1 [-> [B3 [B4 B5]]]].
    assert (Hi : hinv (set_attr h1 c (l ++ [x]))) by now apply hinv_set.
    split; [assumption|]. split; [assumption|]. cbn [s_heap].
    intros c' Hc'. rewrite hinv_visible by assumption. unfold env_stack. simpl.
    destruct (list_eq_dec Nat.eq_dec c' c) as [->|Hn].
    - rewrite own_set_eq, cls_eqb_refl. simpl. rewrite B3, A3 by assumption. reflexivity.
    - rewrite own_set_neq, B5 by assumption. apply cls_eqb_neq in Hn. rewrite Hn.
      rewrite <- (hinv_visible (s_heap s) c') by assumption. now apply A3.
  Qed.

  Lemma uses_named p : uses_only P p -> uses_only named p.
  Proof.
    induction p; intros U; inversion U; subst; constructor; auto.
    - destruct HQ as [HH _]. apply HH. now left.
    - destruct HQ as [HH _]. apply HH. now left.
  Qed.

  Lemma hinv_run p : uses_only P p -> forall s, hinv (s_heap s) ->
    hinv (s_heap (fst (run p s))).
  Proof.
    assert (Hget : forall h c h' o l, Q c -> hinv h -> get_contexts h c = (h', o, l) -> hinv h' /\ o = c).
    { intros h c h' o l Hq Hh E.
      destruct (hinv_get_contexts _ _ _ _ _ Hh Hq E) as [B1 [-> _]]. auto. }
    assert (Hwb : forall c x f s, Q c -> hinv (s_heap s) ->
      (forall s, hinv (s_heap s) -> hinv (s_heap (fst (f s)))) ->
      hinv (s_heap (fst (with_block c x f s)))).
    { intros c x f s Hq Hh Hf. unfold with_block.
      specialize (Hf (St (ctx_enter (s_heap s) c x) (s_locals s) (s_events s))).
      destruct (f (St (ctx_enter (s_heap s) c x) (s_locals s) (s_events s))) as [s2 o] eqn:Ef.
      simpl in Hf.
      assert (H2 : hinv (s_heap s2)).
      { apply Hf. unfold ctx_enter.
        destruct (get_contexts (s_heap s) c) as [[h1 o1] l] eqn:E.
        destruct (Hget _ _ _ _ _ Hq Hh E) as [B1 ->]. now apply hinv_set. }
      unfold ctx_exit. destruct (get_contexts (s_heap s2) c) as [[h1 o1] l] eqn:E.
      destruct (Hget _ _ _ _ _ Hq H2 E) as [B1 ->].
      destruct l; simpl; [assumption|]. now apply hinv_set. }
    induction p as [o|c x body IHb k IHk|c k IHk|m obs body IHb k IHk|k IHk];
      intros U s Hs; inv_uses U; simpl.
    - assumption.
    - pose proof (Hwb c x (run body) s (or_introl U1) Hs (IHb U2)) as Hw.
      destruct (with_block c x (run body) s) as [s' o]. apply IHk; auto.
    - destruct (get_context (s_heap s) c) as [h a] eqn:E. apply IHk; auto. simpl.
      unfold get_context in E.
      destruct (get_contexts (s_heap s) c) as [[h1 o1] l] eqn:E1. inversion E; subst.
      exact (proj1 (Hget _ _ _ _ _ (or_introl U1) Hs E1)).
    - pose proof (Hwb Local_cls (length (s_locals s)) (run body)
        (St (s_heap s) (s_locals s ++ [(m, obs)]) (s_events s))
        (or_intror eq_refl) Hs (IHb U2)) as Hw.
      unfold observe.
      destruct (with_block Local_cls (length (s_locals s)) (run body) _) as [s' o].
      apply IHk; auto.
    - apply IHk; auto. unfold new_bn.
      destruct (get_context (s_heap s) Local_cls) as [h a] eqn:E. simpl.
      unfold get_context in E.
      destruct (get_contexts (s_heap s) Local_cls) as [[h1 o1] l] eqn:E1.
      inversion E; subst. exact (proj1 (Hget _ _ _ _ _ (or_intror eq_refl) Hs E1)).
  Qed.

  Lemma refine p : uses_only P p -> forall s sc env, agrees s sc env ->
    let '(s', o) := run p s in
    let '(evs, o') := lexical p sc in
    o = o' /\ s_events s' = s_events s ++ evs /\
    (exists l, s_locals s' = s_locals s ++ l) /\ agrees s' sc env.
  Proof.
    induction p as [o|c x body IHb k IHk|c k IHk|m obs body IHb k IHk|k IHk];
      intros U s sc env A; inv_uses U; simpl.
    - rewrite app_nil_r. repeat split; try apply A. now exists []; rewrite app_nil_r.
    - pose proof (run_ext body (uses_named _ U2)) as Hext.
      destruct (with_block_balance c x (run body) s) as [h3 [E0 [E1 E2]]]; auto.
      { destruct HQ as [H0 _]. apply H0. now left. }
      rewrite E1.
      assert (Aent : agrees (St (ctx_enter (s_heap s) c x) (s_locals s) (s_events s))
                       (InWith c x :: sc) ((c, x) :: env)).
      { apply enter_agrees with sc; auto; [now left|]. constructor; auto. apply A. }
      specialize (IHb U2 _ _ _ Aent).
      pose proof (hinv_run _ U2 _ (proj1 Aent)) as Hi2.
      destruct (run body (St (ctx_enter (s_heap s) c x) (s_locals s) (s_events s)))
        as [s2 o2] eqn:Er.
      destruct (lexical body (InWith c x :: sc)) as [e1 o1].
      destruct IHb as [-> [Hev [[l Hl] _]]]. simpl in Hev, Hl, E0, Hi2. simpl.
      assert (A3 : agrees (St h3 (s_locals s2) (s_events s2)) sc env).
      { split; [|split]; simpl.
        - unfold ctx_exit in E0.
          destruct (get_contexts (s_heap s2) c) as [[h1 o3] l1] eqn:E.
          destruct (hinv_get_contexts _ _ _ _ _ Hi2 (or_introl U1) E) as [B1 [-> _]].
          destruct l1; [discriminate|]. inversion E0. apply hinv_set; [assumption|now left].
        - rewrite Hl. apply match_scope_ext. apply A.
        - intros c' Hc'. rewrite (ext_visible _ _ _ E2). now apply A. }
      specialize (IHk o1 (U3 o1) _ _ _ A3). simpl in *.
      destruct (run (k o1) (St h3 (s_locals s2) (s_events s2))) as [s4 o4].
      destruct (lexical (k o1) sc) as [e2 o5]. destruct IHk as [-> [Hev4 [[l4 Hl4] A4]]].
      split; [reflexivity|]. split; [simpl in Hev4; now rewrite Hev4, Hev, app_assoc|].
      split; [|assumption]. exists (l ++ l4). simpl in Hl4. now rewrite Hl4, Hl, app_assoc.
    - destruct (get_context (s_heap s) c) as [h a] eqn:E.
      destruct (get_context_agrees _ _ _ _ _ _ (or_introl U1) A E) as [Ha Hag].
      rewrite (lookup_with (s_locals s) sc env c U1 (proj1 (proj2 A))) in Ha. subst a.
      specialize (IHk _ (U3 (innermost_with sc c)) _ _ _
        (Hag (s_events s ++ [EvContext c (innermost_with sc c)]))).
      destruct (run (k (innermost_with sc c)) _) as [s' o].
      destruct (lexical (k (innermost_with sc c)) sc) as [e o'].
      destruct IHk as [-> [Hev [Hl Ag]]]. split; [reflexivity|].
      split; [simpl in Hev; rewrite Hev, <- app_assoc; reflexivity|]. auto.
    - set (s0 := St (s_heap s) (s_locals s ++ [(m, obs)]) (s_events s)).
      assert (A0 : agrees s0 sc env).
      { destruct A as [A1 [A2 A3]]. split; [exact A1|]. split; [|exact A3].
        now apply match_scope_ext. }
      pose proof (run_ext body (uses_named _ U2)) as Hext. unfold observe. fold s0.
      set (i := length (s_locals s)).
      destruct (with_block_balance Local_cls i (run body) s0) as [h3 [E0 [E1 E2]]];
        auto; [discriminate|]. rewrite E1.
      assert (Aent : agrees (St (ctx_enter (s_heap s0) Local_cls i) (s_locals s0) (s_events s0))
                       (InObserve m obs :: sc) ((Local_cls, i) :: env)).
      { apply enter_agrees with sc; auto; [now right|]. constructor; [|apply A0].
        simpl. rewrite nth_error_app2 by (unfold i; lia). unfold i. now rewrite Nat.sub_diag. }
      specialize (IHb U2 _ _ _ Aent).
      pose proof (hinv_run _ U2 _ (proj1 Aent)) as Hi2.
      destruct (run body (St (ctx_enter (s_heap s0) Local_cls i) (s_locals s0) (s_events s0)))
        as [s2 o2] eqn:Er.
      destruct (lexical body (InObserve m obs :: sc)) as [e1 o1].
      destruct IHb as [-> [Hev [[l Hl] _]]]. simpl in Hev, Hl, E0, Hi2. simpl.
      assert (A3 : agrees (St h3 (s_locals s2) (s_events s2)) sc env).
      { split; [|split]; simpl.
        - unfold ctx_exit in E0.
          destruct (get_contexts (s_heap s2) Local_cls) as [[h1 o3] l1] eqn:E.
          destruct (hinv_get_contexts _ _ _ _ _ Hi2 (or_intror eq_refl) E) as [B1 [-> _]].
          destruct l1; [discriminate|]. inversion E0. apply hinv_set; [assumption|now right].
        - rewrite Hl. apply match_scope_ext. apply A0.
        - intros c' Hc'. rewrite (ext_visible _ _ _ E2). now apply A0. }
      specialize (IHk o1 (U3 o1) _ _ _ A3). simpl in *.
      destruct (run (k o1) (St h3 (s_locals s2) (s_events s2))) as [s4 o4].
      destruct (lexical (k o1) sc) as [e2 o5]. destruct IHk as [-> [Hev4 [[l4 Hl4] A4]]].
      split; [reflexivity|]. split; [simpl in Hev4; now rewrite Hev4, Hev, app_assoc|].
      split; [|assumption]. exists ([(m, obs)] ++ l ++ l4). simpl in Hl4.
      rewrite Hl4, Hl. now rewrite <- !app_assoc.
    - unfold new_bn. destruct (get_context (s_heap s) Local_cls) as [h a] eqn:E.
      destruct (get_context_agrees _ _ _ _ _ _ (or_intror eq_refl) A E) as [Ha Hag].
      pose proof (lookup_obs _ _ _ (proj1 (proj2 A))) as Hlk. rewrite <- Ha in Hlk.
      rewrite Hlk.
      specialize (IHk U2 _ _ _ (Hag (s_events s ++ [EvBN (innermost_observe sc)]))).
      destruct (run k _) as [s' o]. destruct (lexical k sc) as [e o'].
      destruct IHk as [-> [Hev [Hl Ag]]]. split; [reflexivity|].
      split; [simpl in Hev; rewrite Hev, <- app_assoc; reflexivity|]. auto.
  Qed.

  Lemma agrees_init : agrees (St [] [] []) [] [].
  Proof.
    split; [|split].
    - intros c H. simpl in H. congruence.
    - constructor.
    - intros c Hc. unfold visible. simpl.
      assert (H : forall c, owner [] c = None) by (induction c0; simpl; auto).
      now rewrite H.
  Qed.
End Refine.
