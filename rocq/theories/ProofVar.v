(** Invariants of ModelVar runs, for PropVar. *)
From Coq Require Import List Arith Bool Lia.
From Verif Require Import ModelVar SpecVar.
Import ListNotations.

Definition creations (l : list event) : nat := length (filter creates l).
Definition allids (l : list event) : list nat := flat_map ids l.

Lemma creations_app : forall a b, creations (a ++ b) = creations a + creations b.
Proof. intros. unfold creations. rewrite filter_app, app_length. reflexivity. Qed.
Lemma allids_app : forall a b, allids (a ++ b) = allids a ++ allids b.
Proof. intros. apply flat_map_app. Qed.

Lemma lookup_cons_old : forall d p q v w,
  lookup d q = None -> lookup d p = Some v -> lookup ((q, w) :: d) p = Some v.
Proof. intros d p q v w A B. simpl. destruct (path_eq_dec p q); congruence. Qed.
Lemma nth_set : forall A (l : list A) i j a, i < length l ->
  nth_error (set_nth l i a) j = if Nat.eqb i j then Some a else nth_error l j.
Proof.
  induction l as [|x l IH]; intros i j a L; simpl in *; [lia|].
  destruct i, j; simpl; auto. apply IH. lia.
Qed.
Lemma length_set : forall A (l : list A) i a, length (set_nth l i a) = length l.
Proof. induction l; intros [|i] b; simpl; auto. Qed.

(** Splitting [l ++ [x]]. *)
Lemma split_snoc : forall A (l : list A) x a e b, l ++ [x] = a ++ e :: b ->
  (b = [] /\ a = l /\ e = x) \/ exists b', b = b' ++ [x] /\ l = a ++ e :: b'.
Proof.
  intros A l x a e b H. destruct (exists_last (l := e :: b) ltac:(discriminate)) as [b' [y E]].
  rewrite E, app_assoc in H. apply app_inj_tail in H as [H1 H2]. subst y.
  destruct b'; simpl in E.
  - inversion E; subst. rewrite app_nil_r. left. auto.
  - inversion E; subst. right. exists b'. auto.
Qed.

(** Models only grow. *)
Definition grows (x y : model) : Prop :=
  m_scope y = m_scope x /\ m_reuse y = m_reuse x /\ m_args y = m_args x /\
  (forall p, m_vs x = Some p -> m_vs y = Some p) /\ (m_called x = true -> m_called y = true).
Lemma grows_refl : forall x, grows x x.
Proof. intros x. repeat split; auto. Qed.
Lemma grows_trans : forall x y z, grows x y -> grows y z -> grows x z.
Proof. intros x y z (a&b&c&d&e) (a'&b'&c'&d'&e'). repeat split; try congruence; auto. Qed.

Record grow (s s' : st) : Prop := {
  g_vars : forall p v, lookup (s_vars s) p = Some v -> lookup (s_vars s') p = Some v;
  g_models : forall m x, nth_error (s_models s) m = Some x -> exists y, nth_error (s_models s') m = Some y /\ grows x y;
  g_calls : s_calls s <= s_calls s';
  g_log : exists ext, s_log s' = s_log s ++ ext /\ s_next s' = s_next s + creations ext /\
          (forall m c q r, In (Began m c q r) ext -> s_calls s <= c) /\
          (forall m c o, In (Ended m c o) ext -> s_calls s <= c) }.

Lemma grow_refl : forall s, grow s s.
Proof.
  intros s. constructor; auto.
  - intros m x H. exists x. split; auto. apply grows_refl.
  - exists []. rewrite app_nil_r. cbn. repeat split; auto; tauto.
Qed.
Lemma grow_trans : forall a b c, grow a b -> grow b c -> grow a c.
Proof.
  intros a b c [v1 m1 c1 (e1&l1&n1&b1&d1)] [v2 m2 c2 (e2&l2&n2&b2&d2)]. constructor; auto; try lia.
  - intros m x H. destruct (m1 m x H) as (y&Hy&G). destruct (m2 m y Hy) as (z&Hz&G').
    exists z. split; auto. eapply grows_trans; eauto.
  - exists (e1 ++ e2). rewrite app_assoc, <- l1, l2. split; [reflexivity|]. rewrite creations_app. split; [lia|].
    split.
    + intros m k q r H. apply in_app_or in H as [H|H]; [eapply b1; eauto|]. apply b2 in H. lia.
    + intros m k o H. apply in_app_or in H as [H|H]; [eapply d1; eauto|]. apply d2 in H. lia.
Qed.

(** The scope an observe() of a model opens when called from scope [q]. *)
Definition base (x : model) (q : path) : option path :=
  if m_reuse x then option_map fst (m_vs x)
  else Some (match m_scope x with Some n => q ++ [n] | None => q end).
Lemma base_grows : forall x y q p, grows x y -> base x q = Some p -> base y q = Some p.
Proof.
  intros x y q p (a&b&c&d&e) H. unfold base in *. rewrite b, a.
  destruct (m_reuse x); auto. destruct (m_vs x) as [pr|]; [|discriminate]. rewrite (d pr eq_refl). exact H.
Qed.

(** What an event may be, given the record before it. *)
Definition ev_ok (s : st) (a : list event) (e : event) : Prop :=
  match e with
  | Got w n v b =>
      (b = true -> ~ In v (allids a)) /\
      match w with
      | Some (m, c') => sharing s m -> (exists c, c < c' /\ In (Ended m c true) a) -> b = false
      | None => True
      end
  | Made v => ~ In v (allids a)
  | Ended m c' true =>
      sharing s m -> forall l1 c l2 q r l3, a = l1 ++ Ended m c true :: l2 ++ Began m c' q r :: l3 -> creations l3 = 0
  | _ => True
  end.

Definition ev_model (e : event) : option nat :=
  match e with
  | Began m _ _ _ => Some m
  | Ended m _ _ => Some m
  | Got (Some (m, _)) _ _ _ => Some m
  | _ => None
  end.

Record core (strict : bool) (s : st) : Prop := {
  c_ids : forall p v, lookup (s_vars s) p = Some v -> v < s_next s;
  c_logids : forall v, In v (allids (s_log s)) -> v < s_next s;
  c_began : forall m c q r, In (Began m c q r) (s_log s) -> c < s_calls s;
  c_ended : forall m c o, In (Ended m c o) (s_log s) -> c < s_calls s;
  c_model : forall e m, In e (s_log s) -> ev_model e = Some m -> m < length (s_models s);
  c_unbegun : forall m x, nth_error (s_models s) m = Some x -> m_vs x <> None ->
              exists c q r, In (Began m c q r) (s_log s);
  c_scope : forall m x, nth_error (s_models s) m = Some x -> m_reuse x = true -> m_scope x <> None;
  c_calledvs : forall m x, nth_error (s_models s) m = Some x -> m_called x = true -> m_vs x <> None;
  c_called : forall m c x, In (Ended m c true) (s_log s) -> nth_error (s_models s) m = Some x ->
             m_reuse x = true -> m_called x = true;
  c_base : forall m c n v b, In (Got (Some (m, c)) n v b) (s_log s) ->
           exists x q r p, nth_error (s_models s) m = Some x /\ In (Began m c q r) (s_log s) /\
             base x q = Some p /\ lookup (s_vars s) (p ++ n) = Some v;
  c_uniq : forall m c q r m' q' r', In (Began m c q r) (s_log s) -> In (Began m' c q' r') (s_log s) ->
           m' = m /\ q' = q /\ r' = r;
  c_past : forall a e b, s_log s = a ++ e :: b -> ev_ok s a e;
  c_first : strict = true -> forall m c n v b q, In (Got (Some (m, c)) n v b) (s_log s) ->
            In (Began m c q false) (s_log s) -> (sharing s m -> first_call (s_log s) m c) -> b = true }.

Record site_ok (strict : bool) (s : st) : Prop := {
  k_base : forall m c, s_site s = Some (m, c) ->
           exists x q r p, nth_error (s_models s) m = Some x /\ In (Began m c q r) (s_log s) /\
             base x q = Some p /\ s_cur s = p ++ s_rel s;
  k_later : forall m c' c, s_site s = Some (m, c') -> sharing s m -> In (Ended m c true) (s_log s) -> c < c' ->
            s_reuse s = true;
  k_first : strict = true -> forall m c q, s_site s = Some (m, c) -> In (Began m c q false) (s_log s) ->
            (sharing s m -> first_call (s_log s) m c) -> s_reuse s = false }.

Definition frame (s s' : st) : Prop :=
  s_cur s' = s_cur s /\ s_reuse s' = s_reuse s /\ s_site s' = s_site s /\ s_rel s' = s_rel s.
Lemma frame_refl : forall s, frame s s.
Proof. repeat split. Qed.
Lemma frame_trans : forall a b c, frame a b -> frame b c -> frame a c.
Proof. unfold frame. intuition congruence. Qed.

Lemma sharing_grow : forall s s' m, grow s s' -> sharing s m -> sharing s' m.
Proof.
  intros s s' m G (x&H&R). destruct (g_models _ _ G m x H) as (y&Hy&(_&E&_)). exists y. split; auto. congruence.
Qed.
Lemma sharing_back : forall s s' m, grow s s' -> m < length (s_models s) -> sharing s' m -> sharing s m.
Proof.
  intros s s' m G L (y&Hy&R). destruct (nth_error (s_models s) m) as [x|] eqn:E.
  - destruct (g_models _ _ G m x E) as (z&Hz&(_&E'&_)). exists x. split; auto. congruence.
  - apply nth_error_None in E. lia.
Qed.

Lemma site_grow : forall strict s s', core strict s -> site_ok strict s -> grow s s' -> frame s s' -> site_ok strict s'.
Proof.
  intros strict s s' C [kb kl kf] G (Fc&Fr&Fs&Fe).
  destruct (g_log _ _ G) as (ext&L&_&Bx&Ex).
  assert (Hc : forall m c, s_site s' = Some (m, c) -> m < length (s_models s) /\ c < s_calls s).
  { intros m c H. rewrite Fs in H. destruct (kb m c H) as (x&q&r&p&Hx&Hb&_). split.
    - apply nth_error_Some. congruence.
    - eapply c_began; eauto. }
  constructor.
  - intros m c H. rewrite Fs in H. destruct (kb m c H) as (x&q&r&p&Hx&Hb&Hp&Hq).
    destruct (g_models _ _ G m x Hx) as (y&Hy&Gr). exists y, q, r, p. split; auto. split.
    { rewrite L. apply in_or_app. auto. } split; [eapply base_grows; eauto|]. congruence.
  - intros m c' c H T E Lt. destruct (Hc m c' H) as [Lm Lc]. rewrite Fr. rewrite Fs in H.
    eapply kl; eauto. { eapply sharing_back; eauto. }
    rewrite L in E. apply in_app_or in E as [E|E]; auto. apply Ex in E. lia.
  - intros S m c q H B F. destruct (Hc m c H) as [Lm Lc]. rewrite Fr. rewrite Fs in H.
    eapply (kf S m c q); eauto.
    + rewrite L in B. apply in_app_or in B as [B|B]; auto. apply Bx in B. lia.
    + intros T c0 q0 r0 I0. eapply (F (sharing_grow _ _ _ G T)). rewrite L. apply in_or_app. eauto.
Qed.

Definition good (strict : bool) (f : st -> st * outcome) : Prop :=
  forall s s' o, core strict s -> site_ok strict s -> f s = (s', o) -> core strict s' /\ grow s s' /\ frame s s'.

(** Adding an event. *)
Lemma past_snoc : forall s s' e, grow s s' ->
  (forall e m, In e (s_log s) -> ev_model e = Some m -> m < length (s_models s)) ->
  (forall a e b, s_log s = a ++ e :: b -> ev_ok s a e) ->
  s_log s' = s_log s ++ [e] -> ev_ok s' (s_log s) e ->
  forall a e b, s_log s' = a ++ e :: b -> ev_ok s' a e.
Proof.
  intros s s' e G M P L N a e0 b H. rewrite L in H.
  destruct (split_snoc _ _ _ _ _ _ H) as [(_&->&->)|(b'&_&H')]; [exact N|].
  specialize (P a e0 b' H'). assert (I0 : In e0 (s_log s)) by (rewrite H'; apply in_elt).
  destruct e0 as [m c q r|[[m c]|] n v bb|v|m c [|]]; cbn in *; auto.
  - destruct P as [P1 P2]. split; auto. intros T E. apply P2; auto. eapply sharing_back; eauto.
  - intros T. apply P. eapply sharing_back; eauto.
Qed.
Lemma past_same : forall s s', grow s s' ->
  (forall e m, In e (s_log s) -> ev_model e = Some m -> m < length (s_models s)) ->
  (forall a e b, s_log s = a ++ e :: b -> ev_ok s a e) ->
  s_log s' = s_log s ->
  forall a e b, s_log s' = a ++ e :: b -> ev_ok s' a e.
Proof.
  intros s s' G M P L a e0 b H. rewrite L in H.
  specialize (P a e0 b H). assert (I0 : In e0 (s_log s)) by (rewrite H; apply in_elt).
  destruct e0 as [m c q r|[[m c]|] n v bb|v|m c [|]]; cbn in *; auto.
  - destruct P as [P1 P2]. split; auto. intros T E. apply P2; auto. eapply sharing_back; eauto.
  - intros T. apply P. eapply sharing_back; eauto.
Qed.

(** tf.get_variable *)
Lemma get_good : forall strict n s s' o, core strict s -> site_ok strict s -> get_variable n s = (s', o) ->
  core strict s' /\ grow s s' /\ frame s s'.
Proof.
  intros strict n s s' o C K H. unfold get_variable in H.
  destruct (lookup (s_vars s) (s_cur s ++ [n])) as [v|] eqn:E; destruct (s_reuse s) eqn:R;
    inversion H; subst; clear H;
    try (split; [assumption|]; split; [apply grow_refl|apply frame_refl]).
  - set (e := Got (s_site s) (s_rel s ++ [n]) v false).
    match goal with |- core _ ?x /\ _ => set (s' := x) end.
    assert (G : grow s s').
    { constructor; cbn; auto.
      - intros m x H. exists x. split; auto. apply grows_refl.
      - exists [e]. split; auto. split; [cbn; lia|]. split; intros; cbn in *; intuition discriminate. }
    split; [|split; [exact G|repeat split; cbn; auto]].
    destruct C. constructor; cbn; auto.
    + intros w Hw. rewrite allids_app in Hw. apply in_app_or in Hw as [Hw|[Hw|[]]]; auto. cbn in Hw. subst w. eauto.
    + intros m c q r Hi. apply in_app_or in Hi as [Hi|[Hi|[]]]; [eauto|discriminate].
    + intros m c q Hi. apply in_app_or in Hi as [Hi|[Hi|[]]]; [eauto|discriminate].
    + intros e' m Hi Em. apply in_app_or in Hi as [Hi|[Hi|[]]]; [eauto|]. subst e'. cbn in Em.
      destruct (s_site s) as [[m' c]|] eqn:Es; [|discriminate]. inversion Em; subst m'.
      destruct (k_base _ _ K m c Es) as (x&q&r&p&Hx&_). apply nth_error_Some. congruence.
    + intros m x Hx Hv. destruct (c_unbegun0 m x Hx Hv) as (c&q&r&Hi). exists c, q, r. apply in_or_app. auto.
    + intros m c x Hi. apply in_app_or in Hi as [Hi|[Hi|[]]]; [eauto|discriminate].
    + intros m c nm w b Hi. apply in_app_or in Hi as [Hi|[Hi|[]]].
      * destruct (c_base0 m c nm w b Hi) as (x&q&r&p&Hx&Hb&Hp&Hl). exists x, q, r, p. repeat split; auto. apply in_or_app; auto.
      * inversion Hi; subst. destruct (k_base _ _ K m c H0) as (x&q&r&p&Hx&Hb&Hp&Hc).
        exists x, q, r, p. repeat split; auto. { apply in_or_app; auto. } rewrite app_assoc, <- Hc. exact E.
    + intros m c q r m' q' r' Hi Hj. apply in_app_or in Hi as [Hi|[Hi|[]]]; [|discriminate].
      apply in_app_or in Hj as [Hj|[Hj|[]]]; [eauto|discriminate].
    + change (s_log s ++ [e]) with (s_log s'). eapply (past_snoc s s' e); eauto. cbn. split; [discriminate|].
      destruct (s_site s) as [[m c]|]; auto.
    + intros S m c nm w b q Hi Hb F. apply in_app_or in Hb as [Hb|[Hb|[]]]; [|discriminate].
      assert (F' : sharing s m -> first_call (s_log s) m c).
      { intros T c0 q0 r0 I0. eapply (F (sharing_grow _ _ _ G T)). apply in_or_app. eauto. }
      apply in_app_or in Hi as [Hi|[Hi|[]]]; [eauto|]. inversion Hi; subst.
      rewrite (k_first _ _ K eq_refl m c q H0 Hb F') in R. discriminate.
  - set (e := Got (s_site s) (s_rel s ++ [n]) (s_next s) true).
    match goal with |- core _ ?x /\ _ => set (s' := x) end.
    assert (G : grow s s').
    { constructor; cbn [s' s_vars s_models s_calls s_log s_next]; auto.
      - intros p v H. apply lookup_cons_old; auto.
      - intros m x H. exists x. split; auto. apply grows_refl.
      - exists [e]. split; auto. split; [cbn; lia|]. split; intros; cbn in *; intuition discriminate. }
    split; [|split; [exact G|repeat split; cbn; auto]].
    destruct C. constructor; cbn [s' s_vars s_models s_calls s_log s_next]; auto.
    + intros p v. simpl. destruct (path_eq_dec p (s_cur s ++ [n])); intros Hl; [inversion Hl; lia|]. apply c_ids0 in Hl. lia.
    + intros w Hw. rewrite allids_app in Hw. apply in_app_or in Hw as [Hw|[Hw|[]]]; [apply c_logids0 in Hw; lia|]. cbn in Hw. lia.
    + intros m c q r Hi. apply in_app_or in Hi as [Hi|[Hi|[]]]; [eauto|discriminate].
    + intros m c q Hi. apply in_app_or in Hi as [Hi|[Hi|[]]]; [eauto|discriminate].
    + intros e' m Hi Em. apply in_app_or in Hi as [Hi|[Hi|[]]]; [eauto|]. subst e'. cbn in Em.
      destruct (s_site s) as [[m' c]|] eqn:Es; [|discriminate]. inversion Em; subst m'.
      destruct (k_base _ _ K m c Es) as (x&q&r&p&Hx&_). apply nth_error_Some. congruence.
    + intros m x Hx Hv. destruct (c_unbegun0 m x Hx Hv) as (c&q&r&Hi). exists c, q, r. apply in_or_app. auto.
    + intros m c x Hi. apply in_app_or in Hi as [Hi|[Hi|[]]]; [eauto|discriminate].
    + intros m c nm w b Hi. apply in_app_or in Hi as [Hi|[Hi|[]]].
      * destruct (c_base0 m c nm w b Hi) as (x&q&r&p&Hx&Hb&Hp&Hl). exists x, q, r, p. repeat split; auto.
        { apply in_or_app; auto. } apply lookup_cons_old; auto.
      * inversion Hi; subst. destruct (k_base _ _ K m c H0) as (x&q&r&p&Hx&Hb&Hp&Hc).
        exists x, q, r, p. repeat split; auto. { apply in_or_app; auto. } rewrite app_assoc, <- Hc. simpl.
        destruct (path_eq_dec (s_cur s ++ [n]) (s_cur s ++ [n])); congruence.
    + intros m c q r m' q' r' Hi Hj. apply in_app_or in Hi as [Hi|[Hi|[]]]; [|discriminate].
      apply in_app_or in Hj as [Hj|[Hj|[]]]; [eauto|discriminate].
    + change (s_log s ++ [e]) with (s_log s'). eapply (past_snoc s s' e); eauto. cbn. split.
      * intros _ Hi. apply c_logids0 in Hi. lia.
      * destruct (s_site s) as [[m c]|] eqn:Es; auto. intros T (c0&Lt&Hi). exfalso.
        assert (T' : sharing s m) by (destruct T as (x&Hx&Rx); exists x; auto).
        rewrite (k_later _ _ K m c c0 Es T' Hi Lt) in R. discriminate.
    + intros S m c nm w b q Hi Hb F. apply in_app_or in Hb as [Hb|[Hb|[]]]; [|discriminate].
      assert (F' : sharing s m -> first_call (s_log s) m c).
      { intros T c0 q0 r0 I0. eapply (F (sharing_grow _ _ _ G T)). apply in_or_app. eauto. }
      apply in_app_or in Hi as [Hi|[Hi|[]]]; [eauto|]. inversion Hi; subst. reflexivity.
Qed.

(** Events other than Got. *)
Lemma note_core : forall strict s e calls next,
  core strict s -> s_calls s <= calls -> next = s_next s + creations [e] ->
  (forall v, In v (ids e) -> v < next) ->
  (forall m, ev_model e = Some m -> m < length (s_models s)) ->
  (match e with
   | Began m c _ _ => c = s_calls s /\ c < calls
   | Got _ _ _ _ => False
   | Ended m c true => s_calls s <= calls /\ (forall x, nth_error (s_models s) m = Some x -> m_reuse x = true -> m_called x = true)
   | _ => True
   end) ->
  (forall m c o, e = Ended m c o -> c < calls) ->
  ev_ok s (s_log s) e ->
  core strict (St (s_vars s) next (s_open s) (s_cur s) (s_reuse s) (s_models s) (s_site s) (s_rel s) calls (s_log s ++ [e])).
Proof.
  intros strict s e calls next C Lc En Hi Hm He Hd Ho.
  match goal with |- core _ ?x => set (s' := x) end.
  assert (GM : forall m, sharing s' m <-> sharing s m) by (intros; reflexivity).
  destruct C. constructor; cbn [s' s_vars s_models s_calls s_log s_next]; auto.
  - intros p v Hl. apply c_ids0 in Hl. lia.
  - intros v Hv. rewrite allids_app in Hv. apply in_app_or in Hv as [Hv|Hv]; [apply c_logids0 in Hv; lia|].
    cbn in Hv. rewrite app_nil_r in Hv. auto.
  - intros m c q r H. apply in_app_or in H as [H|[H|[]]]; [apply c_began0 in H; lia|]. subst e. lia.
  - intros m c o H. apply in_app_or in H as [H|[H|[]]]; [apply c_ended0 in H; lia|]. eauto.
  - intros e' m H Em. apply in_app_or in H as [H|[H|[]]]; [eauto|]. subst e'. eauto.
  - intros m x Hx Hv. destruct (c_unbegun0 m x Hx Hv) as (c&q&r&H). exists c, q, r. apply in_or_app. auto.
  - intros m c x H Hx Rx. apply in_app_or in H as [H|[H|[]]]; [eauto|]. subst e. destruct He as [_ He]. auto.
  - intros m c nm w b H. apply in_app_or in H as [H|[H|[]]].
    + destruct (c_base0 m c nm w b H) as (x&q&r&p&Hx&Hb&Hp&Hl). exists x, q, r, p. repeat split; auto. apply in_or_app; auto.
    + subst e. destruct He.
  - intros m c q r m' q' r' H1 H2.
    apply in_app_or in H1 as [H1|[H1|[]]]; apply in_app_or in H2 as [H2|[H2|[]]].
    + eauto.
    + subst e. destruct He as [-> _]. apply c_began0 in H1. lia.
    + subst e. destruct He as [-> _]. apply c_began0 in H2. lia.
    + rewrite H1 in H2. inversion H2. auto.
  - intros a e0 b H. destruct (split_snoc _ _ _ _ _ _ H) as [(_&->&->)|(b'&_&H')]; [exact Ho|]. exact (c_past0 _ _ _ H').
  - intros S m c nm w b q Hg Hb F. apply in_app_or in Hg as [Hg|[Hg|[]]]; [|subst e; destruct He].
    assert (Hb' : In (Began m c q false) (s_log s)).
    { apply in_app_or in Hb as [Hb|[Hb|[]]]; auto. destruct (c_base0 m c nm w b Hg) as (x&q0&r0&p&_&Hb0&_).
      subst e. destruct He as [-> _]. apply c_began0 in Hb0. lia. }
    eapply (c_first0 S m c nm w b q); eauto. intros T c0 q0 r0 I0. eapply (F T). apply in_or_app. eauto.
Qed.

(** Changing a model. *)
Lemma set_model_eq : forall m f s x, nth_error (s_models s) m = Some x ->
  forall j, nth_error (s_models (set_model m f s)) j = if Nat.eqb m j then Some (f x) else nth_error (s_models s) j.
Proof.
  intros m f s x H j. unfold set_model. rewrite H. cbn. apply nth_set. apply nth_error_Some. congruence.
Qed.
Lemma set_model_grow : forall m f s, (forall x, nth_error (s_models s) m = Some x -> grows x (f x)) -> grow s (set_model m f s).
Proof.
  intros m f s H. unfold set_model. destruct (nth_error (s_models s) m) as [x|] eqn:E; [|apply grow_refl].
  constructor; cbn; auto.
  - intros j y Hy. rewrite nth_set by (apply nth_error_Some; congruence).
    destruct (Nat.eqb m j) eqn:Ej; [|exists y; split; auto; apply grows_refl].
    apply Nat.eqb_eq in Ej. subst j. rewrite E in Hy. inversion Hy; subst. eauto.
  - exists []. rewrite app_nil_r. cbn. repeat split; auto; tauto.
Qed.
Lemma set_model_frame : forall m f s, frame s (set_model m f s).
Proof. intros m f s. unfold set_model. destruct (nth_error _ _); repeat split. Qed.

Lemma set_model_core : forall strict m f s, core strict s ->
  (forall x, nth_error (s_models s) m = Some x -> grows x (f x)) ->
  (exists c q r, In (Began m c q r) (s_log s)) ->
  (forall x, nth_error (s_models s) m = Some x -> m_called (f x) = true -> m_vs (f x) <> None) ->
  core strict (set_model m f s).
Proof.
  intros strict m f s C Hg Hb Hv. pose proof (set_model_grow m f s Hg) as G.
  destruct (nth_error (s_models s) m) as [x|] eqn:E; [|unfold set_model; rewrite E; exact C].
  pose proof (set_model_eq m f s x E) as EQ.
  assert (Hsame : s_vars (set_model m f s) = s_vars s /\ s_next (set_model m f s) = s_next s /\
                  s_calls (set_model m f s) = s_calls s /\ s_log (set_model m f s) = s_log s /\
                  length (s_models (set_model m f s)) = length (s_models s)).
  { unfold set_model. rewrite E. cbn. rewrite length_set. auto. }
  destruct Hsame as (S1&S2&S3&S4&S5). set (s' := set_model m f s) in *.
  destruct C. constructor; rewrite ?S1, ?S2, ?S3, ?S4, ?S5; auto.
  - intros j y Hy Vy. rewrite EQ in Hy. destruct (Nat.eqb m j) eqn:Ej; [|eauto].
    apply Nat.eqb_eq in Ej. subst j. exact Hb.
  - intros j y Hy Ry. rewrite EQ in Hy. destruct (Nat.eqb m j) eqn:Ej; [|eauto]. inversion Hy; subst.
    destruct (Hg x eq_refl) as (Sg&Rg&_). rewrite Sg. apply (c_scope0 m x E). congruence.
  - intros j y Hy Cy. rewrite EQ in Hy. destruct (Nat.eqb m j) eqn:Ej; [|eauto]. inversion Hy; subst. eauto.
  - intros j c y Hi Hy Ry. rewrite EQ in Hy. destruct (Nat.eqb m j) eqn:Ej; [|eauto].
    apply Nat.eqb_eq in Ej. subst j. inversion Hy; subst y. destruct (Hg x eq_refl) as (_&Rg&_&_&Cg). apply Cg.
    eapply c_called0; eauto; congruence.
  - intros j c n v b Hi. destruct (c_base0 j c n v b Hi) as (y&q&r&p&Hy&Hbb&Hp&Hl).
    destruct (g_models _ _ G j y Hy) as (z&Hz&Gz). exists z, q, r, p. repeat split; auto. eapply base_grows; eauto.
  - rewrite <- S4. eapply (past_same s s'); eauto.
  - intros S j c n v b q Hi Hbb F. eapply (c_first0 S j c n v b q); eauto.
    intros T. apply F. eapply sharing_grow; eauto.
Qed.

(** Scopes. *)
Lemma in_scope_good : forall strict by_object p reuse rel w body s s' o,
  core strict s ->
  site_ok strict (St (s_vars s) (s_next s) (p :: s_open s) p reuse (s_models s) w rel (s_calls s) (s_log s)) ->
  good strict body ->
  in_scope by_object p reuse rel w body s = (s', o) -> core strict s' /\ grow s s' /\ frame s s'.
Proof.
  intros strict by_object p reuse rel w body s s' o C K B H. unfold in_scope in H.
  destruct (body _) as [s1 o1] eqn:E. inversion H; subst; clear H.
  assert (C0 : core strict (St (s_vars s) (s_next s) (p :: s_open s) p reuse (s_models s) w rel (s_calls s) (s_log s))).
  { destruct C. constructor; auto. }
  destruct (B _ _ _ C0 K E) as (C1&G1&_). split; [|split; [|repeat split]].
  - destruct C1. constructor; auto.
  - destruct G1. constructor; auto.
Qed.
Lemma good_andthen : forall strict f k s s' o,
  (forall s' o, f s = (s', o) -> core strict s' /\ grow s s' /\ frame s s') -> good strict k ->
  core strict s -> site_ok strict s -> andthen (f s) k = (s', o) -> core strict s' /\ grow s s' /\ frame s s'.
Proof.
  intros strict f k s s' o F G C K H. destruct (f s) as [s1 [|]] eqn:E; cbn in H.
  - destruct (F _ _ eq_refl) as (C1&G1&F1). destruct (G s1 s' o C1 (site_grow _ _ _ C K G1 F1) H) as (C2&G2&F2).
    split; auto. split; [eapply grow_trans; eauto|eapply frame_trans; eauto].
  - inversion H; subst. eauto.
Qed.

(** A nested named scope keeps the site. *)
Lemma site_enter : forall strict s n reuse opened, (reuse = s_reuse s) -> core strict s -> site_ok strict s ->
  site_ok strict (St (s_vars s) (s_next s) opened (s_cur s ++ [n]) reuse (s_models s) (s_site s) (s_rel s ++ [n]) (s_calls s) (s_log s)).
Proof.
  intros strict s n reuse opened -> C [kb kl kf]. constructor; cbn; auto.
  intros m c H. destruct (kb m c H) as (x&q&r&p&Hx&Hb&Hp&Hc). exists x, q, r, p. repeat split; auto.
  rewrite Hc, app_assoc. reflexivity.
Qed.

(** Calls. *)
Lemma call_func_good : forall strict eager m was body x c0 q0 r0,
  good strict body ->
  forall s s' o, core strict s -> site_ok strict s ->
  nth_error (s_models s) m = Some x -> m_vs x <> None -> In (Began m c0 q0 r0) (s_log s) ->
  call_func eager m was body s = (s', o) ->
  core strict s' /\ grow s s' /\ frame s s' /\
  (o = Fine -> (exists y, nth_error (s_models s') m = Some y /\ (was = false \/ m_called x = true -> m_called y = true)) /\
               (was = true -> s_next s' = s_next s)).
Proof.
  intros strict eager m was body x c0 q0 r0 B s s' o C K Hx Hv Hb H. unfold call_func in H.
  assert (Hg : forall s y, nth_error (s_models s) m = Some y -> grows y (mark_called y)).
  { intros. unfold mark_called. repeat split; auto. }
  set (s0 := if eager then set_model m mark_called s else s) in *.
  assert (A : core strict s0 /\ grow s s0 /\ frame s s0 /\ s_next s0 = s_next s).
  { unfold s0. destruct eager.
    - split; [|split; [|split]].
      + apply set_model_core; eauto. intros y Hy _. rewrite Hx in Hy. inversion Hy; subst. exact Hv.
      + apply set_model_grow; eauto.
      + apply set_model_frame.
      + unfold set_model. rewrite Hx. reflexivity.
    - split; auto. split; [apply grow_refl|]. split; [apply frame_refl|reflexivity]. }
  destruct A as (C0&G0&F0&N0). destruct (body s0) as [s1 o1] eqn:E.
  pose proof (site_grow strict s s0 C K G0 F0) as K0.
  destruct (B _ _ _ C0 K0 E) as (C1&G1&F1).
  assert (G01 : grow s s1) by (eapply grow_trans; eauto).
  assert (F01 : frame s s1) by (eapply frame_trans; eauto).
  destruct (g_models _ _ G01 m x Hx) as (y&Hy&Gy).
  assert (Vy : m_vs y <> None). { destruct Gy as (_&_&_&V&_). destruct (m_vs x) as [pr|]; [|congruence]. rewrite (V pr eq_refl). discriminate. }
  destruct o1; [destruct was|]; inversion H; subst; clear H.
  - split; [exact C1|split; [exact G01|split; [exact F01|]]].
    intros Ho. split.
    + exists y. split; auto. intros [W|W]; [discriminate|]. destruct Gy as (_&_&_&_&Cg). auto.
    + intros _. destruct (Nat.eqb _ _) eqn:En in Ho; [|discriminate]. apply Nat.eqb_eq in En. congruence.
  - split; [|split; [|split]].
    + apply set_model_core; eauto.
      * destruct (g_log _ _ G01) as (ext&L&_). exists c0, q0, r0. rewrite L. apply in_or_app. auto.
      * intros z Hz _. rewrite Hy in Hz. inversion Hz; subst. exact Vy.
    + eapply grow_trans; [exact G01|]. apply set_model_grow; eauto.
    + eapply frame_trans; [exact F01|]. apply set_model_frame.
    + intros _. split; [|discriminate]. exists (mark_called y). split; [|auto].
      rewrite (set_model_eq m mark_called s1 y Hy), Nat.eqb_refl. reflexivity.
  - split; [exact C1|split; [exact G01|split; [exact F01|discriminate]]].
Qed.

Lemma good_failed : forall strict, good strict (fun s => (s, Failed)).
Proof. intros strict s s' o C K H. inversion H; subst. split; auto. split; [apply grow_refl|apply frame_refl]. Qed.

(** A whole observe(). *)
Lemma observe_good : forall strict eager m body, good strict body -> good strict (observe eager m body).
Proof.
  intros strict eager m body B s s' o C K H. unfold observe in H.
  destruct (nth_error (s_models s) m) as [x|] eqn:Hx;
    [|inversion H; subst; split; [assumption|split; [apply grow_refl|apply frame_refl]]].
  set (c := s_calls s) in *.
  match type of H with context [call _ _ _ _ _ ?y] => set (s1 := y) in * end.
  assert (Lm : m < length (s_models s)) by (apply nth_error_Some; congruence).
  assert (C1 : core strict s1).
  { unfold s1, note. cbn. apply (note_core strict s (Began m c (s_cur s) (s_reuse s)) (S c) (s_next s)); cbn; auto; try lia; try tauto.
    - intros m' E. inversion E; subst. exact Lm.
    - discriminate. }
  assert (G1 : grow s s1).
  { unfold s1, note. constructor; cbn; auto.
    - intros j y Hy. exists y. split; auto. apply grows_refl.
    - exists [Began m c (s_cur s) (s_reuse s)]. split; auto. split; [cbn; lia|]. split.
      + intros m' c' q r [E|[]]. inversion E; subst. auto.
      + intros m' c' ok [E|[]]. discriminate. }
  assert (F1 : frame s s1) by (repeat split).
  assert (Hb1 : In (Began m c (s_cur s) (s_reuse s)) (s_log s1)) by (unfold s1, note; cbn; apply in_or_app; cbn; auto).
  assert (Only : forall q r, In (Began m c q r) (s_log s1) -> q = s_cur s /\ r = s_reuse s).
  { intros q r Hi. destruct (c_uniq _ _ C1 m c _ _ m q r Hb1 Hi) as (_&A1&A2). auto. }
  assert (NotYet : forall c0, In (Ended m c0 true) (s_log s1) -> In (Ended m c0 true) (s_log s)).
  { intros c0 Hi. unfold s1, note in Hi. cbn in Hi. apply in_app_or in Hi as [Hi|[Hi|[]]]; [exact Hi|discriminate]. }
  assert (X : forall s2 o2, call eager m x (Some (m, c)) body s1 = (s2, o2) ->
              core strict s2 /\ grow s1 s2 /\ frame s1 s2 /\
              (o2 = Fine -> m_reuse x = true ->
                 (exists y, nth_error (s_models s2) m = Some y /\ m_called y = true) /\
                 (m_called x = true -> s_next s2 = s_next s1))).
  { intros s2 o2 E. unfold call in E. destruct (m_scope x) as [n|] eqn:Sc; [destruct (m_reuse x) eqn:Re|].
    - (* template *)
      destruct (m_args x); [|inversion E; subst; split; [exact C1|split; [apply grow_refl|split; [apply frame_refl|discriminate]]]].
      unfold template_call in E. destruct (m_vs x) as [[p r]|] eqn:Vs.
      + unfold in_scope in E.
        match type of E with (let '(_, _) := ?f ?y in _) = _ => set (s3 := y) in *; destruct (f s3) as [s4 o4] eqn:E4 end.
        assert (C3 : core strict s3) by (destruct C1; constructor; auto).
        assert (K3 : site_ok strict s3).
        { constructor; cbn [s3 s_site s_models s_log s_reuse s_cur s_rel].
          - intros m' c' Eq. inversion Eq; subst m' c'. exists x, (s_cur s), (s_reuse s), p.
            split; [exact Hx|split; [exact Hb1|split; [unfold base; rewrite Re, Vs; reflexivity|rewrite app_nil_r; reflexivity]]].
          - intros m' c' c0 Eq T Hi Lt. inversion Eq; subst m' c'. rewrite (c_called _ _ C1 m c0 x Hi Hx Re). apply orb_true_r.
          - intros S m' c' q Eq Hi F. inversion Eq; subst m' c'. exfalso.
            destruct (c_unbegun _ _ C m x Hx ltac:(congruence)) as (c0&q0&r0&H0).
            assert (L0 : c <= c0). { eapply F; [exists x; auto|]. unfold s1, note. cbn. apply in_or_app. left. exact H0. }
            apply (c_began _ _ C) in H0. unfold c in L0. lia. }
        destruct (call_func_good strict eager m (m_called x) body x c (s_cur s) (s_reuse s) B s3 s4 o4 C3 K3 Hx ltac:(congruence) Hb1 E4)
          as (C4&G4&F4&P4).
        inversion E; subst s2 o2; clear E. split; [destruct C4; constructor; auto|]. split; [destruct G4; constructor; auto|].
        split; [repeat split|]. intros -> _. destruct (P4 eq_refl) as ((y&Hy&Cy)&N). split.
        * exists y. split; [exact Hy|]. apply Cy. destruct (m_called x); auto.
        * exact N.
      + unfold in_scope in E.
        set (p := s_cur s1 ++ [unique (s_open s1) (s_cur s1) n]) in *.
        match type of E with context [set_model m _ ?y] => set (s3 := y) in * end.
        match type of E with (let '(_, _) := ?y in _) = _ => destruct y as [s4 o4] eqn:E4 end.
        assert (Hx3 : nth_error (s_models s3) m = Some x) by exact Hx.
        assert (Gr : forall y, nth_error (s_models s3) m = Some y -> grows y (keep_scope p (s_reuse s1) y)).
        { intros y Hy. rewrite Hx3 in Hy. inversion Hy; subst y. unfold keep_scope. repeat split; auto. rewrite Vs. discriminate. }
        assert (C3 : core strict s3) by (destruct C1; constructor; auto).
        set (s5 := set_model m (keep_scope p (s_reuse s1)) s3) in *.
        assert (C5 : core strict s5).
        { apply set_model_core; auto. { exists c, (s_cur s), (s_reuse s). exact Hb1. } intros y Hy _. discriminate. }
        assert (G5 : grow s3 s5) by (apply set_model_grow; exact Gr).
        pose proof (set_model_frame m (keep_scope p (s_reuse s1)) s3) as F5. fold s5 in F5. destruct F5 as (F51&F52&F53&F54).
        assert (Hx5 : nth_error (s_models s5) m = Some (keep_scope p (s_reuse s1) x)).
        { unfold s5. rewrite (set_model_eq m _ s3 x Hx3), Nat.eqb_refl. reflexivity. }
        assert (L5 : s_log s5 = s_log s1) by (unfold s5, set_model; rewrite Hx3; reflexivity).
        assert (K5 : site_ok strict s5).
        { constructor; rewrite ?F51, ?F52, ?F53, ?F54, ?L5; cbn [s3 s_site s_reuse s_cur s_rel].
          - intros m' c' Eq. inversion Eq; subst m' c'. exists (keep_scope p (s_reuse s1) x), (s_cur s), (s_reuse s), p.
            split; [exact Hx5|split; [exact Hb1|split; [unfold base; cbn; rewrite Re; reflexivity|rewrite app_nil_r; reflexivity]]].
          - intros m' c' c0 Eq T Hi Lt. inversion Eq; subst m' c'. exfalso.
            apply (c_calledvs _ _ C1 m x Hx); auto. eapply (c_called _ _ C1); eauto.
          - intros S m' c' q Eq Hi F. inversion Eq; subst m' c'. destruct (Only q false Hi) as [_ R0]. symmetry. exact R0. }
        destruct (call_func_good strict eager m (m_called x) body _ c (s_cur s) (s_reuse s) B s5 s4 o4 C5 K5 Hx5
          ltac:(discriminate) ltac:(rewrite L5; exact Hb1) E4) as (C4&G4&F4&P4).
        assert (N5 : s_next s5 = s_next s1) by (unfold s5, set_model; rewrite Hx3; reflexivity).
        assert (G34 : grow s3 s4) by (eapply grow_trans; eauto).
        inversion E; subst s2 o2; clear E. split; [destruct C4; constructor; auto|]. split; [destruct G34; constructor; auto|].
        split; [repeat split|]. intros -> _. destruct (P4 eq_refl) as ((y&Hy&Cy)&N). split.
        * exists y. split; [exact Hy|]. apply Cy. cbn. destruct (m_called x); auto.
        * intros W. specialize (N W). cbn [s_next]. congruence.
    - (* scope without reuse *)
      assert (R : core strict s2 /\ grow s1 s2 /\ frame s1 s2).
      { eapply (in_scope_good strict _ _ _ _ _ _ _ _ _ C1); [| |exact E].
        - constructor; cbn.
          + intros m' c' Eq. inversion Eq; subst m' c'. exists x, (s_cur s), (s_reuse s), (s_cur s ++ [n]).
            split; [exact Hx|split; [exact Hb1|split; [unfold base; rewrite Re, Sc; reflexivity|rewrite app_nil_r; reflexivity]]].
          + intros m' c' c0 Eq (y&Hy&Ry). inversion Eq; subst m' c'. cbn in Hy. congruence.
          + intros S m' c' q Eq Hi F. inversion Eq; subst m' c'. destruct (Only q false Hi) as [_ R0]. symmetry. exact R0.
        - destruct (m_args x); [exact B|apply good_failed]. }
      destruct R as (R1&R2&R3). split; auto. split; auto. split; auto. discriminate.
    - (* no scope *)
      destruct (m_reuse x) eqn:Re.
      { exfalso. apply (c_scope _ _ C m x Hx Re Sc). }
      destruct (m_args x); [|inversion E; subst; split; [exact C1|split; [apply grow_refl|split; [apply frame_refl|discriminate]]]].
      destruct (body _) as [s4 o4] eqn:E4 in E.
      match type of E4 with body ?y = _ => set (s3 := y) in * end.
      assert (C3 : core strict s3) by (destruct C1; constructor; auto).
      assert (K3 : site_ok strict s3).
      { constructor; cbn.
        + intros m' c' Eq. inversion Eq; subst m' c'. exists x, (s_cur s), (s_reuse s), (s_cur s).
          split; [exact Hx|split; [exact Hb1|split; [unfold base; rewrite Re, Sc; reflexivity|rewrite app_nil_r; reflexivity]]].
        + intros m' c' c0 Eq (y&Hy&Ry). inversion Eq; subst m' c'. cbn in Hy. congruence.
        + intros S m' c' q Eq Hi F. inversion Eq; subst m' c'. destruct (Only q false Hi) as [_ R0]. symmetry. exact R0. }
      destruct (B _ _ _ C3 K3 E4) as (C4&G4&(F41&F42&_)). inversion E; subst s2 o2; clear E.
      split; [destruct C4; constructor; auto|]. split; [destruct G4; constructor; auto|].
      split; [repeat split; auto|discriminate]. }
  destruct (call eager m x (Some (m, c)) body s1) as [s2 o2] eqn:E2.
  destruct (X s2 o2 eq_refl) as (C2&G2&F2&P2). inversion H; subst s' o; clear H.
  assert (L2 : m < length (s_models s2)).
  { destruct (g_models _ _ G2 m x Hx) as (y&Hy&_). apply nth_error_Some. congruence. }
  split; [|split].
  - unfold note. apply (note_core strict s2 (Ended m c (fine o2)) (s_calls s2) (s_next s2)); [exact C2|lia|cbn; lia|intros v []| | | |].
    + intros m' E. inversion E; subst. exact L2.
    + destruct o2; cbn; auto. split; auto. intros y Hy Ry.
      destruct (g_models _ _ G2 m x Hx) as (z&Hz&(_&Rz&_)). assert (z = y) by congruence. subst z.
      destruct (P2 eq_refl ltac:(congruence)) as ((w&Hw&Cw)&_). congruence.
    + intros m' c' ok E. inversion E; subst. pose proof (g_calls _ _ G2) as L. cbn in L. lia.
    + destruct o2; cbn; auto. intros T l1 c0 l2 q r l3 EL.
      assert (T1 : sharing s1 m) by (eapply sharing_back; eauto).
      assert (Re : m_reuse x = true). { destruct T1 as (y&Hy&Ry). cbn in Hy. congruence. }
      assert (Only2 : forall q r, In (Began m c q r) (s_log s2) -> q = s_cur s /\ r = s_reuse s).
      { intros q' r' Hi. destruct (g_log _ _ G2) as (ext&L&_&Bx&_). rewrite L in Hi. apply in_app_or in Hi as [Hi|Hi]; [auto|].
        apply Bx in Hi. cbn in Hi. lia. }
      (* the last Began of this call is the one just noted *)
      destruct (g_log _ _ G2) as (ext&L&N&Bx&Dx).
      assert (L' : s_log s2 = s_log s ++ Began m c (s_cur s) (s_reuse s) :: ext).
      { rewrite L. unfold s1, note. cbn. rewrite <- app_assoc. reflexivity. }
      assert (Split : l1 ++ Ended m c0 true :: l2 = s_log s /\ l3 = ext).
      { rewrite L' in EL. rewrite app_comm_cons, app_assoc in EL.
        assert (U : forall (a b a' b' : list event) q r q' r', a ++ Began m c q r :: b = a' ++ Began m c q' r' :: b' ->
                    (forall q r, ~ In (Began m c q r) a) -> (forall q r, ~ In (Began m c q r) b) -> a' = a /\ b' = b).
        { clear. induction a as [|e a IH]; intros b a' b' q r q' r' E Na Nb; destruct a' as [|e' a']; cbn in E.
          - inversion E; auto.
          - inversion E; subst. exfalso. apply (Nb q' r'). apply in_elt.
          - inversion E; subst. exfalso. apply (Na q' r'). left. reflexivity.
          - inversion E; subst. destruct (IH b a' b' q r q' r' H1) as [-> ->]; auto. intros q0 r0 Hi. apply (Na q0 r0). right. exact Hi. }
        destruct (U _ _ _ _ _ _ _ _ EL) as [U1 U2]; auto.
        - intros q0 r0 Hi. apply (c_began _ _ C) in Hi. unfold c in Hi. lia.
        - intros q0 r0 Hi. apply Bx in Hi. cbn in Hi. lia. }
      destruct Split as [S1 S2]. subst l3.
      assert (Called : m_called x = true).
      { eapply (c_called _ _ C m c0 x); auto. rewrite <- S1. apply in_elt. }
      destruct (P2 eq_refl Re) as (_&N2). specialize (N2 Called). lia.
  - pose proof (grow_trans _ _ _ G1 G2) as G. destruct (g_log _ _ G) as (ext&L&N&Bx&Dx). unfold note. constructor; cbn.
    + exact (g_vars _ _ G).
    + exact (g_models _ _ G).
    + exact (g_calls _ _ G).
    + exists (ext ++ [Ended m c (fine o2)]). rewrite L, app_assoc. split; auto. rewrite creations_app. split; [cbn; lia|]. split.
      * intros m' c' q r Hi. apply in_app_or in Hi as [Hi|[Hi|[]]]; [eauto|discriminate].
      * intros m' c' ok Hi. apply in_app_or in Hi as [Hi|[Hi|[]]]; [eauto|]. inversion Hi; subst. auto.
  - eapply frame_trans; [exact F1|]. destruct F2 as (A1&A2&A3&A4). repeat split; auto.
Qed.

Lemma good_ret : forall strict o, good strict (fun s => (s, o)).
Proof. intros strict o0 s s' o C K H. inversion H; subst. split; auto. split; [apply grow_refl|apply frame_refl]. Qed.

(** Every program. *)
Theorem run_good : forall eager strict p, (strict = true -> no_reuse_scopes p) -> good strict (run eager p).
Proof.
  intros eager strict. induction p as [o|n k IH|k IH|n b IHb k IHk|n b IHb k IHk|b IHb k IHk|b IHb k IHk|args scope reuse k IH|m b IHb k IHk];
    intros NR s s' o' C K H; cbn [run] in H.
  - inversion H; subst. split; auto. split; [apply grow_refl|apply frame_refl].
  - destruct (get_variable n s) as [s1 [v|]] eqn:E; destruct (get_good strict n s s1 _ C K E) as (C1&G1&F1).
    + destruct (IH v (fun S => NR S v) s1 s' o' C1 (site_grow _ _ _ C K G1 F1) H) as (C2&G2&F2).
      split; auto. split; [exact (grow_trans _ _ _ G1 G2)|exact (frame_trans _ _ _ F1 F2)].
    + inversion H; subst. auto.
  - set (s1 := note (Made (s_next s)) _) in H.
    assert (C1 : core strict s1).
    { unfold s1, note. cbn. apply (note_core strict s (Made (s_next s)) (s_calls s) (S (s_next s))); cbn; auto; try lia; try discriminate.
      intros Hi. apply (c_logids _ _ C) in Hi. lia. }
    assert (G1 : grow s s1).
    { unfold s1, note. constructor; cbn; auto.
      - intros j y Hy. exists y. split; auto. apply grows_refl.
      - exists [Made (s_next s)]. split; auto. split; [cbn; lia|]. split; intros; cbn in *; intuition discriminate. }
    assert (F1 : frame s s1) by repeat split.
    destruct (IH (s_next s) (fun S => NR S _) s1 s' o' C1 (site_grow _ _ _ C K G1 F1) H) as (C2&G2&F2).
    split; auto. split; [exact (grow_trans _ _ _ G1 G2)|exact (frame_trans _ _ _ F1 F2)].
  - eapply (good_andthen strict _ (run eager k) s s' o'); [|apply IHk; intros; apply NR; auto|exact C|exact K|exact H].
    intros s1 o1 E. eapply in_scope_good; [exact C| |apply IHb; intros; apply NR; auto|exact E].
    apply site_enter; auto.
  - eapply (good_andthen strict _ (run eager k) s s' o'); [|apply IHk; intros; apply NR; auto|exact C|exact K|exact H].
    intros s1 o1 E. eapply in_scope_good; [exact C| |apply IHb; intros; apply NR; auto|exact E].
    apply site_enter; auto.
  - destruct strict; [destruct (NR eq_refl)|].
    eapply (good_andthen false _ (run eager k) s s' o'); [|apply IHk; discriminate|exact C|exact K|exact H].
    intros s1 o1 E. eapply in_scope_good; [exact C| |apply IHb; discriminate|exact E].
    destruct K as [kb kl kf]. constructor; cbn; auto; discriminate.
  - destruct (run eager b s) as [s1 o1] eqn:E.
    destruct (IHb (fun S => proj1 (NR S)) s s1 o1 C K E) as (C1&G1&F1).
    destruct (IHk o1 (fun S => proj2 (NR S) o1) s1 s' o' C1 (site_grow _ _ _ C K G1 F1) H) as (C2&G2&F2).
    split; auto. split; [exact (grow_trans _ _ _ G1 G2)|exact (frame_trans _ _ _ F1 F2)].
  - destruct (new_model args scope reuse) as [x|] eqn:E.
    + set (s1 := St _ _ _ _ _ _ _ _ _ _) in H.
      assert (Hx : m_vs x = None /\ m_called x = false /\ (m_reuse x = true -> m_scope x <> None)).
      { unfold new_model in E. destruct scope, reuse; inversion E; cbn; repeat split; discriminate. }
      destruct Hx as (V&Cl&Sc).
      assert (Nth : forall j y, nth_error (s_models s ++ [x]) j = Some y -> nth_error (s_models s) j = Some y \/ (j = length (s_models s) /\ y = x)).
      { intros j y Hy. destruct (lt_dec j (length (s_models s))) as [L|L].
        - rewrite nth_error_app1 in Hy by exact L. auto.
        - rewrite nth_error_app2 in Hy by lia. right. destruct (j - length (s_models s)) as [|d] eqn:D; cbn in Hy.
          + inversion Hy. split; [lia|reflexivity].
          + destruct d; discriminate. }
      assert (G1 : grow s s1).
      { constructor; cbn; auto.
        - intros j y Hy. exists y. split; [|apply grows_refl]. rewrite nth_error_app1; auto. apply nth_error_Some. congruence.
        - exists []. rewrite app_nil_r. cbn. repeat split; auto; tauto. }
      assert (F1 : frame s s1) by repeat split.
      assert (C1 : core strict s1).
      { pose proof C as C'. destruct C. constructor; cbn [s1 s_vars s_next s_models s_calls s_log]; auto.
        - intros e m Hi Em. rewrite app_length. cbn. pose proof (c_model0 e m Hi Em). lia.
        - intros m y Hy Vy. destruct (Nth m y Hy) as [A|(->&->)]; [eauto|congruence].
        - intros m y Hy Ry. destruct (Nth m y Hy) as [A|(->&->)]; [eauto|auto].
        - intros m y Hy Cy. destruct (Nth m y Hy) as [A|(->&->)]; [eauto|congruence].
        - intros m c y Hi Hy Ry. destruct (Nth m y Hy) as [A|(->&->)]; [eauto|].
          pose proof (c_model0 _ (length (s_models s)) Hi eq_refl). lia.
        - intros m c n v b Hi. destruct (c_base0 m c n v b Hi) as (y&q&r&p&Hy&Hrest). exists y, q, r, p. split; auto.
          rewrite nth_error_app1; auto. apply nth_error_Some. congruence.
        - eapply (past_same s s1); eauto.
        - intros S m c n v b q Hi Hb F. eapply (c_first0 S m c n v b q); eauto. intros T. apply F. eapply sharing_grow; eauto. }
      destruct (IH _ (fun S => NR S _) s1 s' o' C1 (site_grow _ _ _ C K G1 F1) H) as (C2&G2&F2).
      split; auto. split; [exact (grow_trans _ _ _ G1 G2)|exact (frame_trans _ _ _ F1 F2)].
    + exact (IH None (fun S => NR S None) s s' o' C K H).
  - eapply (good_andthen strict _ (run eager k) s s' o'); [|apply IHk; intros; apply NR; auto|exact C|exact K|exact H].
    intros s1 o1 E. eapply observe_good; [apply IHb; intros; apply NR; auto|exact C|exact K|exact E].
Qed.

Lemma core_start : forall strict, core strict start.
Proof.
  intros strict. constructor; cbn; try tauto; try discriminate.
  - intros m x H. destruct m; discriminate.
  - intros m x H. destruct m; discriminate.
  - intros m x H. destruct m; discriminate.
  - intros [|e0 a] e b H; discriminate.
Qed.
Lemma site_start : forall strict, site_ok strict start.
Proof. intros strict. constructor; discriminate. Qed.

Lemma run_core : forall eager strict p s o, (strict = true -> no_reuse_scopes p) -> run eager p start = (s, o) -> core strict s.
Proof. intros eager strict p s o N H. eapply run_good; eauto using core_start, site_start. Qed.
