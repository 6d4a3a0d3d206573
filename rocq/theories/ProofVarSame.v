(** Running the same model function again gets the same variables, for PropVar. *)
From Coq Require Import List Arith Bool Lia FinFun.
From Verif Require Import ModelVar SpecVar ProofVar.
Import ListNotations.

(** Automatic numbering depends on the sibling scopes only. *)
Lemma suffixed_inj : forall n i j, suffixed n i = suffixed n j -> i = j.
Proof.
  intros [b l] [|i] [|j] H; cbn in H; inversion H; auto.
  - apply (f_equal (@length nat)) in H1. rewrite app_length in H1. cbn in H1. lia.
  - apply (f_equal (@length nat)) in H1. rewrite app_length in H1. cbn in H1. lia.
  - apply app_inj_tail in H1 as [_ E]. exact E.
Qed.
Lemma mem_in : forall p l, mem p l = true <-> In p l.
Proof. intros. unfold mem. destruct (in_dec path_eq_dec p l); split; auto; discriminate. Qed.

Lemma first_free_spec : forall opened cur n fuel i,
  (forall j, j < i -> In (cur ++ [suffixed n j]) opened) -> i + fuel = length opened ->
  exists k, first_free fuel i opened cur n = suffixed n k /\ ~ In (cur ++ [suffixed n k]) opened /\
            forall j, j < k -> In (cur ++ [suffixed n j]) opened.
Proof.
  intros opened cur n. induction fuel as [|f IH]; intros i Hi L; cbn.
  - exists i. split; [reflexivity|]. split; [|exact Hi]. intros Hin.
    pose (l := map (fun j => cur ++ [suffixed n j]) (seq 0 (S i))).
    assert (N : NoDup l).
    { apply Injective_map_NoDup; [|apply seq_NoDup]. intros a b E. apply app_inv_head in E. inversion E as [E'].
      exact (suffixed_inj _ _ _ E'). }
    assert (I0 : incl l opened).
    { intros q Hq. apply in_map_iff in Hq as (j&<-&Hj). apply in_seq in Hj. destruct (Nat.eq_dec j i); [subst; exact Hin|].
      apply Hi. lia. }
    pose proof (NoDup_incl_length N I0) as B. unfold l in B. rewrite map_length, seq_length in B. lia.
  - destruct (mem (cur ++ [suffixed n i]) opened) eqn:M.
    + apply IH; [|lia]. intros j Hj. destruct (Nat.eq_dec j i); [subst; apply mem_in; exact M|]. apply Hi. lia.
    + exists i. split; [reflexivity|]. split; [|exact Hi]. intros Hin. apply mem_in in Hin. congruence.
Qed.
Lemma unique_spec : forall opened cur n,
  exists k, unique opened cur n = suffixed n k /\ ~ In (cur ++ [suffixed n k]) opened /\
            forall j, j < k -> In (cur ++ [suffixed n j]) opened.
Proof. intros. apply first_free_spec; [intros; lia|reflexivity]. Qed.
Lemma unique_same : forall o1 o2 cur n,
  (forall u, In (cur ++ [u]) o1 <-> In (cur ++ [u]) o2) -> unique o1 cur n = unique o2 cur n.
Proof.
  intros o1 o2 cur n H. destruct (unique_spec o1 cur n) as (k1&E1&N1&B1). destruct (unique_spec o2 cur n) as (k2&E2&N2&B2).
  rewrite E1, E2. f_equal. destruct (lt_eq_lt_dec k1 k2) as [[L|E]|L]; auto; exfalso.
  - apply N1. apply H. auto.
  - apply N2. apply H. auto.
Qed.

Lemma extends_app : forall p a l, extends p (p ++ a :: l) = true.
Proof. induction p as [|x p IH]; intros; cbn; auto. destruct (seg_eq_dec x x); [apply IH|congruence]. Qed.
Lemma extends_below : forall p q, extends p q = true -> exists a l, q = p ++ a :: l.
Proof.
  induction p as [|x p IH]; intros [|y q] H; cbn in H; try discriminate.
  - exists y, q. reflexivity.
  - destruct (seg_eq_dec x y); [|discriminate]. subst. destruct (IH q H) as (a&l&->). exists a, l. reflexivity.
Qed.

(** What is compared of two runs: the names asked for and the variables got. *)
Definition answer (e : event) : list (path * nat) :=
  match e with Got _ n v _ => [(n, v)] | _ => [] end.
Definition answers (l : list event) : list (path * nat) := flat_map answer l.

Lemma plain_run : forall eager b, plain b -> forall s s' o, run eager b s = (s', o) ->
  (forall p v, lookup (s_vars s) p = Some v -> lookup (s_vars s') p = Some v) /\
  s_models s' = s_models s /\ s_calls s' = s_calls s /\ frame s s'.
Proof.
  intros eager. induction b as [o|n k IH|k IH|n b IHb k IHk|n b IHb k IHk|b IHb k IHk|b IHb k IHk|args scope reuse k IH|m b IHb k IHk];
    intros P s s' o' H; cbn [plain] in P; try contradiction; cbn [run] in H.
  - inversion H; subst. repeat split; auto.
  - unfold get_variable in H. destruct (lookup (s_vars s) (s_cur s ++ [n])) as [v|] eqn:E; destruct (s_reuse s) eqn:R;
      try (inversion H; subst; repeat split; auto; fail).
    + destruct (IH v (P v) _ _ _ H) as (A&B&C&(D1&D2&D3&D4)). cbn in *. repeat split; auto; congruence.
    + destruct (IH _ (P _) _ _ _ H) as (A&B&C&(D1&D2&D3&D4)). cbn [s_vars s_models s_calls s_cur s_reuse s_site s_rel] in *.
      repeat split; auto; try congruence. intros p w Hp. apply A. apply lookup_cons_old; auto.
  - destruct P as [Pb Pk]. unfold in_scope in H. destruct (run eager b _) as [s1 o1] eqn:E1.
    destruct (IHb Pb _ _ _ E1) as (A&B&C&_). cbn in *. destruct o1; cbn in H.
    + destruct (IHk Pk _ _ _ H) as (A'&B'&C'&D'). cbn in *. unfold frame in *. cbn in *. split; [intros p v Hp; apply A'; apply A; exact Hp|]. clear A A'. intuition congruence.
    + inversion H; subst. cbn. split; [exact A|]. split; [exact B|]. split; [exact C|]. repeat split.
  - destruct P as [Pb Pk]. unfold in_scope in H. destruct (run eager b _) as [s1 o1] eqn:E1.
    destruct (IHb Pb _ _ _ E1) as (A&B&C&_). cbn in *. destruct o1; cbn in H.
    + destruct (IHk Pk _ _ _ H) as (A'&B'&C'&D'). cbn in *. unfold frame in *. cbn in *. split; [intros p v Hp; apply A'; apply A; exact Hp|]. clear A A'. intuition congruence.
    + inversion H; subst. cbn. split; [exact A|]. split; [exact B|]. split; [exact C|]. repeat split.
Qed.

(** The second run, reusing, follows the first, creating. *)
Definition rel_below (p : path) (s1 s2 : st) : Prop :=
  (exists r, s_cur s1 = p ++ r) /\ s_cur s2 = s_cur s1 /\ s_rel s2 = s_rel s1 /\ s_reuse s1 = false /\ s_reuse s2 = true /\
  forall q, extends p q = true -> (In q (s_open s1) <-> In q (s_open s2)).

Lemma close_rel : forall p x o1 o2, (forall q, extends p q = true -> (In q o1 <-> In q o2)) ->
  forall q, extends p q = true -> (In q (close_subscopes x o1) <-> In q (close_subscopes x o2)).
Proof.
  intros p x o1 o2 H q E. unfold close_subscopes. rewrite !filter_In. rewrite (H q E). reflexivity.
Qed.

Lemma follow : forall eager p b, plain b -> forall s1 s1' s2,
  run eager b s1 = (s1', Fine) -> rel_below p s1 s2 ->
  (forall q v, lookup (s_vars s1') q = Some v -> lookup (s_vars s2) q = Some v) ->
  exists s2' e1 e2, run eager b s2 = (s2', Fine) /\ rel_below p s1' s2' /\
    s_vars s2' = s_vars s2 /\ s_next s2' = s_next s2 /\ s_models s2' = s_models s2 /\ s_calls s2' = s_calls s2 /\ frame s2 s2' /\
    s_log s1' = s_log s1 ++ e1 /\ s_log s2' = s_log s2 ++ e2 /\ answers e2 = answers e1 /\
    (forall e, In e e1 -> exists n v c, e = Got (s_site s1) n v c) /\
    (forall e, In e e2 -> exists n v c, e = Got (s_site s2) n v c).
Proof.
  intros eager p. induction b as [o|n k IH|k IH|n b IHb k IHk|n b IHb k IHk|b IHb k IHk|b IHb k IHk|args scope reuse k IH|m b IHb k IHk];
    intros P s1 s1' s2 H R V; cbn [plain] in P; try contradiction; cbn [run] in H |- *.
  - inversion H; subst. exists s2, [], []. rewrite !app_nil_r. split; [reflexivity|]. split; [exact R|]. repeat split; auto; intros e [].
  - destruct R as ((r&Ec)&E2&Er&R1&R2&O). unfold get_variable in H |- *. rewrite E2, Er, R2. rewrite R1 in H.
    destruct (lookup (s_vars s1) (s_cur s1 ++ [n])) as [w|] eqn:L1; [discriminate|].
    set (t1 := St _ _ _ _ _ _ _ _ _ _) in H.
    assert (Lf : lookup (s_vars s1') (s_cur s1 ++ [n]) = Some (s_next s1)).
    { destruct (plain_run eager (k (s_next s1)) (P _) _ _ _ H) as (A&_). apply A. cbn.
      destruct (path_eq_dec _ _); congruence. }
    rewrite (V _ _ Lf). set (t2 := St _ _ _ _ _ _ _ _ _ _).
    destruct (IH (s_next s1) (P _) t1 s1' t2 H) as (s2'&e1&e2&G1&G2&G3&G4&G5&G6&G7&G8&G9&G10&G11&G12).
    { repeat split; cbn; auto; try apply O; auto. exists r. exact Ec. }
    { exact V. }
    eexists s2', (_ :: e1), (_ :: e2). split; [exact G1|]. split; [exact G2|]. split; [exact G3|]. split; [exact G4|]. split; [exact G5|].
    split; [exact G6|]. split. { destruct G7 as (F1&F2&F3&F4). cbn in *. repeat split; congruence. }
    split. { rewrite G8. cbn. rewrite <- app_assoc. reflexivity. }
    split. { rewrite G9. cbn. rewrite <- app_assoc. reflexivity. }
    split. { unfold answers in *. cbn. rewrite G10. reflexivity. }
    split; intros e [<-|Hi]; eauto.
  - destruct P as [Pb Pk]. destruct R as ((r&Ec)&E2&Er&R1&R2&O). unfold in_scope in H |- *. rewrite E2, Er, R2. rewrite R1 in H.
    destruct (run eager b _) as [t1 o1] eqn:B1 in H. destruct o1; cbn [andthen] in H; [|discriminate].
    match type of H with run _ _ ?x = _ => set (u1 := x) in H end.
    match type of B1 with run _ _ ?x = _ => set (s1b := x) in B1 end.
    set (s2b := St _ _ _ _ _ _ _ _ _ _).
    destruct (plain_run eager k Pk _ _ _ H) as (Vk&_).
    destruct (IHb Pb s1b t1 s2b B1) as (t2&e1&e2&G1&G2&G3&G4&G5&G6&G7&G8&G9&G10&G11&G12).
    { repeat split; cbn; auto.
      - exists (r ++ [n]). rewrite Ec, app_assoc. reflexivity.
      - intros [A|A]; [left; auto|right; apply O; auto].
      - intros [A|A]; [left; auto|right; apply O; auto]. }
    { intros q v Hq. apply V. apply Vk. exact Hq. }
    rewrite G1. cbn [andthen]. match goal with |- context [run eager k ?x] => set (u2 := x) end.
    destruct (IHk Pk u1 s1' u2 H) as (s2'&f1&f2&K1&K2&K3&K4&K5&K6&K7&K8&K9&K10&K11&K12).
    { destruct G2 as (_&_&_&_&_&O'). repeat split; cbn; auto.
      - exists r. exact Ec.
      - apply (close_rel p _ _ _ O'); auto.
      - apply (close_rel p _ _ _ O'); auto. }
    { intros q v Hq. cbn. rewrite G3. apply V. exact Hq. }
    exists s2', (e1 ++ f1), (e2 ++ f2). split; [exact K1|]. split; [exact K2|]. cbn in *.
    split; [congruence|]. split; [congruence|]. split; [congruence|]. split; [congruence|].
    split. { destruct K7 as (F1&F2&F3&F4). cbn in *. repeat split; congruence. }
    split; [rewrite K8, G8, app_assoc; reflexivity|]. split; [rewrite K9, G9, app_assoc; reflexivity|].
    split. { unfold answers in *. rewrite !flat_map_app. congruence. }
    split; intros e Hi; apply in_app_or in Hi as [Hi|Hi]; eauto.
  - destruct P as [Pb Pk]. destruct R as ((r&Ec)&E2&Er&R1&R2&O). unfold in_scope in H |- *. rewrite E2, Er, R2. rewrite R1 in H.
    assert (U : unique (s_open s2) (s_cur s1) n = unique (s_open s1) (s_cur s1) n).
    { apply unique_same. intros u. symmetry. apply O. rewrite Ec, <- app_assoc. destruct r; apply extends_app. }
    rewrite U. set (u := unique (s_open s1) (s_cur s1) n) in *.
    destruct (run eager b _) as [t1 o1] eqn:B1 in H. destruct o1; cbn [andthen] in H; [|discriminate].
    match type of H with run _ _ ?x = _ => set (u1 := x) in H end.
    match type of B1 with run _ _ ?x = _ => set (s1b := x) in B1 end.
    set (s2b := St _ _ _ _ _ _ _ _ _ _).
    destruct (plain_run eager k Pk _ _ _ H) as (Vk&_).
    destruct (IHb Pb s1b t1 s2b B1) as (t2&e1&e2&G1&G2&G3&G4&G5&G6&G7&G8&G9&G10&G11&G12).
    { repeat split; cbn; auto.
      - exists (r ++ [u]). rewrite Ec, app_assoc. reflexivity.
      - intros [A|A]; [left; auto|right; apply O; auto].
      - intros [A|A]; [left; auto|right; apply O; auto]. }
    { intros q v Hq. apply V. apply Vk. exact Hq. }
    rewrite G1. cbn [andthen]. match goal with |- context [run eager k ?x] => set (u2 := x) end.
    destruct (IHk Pk u1 s1' u2 H) as (s2'&f1&f2&K1&K2&K3&K4&K5&K6&K7&K8&K9&K10&K11&K12).
    { destruct G2 as (_&_&_&_&_&O'). repeat split; cbn; auto.
      - exists r. exact Ec.
      - apply (close_rel p _ _ _ O'); auto.
      - apply (close_rel p _ _ _ O'); auto. }
    { intros q v Hq. cbn. rewrite G3. apply V. exact Hq. }
    exists s2', (e1 ++ f1), (e2 ++ f2). split; [exact K1|]. split; [exact K2|]. cbn in *.
    split; [congruence|]. split; [congruence|]. split; [congruence|]. split; [congruence|].
    split. { destruct K7 as (F1&F2&F3&F4). cbn in *. repeat split; congruence. }
    split; [rewrite K8, G8, app_assoc; reflexivity|]. split; [rewrite K9, G9, app_assoc; reflexivity|].
    split. { unfold answers in *. rewrite !flat_map_app. congruence. }
    split; intros e Hi; apply in_app_or in Hi as [Hi|Hi]; eauto.
Qed.

(** Between calls from the outermost scope nothing below a model's scope is left open. *)
Lemma opened_below : forall eager b, no_models b -> forall s s' o, run eager b s = (s', o) ->
  frame s s' /\ forall q, In q (s_open s') -> In q (s_open s) \/ exists r, q = s_cur s ++ r.
Proof.
  intros eager. induction b as [o|n k IH|k IH|n b IHb k IHk|n b IHb k IHk|b IHb k IHk|b IHb k IHk|args scope reuse k IH|m b IHb k IHk];
    intros P s s' o' H; cbn [no_models] in P; try contradiction; cbn [run] in H.
  - inversion H; subst. split; [apply frame_refl|auto].
  - unfold get_variable in H. destruct (lookup (s_vars s) (s_cur s ++ [n])) as [v|] eqn:E; destruct (s_reuse s) eqn:R;
      try (inversion H; subst; split; [apply frame_refl|auto]; fail).
    + destruct (IH v (P v) _ _ _ H) as ((D1&D2&D3&D4)&A). cbn in *. split; [repeat split; congruence|exact A].
    + destruct (IH _ (P _) _ _ _ H) as ((D1&D2&D3&D4)&A). cbn in *. split; [repeat split; congruence|exact A].
  - destruct (IH _ (P _) _ _ _ H) as ((D1&D2&D3&D4)&A). cbn in *. split; [repeat split; congruence|exact A].
  - destruct P as [Pb Pk]. unfold in_scope in H. destruct (run eager b _) as [s1 o1] eqn:E1.
    destruct (IHb Pb _ _ _ E1) as (_&A). cbn in A.
    assert (A1 : forall q, In q (close_subscopes (s_cur s ++ [n]) (s_open s1)) -> In q (s_open s) \/ exists r, q = s_cur s ++ r).
    { intros q Hq. apply filter_In in Hq as [Hq _]. destruct (A q Hq) as [[<-|Hi]|(r&->)]; [right; eauto|auto|].
      right. rewrite <- app_assoc. eauto. }
    destruct o1; cbn in H.
    + destruct (IHk Pk _ _ _ H) as ((D1&D2&D3&D4)&B). cbn in *. split; [repeat split; congruence|].
      intros q Hq. destruct (B q Hq) as [Hi|Hr]; auto.
    + inversion H; subst. cbn. split; [repeat split|auto].
  - destruct P as [Pb Pk]. unfold in_scope in H. destruct (run eager b _) as [s1 o1] eqn:E1.
    destruct (IHb Pb _ _ _ E1) as (_&A). cbn in A. set (u := unique _ _ _) in *.
    assert (A1 : forall q, In q (close_subscopes (s_cur s ++ [u]) (s_open s1)) -> In q (s_open s) \/ exists r, q = s_cur s ++ r).
    { intros q Hq. apply filter_In in Hq as [Hq _]. destruct (A q Hq) as [[<-|Hi]|(r&->)]; [right; eauto|auto|].
      right. rewrite <- app_assoc. eauto. }
    destruct o1; cbn in H.
    + destruct (IHk Pk _ _ _ H) as ((D1&D2&D3&D4)&B). cbn in *. split; [repeat split; congruence|].
      intros q Hq. destruct (B q Hq) as [Hi|Hr]; auto.
    + inversion H; subst. cbn. split; [repeat split|auto].
  - destruct P as [Pb Pk]. unfold in_scope in H. destruct (run eager b _) as [s1 o1] eqn:E1.
    assert (A1 : forall q, In q (s_cur s :: s_open s) -> In q (s_open s) \/ exists r, q = s_cur s ++ r).
    { intros q [<-|Hq]; auto. right. exists []. rewrite app_nil_r. reflexivity. }
    destruct o1; cbn in H.
    + destruct (IHk Pk _ _ _ H) as ((D1&D2&D3&D4)&B). cbn in *. split; [repeat split; congruence|].
      intros q Hq. destruct (B q Hq) as [Hi|Hr]; auto.
    + inversion H; subst. cbn. split; [repeat split|auto].
  - destruct P as [Pb Pk]. destruct (run eager b s) as [s1 o1] eqn:E1. destruct (IHb Pb _ _ _ E1) as (F1&A).
    destruct (IHk o1 (Pk o1) _ _ _ H) as (F2&B). split; [exact (frame_trans _ _ _ F1 F2)|].
    intros q Hq. destruct F1 as (F1&_). destruct (B q Hq) as [Hi|(r&->)]; auto. right. exists r. congruence.
  - destruct (new_model args scope reuse).
    + destruct (IH _ (P _) _ _ _ H) as ((D1&D2&D3&D4)&A). cbn in *. split; [repeat split; congruence|exact A].
    + exact (IH _ (P _) _ _ _ H).
Qed.
Lemma plain_no_models : forall b, plain b -> no_models b.
Proof. induction b; cbn; try tauto; auto. Qed.

Definition top (s : st) : Prop :=
  s_cur s = [] /\ s_reuse s = false /\ (forall q, In q (s_open s) -> length q <= 1) /\
  (forall m x p r, nth_error (s_models s) m = Some x -> m_vs x = Some (p, r) -> length p = 1 /\ r = false).
Lemma plain_hostly : forall b, plain b -> hostly b.
Proof. induction b; cbn; try tauto; auto; intros [A B]; split; auto using plain_no_models. Qed.

Lemma no_models_vs : forall eager b, no_models b -> forall s s' o, run eager b s = (s', o) ->
  forall m x, nth_error (s_models s') m = Some x -> m_vs x <> None -> nth_error (s_models s) m = Some x.
Proof.
  intros eager. induction b as [o|n k IH|k IH|n b IHb k IHk|n b IHb k IHk|b IHb k IHk|b IHb k IHk|args scope reuse k IH|m b IHb k IHk];
    intros P s s' o' H; cbn [no_models] in P; try contradiction; cbn [run] in H.
  - inversion H; subst. auto.
  - unfold get_variable in H. destruct (lookup (s_vars s) (s_cur s ++ [n])) as [v|] eqn:E; destruct (s_reuse s) eqn:R;
      try (inversion H; subst; auto; fail); exact (IH _ (P _) _ _ _ H).
  - exact (IH _ (P _) _ _ _ H).
  - destruct P as [Pb Pk]. unfold in_scope in H. destruct (run eager b _) as [s1 o1] eqn:E1.
    pose proof (IHb Pb _ _ _ E1) as A. cbn in A. destruct o1; cbn in H.
    + pose proof (IHk Pk _ _ _ H) as B. cbn in B. eauto.
    + inversion H; subst. cbn. eauto.
  - destruct P as [Pb Pk]. unfold in_scope in H. destruct (run eager b _) as [s1 o1] eqn:E1.
    pose proof (IHb Pb _ _ _ E1) as A. cbn in A. destruct o1; cbn in H.
    + pose proof (IHk Pk _ _ _ H) as B. cbn in B. eauto.
    + inversion H; subst. cbn. eauto.
  - destruct P as [Pb Pk]. unfold in_scope in H. destruct (run eager b _) as [s1 o1] eqn:E1.
    pose proof (IHb Pb _ _ _ E1) as A. cbn in A. destruct o1; cbn in H.
    + pose proof (IHk Pk _ _ _ H) as B. cbn in B. eauto.
    + inversion H; subst. cbn. eauto.
  - destruct P as [Pb Pk]. destruct (run eager b s) as [s1 o1] eqn:E1. pose proof (IHb Pb _ _ _ E1) as A.
    pose proof (IHk o1 (Pk o1) _ _ _ H) as B. eauto.
  - destruct (new_model args scope reuse) as [x|] eqn:E.
    + pose proof (IH _ (P _) _ _ _ H) as A. cbn in A. intros m y Hy Vy. specialize (A m y Hy Vy).
      destruct (lt_dec m (length (s_models s))) as [L|L]; [rewrite nth_error_app1 in A; auto|].
      rewrite nth_error_app2 in A by lia. exfalso. destruct (m - length (s_models s)) as [|[|d]]; cbn in A; try discriminate.
      inversion A; subst. apply Vy. unfold new_model in E. destruct scope, reuse; inversion E; reflexivity.
    + exact (IH _ (P _) _ _ _ H).
Qed.

Lemma scope_top : forall eager n b s s' o site, no_models b -> top s ->
  in_scope false (s_cur s ++ [n]) (s_reuse s) site (s_site s) (run eager b) s = (s', o) -> top s'.
Proof.
  intros eager n b s s' o site P (T1&T2&T3&T4) H. unfold in_scope in H.
  destruct (run eager b _) as [s1 o1] eqn:E1. inversion H; subst; clear H.
  destruct (opened_below eager b P _ _ _ E1) as (_&A). pose proof (no_models_vs eager b P _ _ _ E1) as B. cbn in A, B.
  split; [exact T1|]. split; [exact T2|]. cbn. split.
  - intros q Hq. apply filter_In in Hq as [Hq Ne]. rewrite T1 in *. cbn in *.
    destruct (A q Hq) as [[<-|Hi]|(r&->)]; auto. destruct r; auto. exfalso.
    destruct (seg_eq_dec n n); [discriminate|congruence].
  - intros m x p r Hx Hv. apply (T4 m x p r); auto. apply B; congruence.
Qed.

Lemma set_model_top : forall m f s, top s -> (forall x p r, nth_error (s_models s) m = Some x -> m_vs (f x) = Some (p, r) -> length p = 1 /\ r = false) ->
  top (set_model m f s).
Proof.
  intros m f s (T1&T2&T3&T4) H. unfold set_model. destruct (nth_error (s_models s) m) as [x|] eqn:E; [|repeat split; auto; eapply T4; eauto].
  split; [exact T1|]. split; [exact T2|]. split; [exact T3|]. cbn. intros j y p r Hy Vy.
  rewrite nth_set in Hy by (apply nth_error_Some; congruence). destruct (Nat.eqb m j); [|eapply T4; eauto].
  inversion Hy; subst. eapply H; eauto.
Qed.
Definition vs_ok (ms : list model) : Prop :=
  forall m x p r, nth_error ms m = Some x -> m_vs x = Some (p, r) -> length p = 1 /\ r = false.
Lemma vs_ok_set : forall m f s, vs_ok (s_models s) ->
  (forall x p r, nth_error (s_models s) m = Some x -> m_vs (f x) = Some (p, r) -> length p = 1 /\ r = false) ->
  vs_ok (s_models (set_model m f s)).
Proof.
  intros m f s V H. unfold set_model. destruct (nth_error (s_models s) m) as [x|] eqn:E; [|exact V].
  cbn. intros j y p r Hy Vy. rewrite nth_set in Hy by (apply nth_error_Some; congruence).
  destruct (Nat.eqb m j); [|eapply V; eauto]. inversion Hy; subst. eapply H; eauto.
Qed.
Lemma set_model_open : forall m f s, s_open (set_model m f s) = s_open s.
Proof. intros. unfold set_model. destruct (nth_error _ _); reflexivity. Qed.
Lemma set_model_cur : forall m f s, s_cur (set_model m f s) = s_cur s.
Proof. intros. unfold set_model. destruct (nth_error _ _); reflexivity. Qed.

(** A call of a plain function keeps what is known of the models, and opens scopes
    below the current one only. *)
Lemma call_func_plain : forall eager m was b, plain b -> forall s s' o,
  vs_ok (s_models s) -> call_func eager m was (run eager b) s = (s', o) ->
  vs_ok (s_models s') /\ forall q, In q (s_open s') -> In q (s_open s) \/ exists r, q = s_cur s ++ r.
Proof.
  intros eager m was b P s s' o V H. unfold call_func in H.
  set (s0 := if eager then set_model m mark_called s else s) in *.
  assert (S : vs_ok (s_models s0) /\ s_open s0 = s_open s /\ s_cur s0 = s_cur s).
  { unfold s0. destruct eager; auto. split; [|split; [apply set_model_open|apply set_model_cur]].
    apply vs_ok_set; auto. intros x p r Hx Vx. eapply V; eauto. }
  destruct S as (V0&O0&U0). destruct (run eager b s0) as [s1 o1] eqn:E1.
  destruct (plain_run eager b P _ _ _ E1) as (_&M1&_). destruct (opened_below eager b (plain_no_models b P) _ _ _ E1) as (_&A).
  rewrite O0, U0 in A. assert (V1 : vs_ok (s_models s1)) by (rewrite M1; exact V0).
  destruct o1; [destruct was|]; inversion H; subst; clear H; auto.
  split; [|rewrite set_model_open; exact A]. apply vs_ok_set; auto. intros x p r Hx Vx. eapply V1; eauto.
Qed.

Lemma in_scope_plain_top : forall by_object reuse rel w body n s s' o,
  top s ->
  (forall s0 s1 o1, s_cur s0 = [n] -> vs_ok (s_models s0) -> body s0 = (s1, o1) ->
     vs_ok (s_models s1) /\ forall q, In q (s_open s1) -> In q (s_open s0) \/ exists r, q = [n] ++ r) ->
  in_scope by_object [n] reuse rel w body s = (s', o) -> top s'.
Proof.
  intros by_object reuse rel w body n s s' o (T1&T2&T3&T4) B H. unfold in_scope in H.
  destruct (body _) as [s1 o1] eqn:E. inversion H; subst; clear H.
  match type of E with body ?y = _ => destruct (B y _ _ eq_refl T4 E) as (V&A) end. cbn in A. split; [exact T1|]. split; [exact T2|]. cbn [s_open s_models]. split; [|exact V].
  destruct by_object.
  - intros q [<-|Hq]; auto.
  - intros q Hq. apply filter_In in Hq as [Hq Ne]. destruct (A q Hq) as [[<-|Hi]|(r&->)]; auto.
    destruct r; auto. exfalso. cbn in Ne. destruct (seg_eq_dec n n); [discriminate|congruence].
Qed.

Lemma top_eq : forall s s', s_cur s' = s_cur s -> s_reuse s' = s_reuse s -> s_open s' = s_open s -> s_models s' = s_models s -> top s -> top s'.
Proof. intros s s' A B C D T. unfold top. rewrite A, B, C, D. exact T. Qed.

Lemma observe_top : forall eager m b, plain b -> forall s s' o,
  (forall s s' o, top s -> run eager b s = (s', o) -> top s') ->
  top s -> observe eager m (run eager b) s = (s', o) -> top s'.
Proof.
  intros eager m b P s s' o IH T H. unfold observe in H. destruct (nth_error (s_models s) m) as [x|] eqn:Hx; [|inversion H; subst; exact T].
  match type of H with context [call _ _ _ _ _ ?y] => set (s1 := y) in * end.
  assert (T1 : top s1) by exact T.
  destruct (call eager m x (Some (m, s_calls s)) (run eager b) s1) as [s2 o2] eqn:E. inversion H; subst; clear H.
  apply (top_eq s2); auto. unfold call in E.
  assert (Bp : forall n s0 s1 o1, s_cur s0 = [n] -> vs_ok (s_models s0) -> run eager b s0 = (s1, o1) ->
     vs_ok (s_models s1) /\ forall q, In q (s_open s1) -> In q (s_open s0) \/ exists r, q = [n] ++ r).
  { intros n s0 s3 o3 C0 V0 E0. destruct (plain_run eager b P _ _ _ E0) as (_&M&_). rewrite M. split; [exact V0|].
    rewrite <- C0. apply (opened_below eager b (plain_no_models b P) _ _ _ E0). }
  assert (C1 : s_cur s1 = []) by apply T1.
  destruct (m_scope x) as [n|]; [destruct (m_reuse x)|].
  - destruct (m_args x); [|inversion E; subst; exact T1]. unfold template_call in E.
    destruct (m_vs x) as [[p r]|] eqn:Vs.
    + destruct T as (_&_&_&T4). destruct (T4 m x p r Hx Vs) as [Lp _]. destruct p as [|u [|]]; try discriminate.
      eapply in_scope_plain_top; [exact T1| |exact E]. intros s0 s3 o3 C0 V0 E0. rewrite <- C0. eapply call_func_plain; eauto.
    + rewrite C1 in E. cbn [app] in E. eapply in_scope_plain_top; [exact T1| |exact E]. cbv beta.
      intros s0 s3 o3 C0 V0 E0. rewrite <- C0.
      assert (R1 : s_reuse s1 = false) by apply T1.
      match type of E0 with call_func _ _ _ _ ?y = _ => assert (V1 : vs_ok (s_models y)) end.
      { apply vs_ok_set; auto. intros y p r Hy Vy. cbn in Vy. inversion Vy; subst. auto. }
      destruct (call_func_plain eager m _ b P _ _ _ V1 E0) as [A B]. rewrite set_model_open, set_model_cur in B. auto.
  - rewrite C1 in E. cbn [app] in E. eapply in_scope_plain_top; [exact T1| |exact E].
    intros s0 s3 o3 C0 V0 E0. destruct (m_args x); [eapply Bp; eauto|]. inversion E0; subst. auto.
  - destruct (m_args x); [|inversion E; subst; exact T1].
    destruct (run eager b _) as [s3 o3] eqn:E3 in E. inversion E; subst; clear E.
    apply (top_eq s3); auto. eapply IH; [|exact E3]. apply (top_eq s1); auto.
Qed.

Lemma host_top : forall eager p, hostly p -> forall s s' o, top s -> run eager p s = (s', o) -> top s'.
Proof.
  intros eager. induction p as [o|n k IH|k IH|n b IHb k IHk|n b IHb k IHk|b IHb k IHk|b IHb k IHk|args scope reuse k IH|m b IHb k IHk];
    intros P s s' o' T H; cbn [hostly] in P; cbn [run] in H.
  - inversion H; subst. exact T.
  - unfold get_variable in H. destruct (lookup (s_vars s) (s_cur s ++ [n])) as [v|] eqn:E; destruct (s_reuse s) eqn:R;
      try (inversion H; subst; exact T); (eapply IH; [apply P| |exact H]); apply (top_eq s); auto.
  - eapply IH; [apply P| |exact H]. exact T.
  - destruct P as [Pb Pk]. destruct (in_scope _ _ _ _ _ _ s) as [s1 o1] eqn:E1.
    assert (T1 : top s1) by (eapply scope_top; eauto). destruct o1; cbn in H; [eauto|inversion H; subst; exact T1].
  - destruct P as [Pb Pk]. destruct (in_scope _ _ _ _ _ _ s) as [s1 o1] eqn:E1.
    assert (T1 : top s1) by (eapply scope_top; eauto). destruct o1; cbn in H; [eauto|inversion H; subst; exact T1].
  - destruct P as [Pb Pk]. destruct (in_scope _ _ _ _ _ _ s) as [s1 o1] eqn:E1.
    assert (T1 : top s1).
    { unfold in_scope in E1. destruct (run eager b _) as [s2 o2] eqn:E2. inversion E1; subst; clear E1.
      pose proof (no_models_vs eager b Pb _ _ _ E2) as B. cbn in B. destruct T as (T1&T2&T3&T4).
      split; [exact T1|]. split; [exact T2|]. cbn. split.
      - intros q [<-|Hq]; auto. rewrite T1. cbn. lia.
      - intros m x p r Hx Hv. apply (T4 m x p r); auto. apply B; congruence. }
    destruct o1; cbn in H; [eauto|inversion H; subst; exact T1].
  - destruct P as [Pb Pk]. destruct (run eager b s) as [s1 o1] eqn:E1. eauto.
  - destruct (new_model args scope reuse) as [x|] eqn:E; [|eauto].
    eapply IH; [apply P| |exact H]. destruct T as (T1&T2&T3&T4). split; [exact T1|]. split; [exact T2|]. split; [exact T3|].
    cbn. intros m y p r Hy Vy. destruct (lt_dec m (length (s_models s))) as [L|L]; [rewrite nth_error_app1 in Hy; eauto|].
    rewrite nth_error_app2 in Hy by lia. exfalso. destruct (m - length (s_models s)) as [|[|d]]; cbn in Hy; try discriminate.
    inversion Hy; subst. unfold new_model in E. destruct scope, reuse; inversion E; subst; discriminate.
  - destruct P as [Pb Pk]. destruct (observe eager m (run eager b) s) as [s1 o1] eqn:E1.
    assert (T1 : top s1). { eapply observe_top; eauto. intros. eapply IHb; eauto. apply plain_hostly; auto. }
    destruct o1; cbn in H; [eauto|inversion H; subst; exact T1].
Qed.

Lemma top_start : top start.
Proof. repeat split; cbn; try tauto; destruct m; discriminate. Qed.

Lemma nothing_below : forall s u q, (forall q, In q (s_open s) -> length q <= 1) -> extends [u] q = true -> ~ In q ([u] :: s_open s).
Proof.
  intros s u q T E Hi. destruct (extends_below _ _ E) as (a&l&->). cbn in Hi. destruct Hi as [H|H]; [discriminate|].
  apply T in H. cbn in H. lia.
Qed.

Lemma answers_of_same : forall m c l, (forall e, In e l -> exists n v b, e = Got (Some (m, c)) n v b) ->
  answers_of m c l = answers l.
Proof.
  intros m c. induction l as [|e l IH]; intros H; cbn; auto. destruct (H e (or_introl eq_refl)) as (n&v&b&->).
  rewrite !Nat.eqb_refl. cbn. f_equal. apply IH. intros e He. apply H. right. exact He.
Qed.
Lemma answers_of_none : forall m c l, (forall n v b, ~ In (Got (Some (m, c)) n v b) l) -> answers_of m c l = [].
Proof.
  intros m c. induction l as [|e l IH]; intros H; auto. change (e :: l) with ([e] ++ l). unfold answers_of in *. rewrite flat_map_app.
  rewrite IH by (intros n v b Hi; apply (H n v b); right; exact Hi).
  rewrite app_nil_r. cbn. rewrite app_nil_r. destruct e as [| [[m' c']|] n v b | |]; auto.
  destruct (Nat.eqb m' m && Nat.eqb c' c)%bool eqn:E; auto. apply andb_true_iff in E as [E1 E2].
  apply Nat.eqb_eq in E1, E2. subst. exfalso. apply (H n v b). left. reflexivity.
Qed.
Lemma answers_of_app : forall m c a b, answers_of m c (a ++ b) = answers_of m c a ++ answers_of m c b.
Proof. intros. apply flat_map_app. Qed.

(** The first call: what state the body starts and ends in. *)
Lemma first_observe : forall eager m b s s1 x n, plain b -> top s ->
  nth_error (s_models s) m = Some x -> m_scope x = Some n -> m_reuse x = true -> m_args x = true ->
  m_vs x = None -> m_called x = false ->
  observe eager m (run eager b) s = (s1, Fine) ->
  exists u t t', run eager b t = (t', Fine) /\ s_cur t = [u] /\ s_rel t = [] /\ s_reuse t = false /\ s_site t = Some (m, s_calls s) /\
    s_open t = [u] :: s_open s /\ s_log t = s_log s ++ [Began m (s_calls s) [] false] /\
    s_vars s1 = s_vars t' /\ s_log s1 = s_log t' ++ [Ended m (s_calls s) true] /\
    exists y, nth_error (s_models s1) m = Some y /\ m_vs y = Some ([u], false) /\ m_called y = true /\
              m_scope y = Some n /\ m_reuse y = true /\ m_args y = true.
Proof.
  intros eager m b s s1 x n P T Hx Sc Re Ar Vs Cl H. unfold observe in H. rewrite Hx in H.
  destruct T as (T1&T2&_). unfold call in H. rewrite Sc, Re, Ar in H. unfold template_call in H. rewrite Vs in H.
  unfold in_scope in H. cbn [note s_cur s_open s_reuse s_vars s_next s_models s_calls s_log s_site s_rel] in H. rewrite T1, T2 in H. cbn [app] in H.
  set (u := unique (s_open s) [] n) in *.
  unfold call_func in H. rewrite Cl in H.
  match type of H with context [run eager b ?y] => set (t := y) in * end.
  destruct (run eager b t) as [t' o'] eqn:E. destruct o'; cbn in H; [|discriminate]. inversion H; subst s1; clear H.
  set (k := set_model m (keep_scope [u] false) _) in t.
  assert (Hk : nth_error (s_models k) m = Some (keep_scope [u] false x)).
  { unfold k. erewrite set_model_eq by (cbn; exact Hx). rewrite Nat.eqb_refl. reflexivity. }
  assert (Ht : exists y, nth_error (s_models t) m = Some y /\ m_vs y = Some ([u], false) /\ m_scope y = Some n /\ m_reuse y = true /\ m_args y = true).
  { unfold t. destruct eager.
    - exists (mark_called (keep_scope [u] false x)). split; [|cbn; auto]. erewrite set_model_eq by exact Hk. rewrite Nat.eqb_refl. reflexivity.
    - exists (keep_scope [u] false x). split; [exact Hk|cbn; auto]. }
  assert (Ft : forall (A : Type) (f : st -> A), (forall s ms, f (St (s_vars s) (s_next s) (s_open s) (s_cur s) (s_reuse s) ms (s_site s) (s_rel s) (s_calls s) (s_log s)) = f s) ->
     f t = f (St (s_vars s) (s_next s) ([u] :: s_open s) [u] false (s_models s) (Some (m, s_calls s)) [] (S (s_calls s))
         (s_log s ++ [Began m (s_calls s) [] false]))).
  { intros A f Hf. assert (Sf : forall m g z, f (set_model m g z) = f z).
    { intros j g z. unfold set_model. destruct (nth_error (s_models z) j); auto. }
    unfold t, k. destruct eager; rewrite ?Sf; reflexivity. }
  destruct (plain_run eager b P _ _ _ E) as (_&M'&_). destruct Ht as (y&Hy&Vy&Sy&Ry&Ay).
  exists u, t, t'. split; [exact E|].
  split; [rewrite (Ft _ s_cur); auto|]. split; [rewrite (Ft _ s_rel); auto|]. split; [rewrite (Ft _ s_reuse); auto|].
  split; [rewrite (Ft _ s_site); auto|]. split; [rewrite (Ft _ s_open); auto|]. split; [rewrite (Ft _ s_log); auto|].
  assert (Hy' : nth_error (s_models t') m = Some y) by (rewrite M'; exact Hy).
  split; [unfold set_model; rewrite Hy'; reflexivity|]. split; [unfold set_model; rewrite Hy'; reflexivity|].
  exists (mark_called y). split; [|cbn; auto]. cbn. erewrite set_model_eq by exact Hy'. rewrite Nat.eqb_refl. reflexivity.
Qed.

(** A later call. *)
Lemma later_observe : forall eager m b s x n u t t', plain b -> top s ->
  nth_error (s_models s) m = Some x -> m_scope x = Some n -> m_reuse x = true -> m_args x = true ->
  m_vs x = Some ([u], false) -> m_called x = true ->
  run eager b t = (t', Fine) -> s_cur t = [u] -> s_rel t = [] -> s_reuse t = false ->
  (forall q, extends [u] q = true -> ~ In q (s_open t)) ->
  (forall q v, lookup (s_vars t') q = Some v -> lookup (s_vars s) q = Some v) ->
  exists s' e1 e2, observe eager m (run eager b) s = (s', Fine) /\ s_next s' = s_next s /\
    s_log t' = s_log t ++ e1 /\ (forall e, In e e1 -> exists n v c, e = Got (s_site t) n v c) /\
    s_log s' = s_log s ++ Began m (s_calls s) [] false :: e2 ++ [Ended m (s_calls s) true] /\
    (forall e, In e e2 -> exists n v c, e = Got (Some (m, s_calls s)) n v c) /\ answers e2 = answers e1.
Proof.
  intros eager m b s x n u t t' P (T1&T2&T3&T4) Hx Sc Re Ar Vs Cl E C1 R1 U1 O1 V.
  unfold observe. rewrite Hx. unfold call. rewrite Sc, Re, Ar. unfold template_call. rewrite Vs, Cl.
  unfold in_scope. cbn [note s_cur s_open s_reuse s_vars s_next s_models s_calls s_log s_site s_rel orb]. rewrite T1, T2.
  unfold call_func.
  match goal with |- context [run eager b ?y] => set (w := y) end.
  assert (Fw : forall (A : Type) (f : st -> A), (forall s ms, f (St (s_vars s) (s_next s) (s_open s) (s_cur s) (s_reuse s) ms (s_site s) (s_rel s) (s_calls s) (s_log s)) = f s) ->
     f w = f (St (s_vars s) (s_next s) ([u] :: s_open s) [u] true (s_models s) (Some (m, s_calls s)) [] (S (s_calls s))
         (s_log s ++ [Began m (s_calls s) [] false]))).
  { intros A f Hf. assert (Sf : forall m g z, f (set_model m g z) = f z).
    { intros j g z. unfold set_model. destruct (nth_error (s_models z) j); auto. }
    unfold w. destruct eager; rewrite ?Sf; reflexivity. }
  destruct (follow eager [u] b P t t' w E) as (w'&e1&e2&G1&G2&G3&G4&G5&G6&G7&G8&G9&G10&G11&G12).
  { split; [exists []; rewrite C1; reflexivity|]. split; [rewrite C1, (Fw _ s_cur); auto|]. split; [rewrite R1, (Fw _ s_rel); auto|].
    split; [exact U1|]. split; [rewrite (Fw _ s_reuse); auto|]. intros q Hq. rewrite (Fw _ s_open) by auto. cbn [s_open].
    split; intros Hi; exfalso; [exact (O1 q Hq Hi)|exact (nothing_below s u q T3 Hq Hi)]. }
  { intros q v Hq. rewrite (Fw _ s_vars) by auto. cbn. auto. }
  rewrite G1, G4, Nat.eqb_refl. eexists _, e1, e2. split; [reflexivity|]. cbn.
  split; [rewrite (Fw _ s_next); auto|]. split; [exact G8|]. split; [exact G11|].
  split; [rewrite G9, (Fw _ s_log) by auto; cbn; rewrite <- !app_assoc; reflexivity|].
  split; [|exact G10]. intros e He. destruct (G12 e He) as (nm&v&c&->). rewrite (Fw _ s_site) by auto. eauto.
Qed.

Lemma no_got_yet : forall strict s m n v b, core strict s -> ~ In (Got (Some (m, s_calls s)) n v b) (s_log s).
Proof.
  intros strict s m n v b C Hi. destruct (c_base _ _ C _ _ _ _ _ Hi) as (x&q&r&p&_&Hb&_). apply (c_began _ _ C) in Hb. lia.
Qed.

Theorem same_program : forall eager h1 h2 b m x s0 o0 s1 s2 o2,
  hostly h1 -> hostly h2 -> plain b ->
  run eager h1 start = (s0, o0) ->
  nth_error (s_models s0) m = Some x -> m_reuse x = true -> m_args x = true ->
  (forall c q r, ~ In (Began m c q r) (s_log s0)) ->
  observe eager m (run eager b) s0 = (s1, Fine) ->
  run eager h2 s1 = (s2, o2) ->
  exists s3, observe eager m (run eager b) s2 = (s3, Fine) /\ s_next s3 = s_next s2 /\
    answers_of m (s_calls s2) (s_log s3) = answers_of m (s_calls s0) (s_log s1).
Proof.
  intros eager h1 h2 b m x s0 o0 s1 s2 o2 H1 H2 P E0 Hx Re Ar Nb E1 E2.
  assert (C0 : core false s0) by (eapply run_core; [|exact E0]; discriminate).
  assert (K0 : site_ok false s0).
  { eapply site_grow; [apply core_start|apply site_start| |];
    apply (run_good eager false h1 ltac:(discriminate) start s0 o0 (core_start false) (site_start false) E0). }
  assert (Gb : good false (run eager b)) by (apply run_good; discriminate).
  destruct (observe_good false eager m _ Gb s0 s1 Fine C0 K0 E1) as (C1&G1&F1).
  assert (K1 : site_ok false s1) by exact (site_grow _ _ _ C0 K0 G1 F1).
  destruct (run_good eager false h2 ltac:(discriminate) s1 s2 o2 C1 K1 E2) as (C2&G2&F2).
  assert (T0 : top s0) by (eapply host_top; [exact H1|apply top_start|exact E0]).
  assert (T1 : top s1).
  { eapply observe_top; [exact P| |exact T0|exact E1]. intros a a' oa Ta Ea. exact (host_top eager b (plain_hostly b P) a a' oa Ta Ea). }
  assert (T2 : top s2) by (eapply host_top; [exact H2|exact T1|exact E2]).
  assert (Vs : m_vs x = None).
  { destruct (m_vs x) eqn:V; auto. destruct (c_unbegun _ _ C0 m x Hx ltac:(congruence)) as (c&q&r&Hi). destruct (Nb c q r Hi). }
  assert (Cl : m_called x = false).
  { destruct (m_called x) eqn:Cx; auto. destruct (c_calledvs _ _ C0 m x Hx Cx Vs). }
  destruct (m_scope x) as [n|] eqn:Sc; [|destruct (c_scope _ _ C0 m x Hx Re Sc)].
  destruct (first_observe eager m b s0 s1 x n P T0 Hx Sc Re Ar Vs Cl E1)
    as (u&t&t'&Et&Ct&Rt&Ut&St&Ot&Lt&Vt&Lt'&y&Hy&Vy&Cy&Sy&Ry&Ay).
  destruct (g_models _ _ G2 m y Hy) as (z&Hz&(Z1&Z2&Z3&Z4&Z5)).
  destruct (later_observe eager m b s2 z n u t t' P T2 Hz ltac:(congruence) ltac:(congruence) ltac:(congruence)
     (Z4 _ Vy) (Z5 Cy) Et Ct Rt Ut) as (s3&e1&e2&A1&A2&A3&A4&A5&A6&A7).
  { intros q Hq. rewrite Ot. apply nothing_below; auto. apply T0. }
  { intros q v Hq. apply (g_vars _ _ G2). rewrite Vt. exact Hq. }
  exists s3. split; [exact A1|]. split; [exact A2|].
  rewrite A5, Lt', A3, Lt.
  change (Began m (s_calls s2) [] false :: e2 ++ [Ended m (s_calls s2) true]) with ([Began m (s_calls s2) [] false] ++ e2 ++ [Ended m (s_calls s2) true]).
  rewrite !answers_of_app. rewrite (answers_of_none m (s_calls s2) (s_log s2)) by (intros; eapply no_got_yet; eauto).
  rewrite (answers_of_none m (s_calls s0) (s_log s0)) by (intros; eapply no_got_yet; eauto).
  rewrite (answers_of_same m (s_calls s2) e2 A6). rewrite (answers_of_same m (s_calls s0) e1) by (rewrite <- St; exact A4).
  cbn. rewrite !app_nil_r. exact A7.
Qed.
