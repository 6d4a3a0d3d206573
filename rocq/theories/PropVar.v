(** C51: variables across calls of observe(). *)
From Coq Require Import List Arith Bool Lia.
From Verif Require Import ModelVar SpecVar ProofVar ProofVarSame.
Import ListNotations.

(** C51 (sharing).  Whatever the program does, from whatever scopes and how often a
    model made with a scope and reuse_variables=True is observed, and whatever goes on
    around: two requests for the same name get the same variable. *)
Theorem C51_shared :
  forall eager p s o, run eager p start = (s, o) ->
  forall m c1 c2 name v1 v2 b1 b2, sharing s m ->
  In (Got (Some (m, c1)) name v1 b1) (s_log s) -> In (Got (Some (m, c2)) name v2 b2) (s_log s) ->
  v1 = v2.
Proof.
  intros eager p s o H m c1 c2 name v1 v2 b1 b2 (x&Hx&R) H1 H2.
  pose proof (run_core eager false p s o ltac:(discriminate) H) as C.
  destruct (c_base _ _ C _ _ _ _ _ H1) as (x1&q1&r1&p1&X1&_&B1&L1).
  destruct (c_base _ _ C _ _ _ _ _ H2) as (x2&q2&r2&p2&X2&_&B2&L2).
  assert (x1 = x) by congruence. assert (x2 = x) by congruence. subst x1 x2.
  unfold base in B1, B2. rewrite R in B1, B2. assert (p1 = p2) by congruence. subst. congruence.
Qed.
Print Assumptions C51_shared.

(** C51 (no new variables).  Once an observe() of such a model has returned, later ones
    never create a variable through tf.get_variable, ... *)
Theorem C51_reused :
  forall eager p s o, run eager p start = (s, o) ->
  forall m c past rest c' name v b, sharing s m ->
  s_log s = past ++ Ended m c true :: rest -> In (Got (Some (m, c')) name v b) rest -> c < c' ->
  b = false.
Proof.
  intros eager p s o H m c past rest c' name v b T E Hi Lt.
  pose proof (run_core eager false p s o ltac:(discriminate) H) as C.
  apply in_split in Hi as (r1&r2&->).
  assert (E' : s_log s = (past ++ Ended m c true :: r1) ++ Got (Some (m, c')) name v b :: r2) by (rewrite E, <- app_assoc; reflexivity).
  destruct (c_past _ _ C _ _ _ E') as [_ P]. apply P; auto. exists c. split; auto. apply in_elt.
Qed.
Print Assumptions C51_reused.

(** ... and if one returns without an exception, it has not created any variable by any
    means, in any scope or nested model. *)
Theorem C51_nothing_new :
  forall eager p s o, run eager p start = (s, o) ->
  forall m c l1 l2 c' q r during l4, sharing s m ->
  s_log s = l1 ++ Ended m c true :: l2 ++ Began m c' q r :: during ++ Ended m c' true :: l4 ->
  forall e, In e during -> creates e = false.
Proof.
  intros eager p s o H m c l1 l2 c' q r during l4 T E e Hi.
  pose proof (run_core eager false p s o ltac:(discriminate) H) as C.
  assert (E' : s_log s = (l1 ++ Ended m c true :: l2 ++ Began m c' q r :: during) ++ Ended m c' true :: l4).
  { rewrite E. rewrite <- !app_assoc. cbn. rewrite <- !app_assoc. reflexivity. }
  pose proof (c_past _ _ C _ _ _ E') as P. cbn in P. specialize (P T _ _ _ _ _ _ eq_refl).
  destruct (creates e) eqn:Ce; auto. exfalso. unfold creations in P.
  assert (F : In e (filter creates during)) by (apply filter_In; auto).
  destruct (filter creates during); [destruct F|discriminate].
Qed.
Print Assumptions C51_nothing_new.

(** A call of observe() that starts from a scope without reuse, of a model made with
    reuse_variables=False, or for the first time. *)
Definition starts_afresh (s : st) (m c : nat) : Prop :=
  (exists q, In (Began m c q false) (s_log s)) /\ (sharing s m -> first_call (s_log s) m c).

(** C51 (fresh).  If the program does not itself ask for reuse, such a call gets newly
    created variables only, and no two such calls get a variable in common: neither two
    models with reuse, nor two calls of a model without. *)
Theorem C51_fresh :
  forall eager p s o, no_reuse_scopes p -> run eager p start = (s, o) ->
  forall m c name v b, starts_afresh s m c -> In (Got (Some (m, c)) name v b) (s_log s) ->
  b = true /\
  forall m' c' name' v' b', starts_afresh s m' c' -> In (Got (Some (m', c')) name' v' b') (s_log s) ->
  (m, c) <> (m', c') -> v <> v'.
Proof.
  intros eager p s o N H m c name v b ((q&Hb)&F) Hi.
  pose proof (run_core eager true p s o (fun _ => N) H) as C.
  assert (B : b = true) by (eapply (c_first _ _ C eq_refl); eauto). split; [exact B|].
  intros m' c' name' v' b' ((q'&Hb')&F') Hi' Ne Ev. subst b v'.
  assert (B' : b' = true) by (eapply (c_first _ _ C eq_refl); eauto). subst b'.
  apply in_split in Hi as (a&d&E). rewrite E in Hi'. apply in_app_or in Hi' as [Hi'|[Hi'|Hi']].
  - destruct (c_past _ _ C _ _ _ E) as [P _]. apply (P eq_refl). unfold allids. apply in_flat_map.
    eexists. split; [exact Hi'|left; reflexivity].
  - inversion Hi'. apply Ne. congruence.
  - apply in_split in Hi' as (d1&d2&->).
    assert (E' : s_log s = (a ++ Got (Some (m, c)) name v true :: d1) ++ Got (Some (m', c')) name' v true :: d2) by (rewrite E, <- app_assoc; reflexivity).
    destruct (c_past _ _ C _ _ _ E') as [P _]. apply (P eq_refl). unfold allids. apply in_flat_map.
    eexists. split; [apply in_elt|left; reflexivity].
Qed.
Print Assumptions C51_fresh.

(** Hence two models made with reuse never share the variables their first calls got,
    in any of their calls. *)
Theorem C51_separate :
  forall eager p s o, no_reuse_scopes p -> run eager p start = (s, o) ->
  forall m1 m2 c1 c2 name1 name2, m1 <> m2 -> sharing s m1 -> sharing s m2 ->
  starts_afresh s m1 c1 -> starts_afresh s m2 c2 ->
  (exists v b, In (Got (Some (m1, c1)) name1 v b) (s_log s)) -> (exists v b, In (Got (Some (m2, c2)) name2 v b) (s_log s)) ->
  forall d1 d2 w1 w2 b1 b2,
  In (Got (Some (m1, d1)) name1 w1 b1) (s_log s) -> In (Got (Some (m2, d2)) name2 w2 b2) (s_log s) -> w1 <> w2.
Proof.
  intros eager p s o N H m1 m2 c1 c2 n1 n2 Ne T1 T2 S1 S2 (v1&a1&H1) (v2&a2&H2) d1 d2 w1 w2 b1 b2 G1 G2.
  rewrite (C51_shared eager p s o H m1 d1 c1 n1 w1 v1 b1 a1 T1 G1 H1).
  rewrite (C51_shared eager p s o H m2 d2 c2 n2 w2 v2 b2 a2 T2 G2 H2).
  eapply (proj2 (C51_fresh eager p s o N H m1 c1 n1 v1 a1 S1 H1)); eauto. congruence.
Qed.
Print Assumptions C51_separate.

(** C51 (no silent duplication).  A model made without reuse cannot get a variable of
    the same name twice from the same scope: the second request is a ValueError. *)
Theorem C51_without_reuse :
  forall eager p s o, no_reuse_scopes p -> run eager p start = (s, o) ->
  forall m c1 c2 q name1 name2 v1 v2 b1 b2, not_sharing s m ->
  In (Began m c1 q false) (s_log s) -> In (Began m c2 q false) (s_log s) -> c1 <> c2 ->
  In (Got (Some (m, c1)) name1 v1 b1) (s_log s) -> In (Got (Some (m, c2)) name2 v2 b2) (s_log s) ->
  name1 <> name2.
Proof.
  intros eager p s o N H m c1 c2 q n1 n2 v1 v2 b1 b2 (x&Hx&R) B1 B2 Nc H1 H2 En. subst n2.
  pose proof (run_core eager true p s o (fun _ => N) H) as C.
  assert (NS : forall l : Prop, sharing s m -> l). { intros l (y&Hy&Ry). congruence. }
  assert (D : v1 <> v2).
  { apply (proj2 (C51_fresh eager p s o N H m c1 n1 v1 b1 (conj (ex_intro _ q B1) (NS _)) H1) m c2 n1 v2 b2
      (conj (ex_intro _ q B2) (NS _)) H2). congruence. }
  destruct (c_base _ _ C _ _ _ _ _ H1) as (x1&q1&r1&p1&X1&D1&P1&L1).
  destruct (c_base _ _ C _ _ _ _ _ H2) as (x2&q2&r2&p2&X2&D2&P2&L2).
  assert (x1 = x) by congruence. assert (x2 = x) by congruence. subst x1 x2.
  destruct (c_uniq _ _ C _ _ _ _ _ _ _ B1 D1) as (_&->&_). destruct (c_uniq _ _ C _ _ _ _ _ _ _ B2 D2) as (_&->&_).
  unfold base in P1, P2. rewrite R in P1, P2. apply D. congruence.
Qed.
Print Assumptions C51_without_reuse.

(** C51 (the same function again).  Host code that observes models from the outermost
    scope; a model with reuse, first observed with a function that gets variables under
    named and automatically numbered scopes (tf.layers) and returns. Whatever happens
    next, observing it again with the function doing the same returns as well, creates
    no variable, and gets the same variables for the same names in the same order. *)
Theorem C51_again :
  forall eager before after body m x s0 o0 s1 s2 o2,
  hostly before -> hostly after -> plain body ->
  run eager before start = (s0, o0) ->
  nth_error (s_models s0) m = Some x -> m_reuse x = true -> m_args x = true ->
  (forall c q r, ~ In (Began m c q r) (s_log s0)) ->
  observe eager m (run eager body) s0 = (s1, Fine) ->
  run eager after s1 = (s2, o2) ->
  exists s3, observe eager m (run eager body) s2 = (s3, Fine) /\ s_next s3 = s_next s2 /\
    answers_of m (s_calls s2) (s_log s3) = answers_of m (s_calls s0) (s_log s1).
Proof. exact same_program. Qed.
Print Assumptions C51_again.

(** C51 (construction).  reuse_variables=True without a scope is refused, and nothing
    else is. *)
Theorem C51_reuse_needs_scope :
  forall args scope reuse, new_model args scope reuse = None <-> scope = None /\ reuse = true.
Proof. intros args [n|] [|]; cbn; split; try discriminate; auto; intros [A B]; discriminate. Qed.
Print Assumptions C51_reuse_needs_scope.

(** C51 (finding).  A model constructed without its optional args or kwargs can never
    be observed: every observe() raises before the model function is entered. *)
Theorem C51_default_arguments :
  forall eager m x body body' s, nth_error (s_models s) m = Some x -> m_args x = false ->
  snd (observe eager m body s) = Failed /\ fst (observe eager m body s) = fst (observe eager m body' s).
Proof.
  intros eager m x body body' s Hx A. unfold observe, call. rewrite Hx, A.
  destruct (m_scope x) as [n|]; [destruct (m_reuse x)|]; cbn; auto.
Qed.
Print Assumptions C51_default_arguments.

(** C51 (finding).  "A model whose first observe() raised can be observed again" is
    false in both versions of make_template: the function [fun obs => get_variable "w"]
    runs on a new model, but not on one whose first call raised after, or before,
    creating w. *)
Definition w_name : seg := (7, []).
Definition get_w (o : outcome) : prog := GetVar w_name (fun _ => Done o).
Definition after_failure (first : prog) : prog :=
  NewModel true (Some (1, [])) true (fun _ =>
    Try (Observe 0 first (Done Fine)) (fun _ => Observe 0 (get_w Fine) (Done Fine))).
Theorem C51_recovery_refuted :
  (forall eager, snd (run eager (NewModel true (Some (1, [])) true (fun _ => Observe 0 (get_w Fine) (Done Fine))) start) = Fine) /\
  snd (run false (after_failure (get_w Failed)) start) = Failed /\
  snd (run true (after_failure (Done Failed)) start) = Failed.
Proof. split; [intros [|]; reflexivity|split; reflexivity]. Qed.
Print Assumptions C51_recovery_refuted.

(** Two models with reuse and one without; the first is observed from two scopes, with
    two automatically numbered layers. *)
Definition layers : prog :=
  InUnique (3, []) (get_w Fine) (InUnique (3, []) (get_w Fine) (InScope (4, []) (get_w Fine) (Done Fine))).
Definition host : prog :=
  NewModel true (Some (1, [])) true (fun _ =>
  NewModel true (Some (1, [])) true (fun _ =>
  NewModel true (Some (2, [])) false (fun _ =>
  Observe 0 layers (Observe 1 layers (Observe 2 layers
    (InScope (5, []) (Observe 0 layers (Observe 2 layers (Done Fine))) (Try (Observe 2 layers (Done Fine)) (fun _ => Done Fine)))))))).
Example C51_example :
  forall eager, let s := fst (run eager host start) in
  snd (run eager host start) = Fine /\ no_reuse_scopes host /\
  sharing s 0 /\ sharing s 1 /\ not_sharing s 2 /\ starts_afresh s 0 0 /\ starts_afresh s 1 1 /\ starts_afresh s 2 2 /\
  answers_of 0 0 (s_log s) = [([(3, []); w_name], 0); ([(3, [1]); w_name], 1); ([(4, []); w_name], 2)] /\
  answers_of 0 3 (s_log s) = answers_of 0 0 (s_log s) /\
  answers_of 1 1 (s_log s) = [([(3, []); w_name], 3); ([(3, [1]); w_name], 4); ([(4, []); w_name], 5)] /\
  map snd (answers_of 2 2 (s_log s)) = [6; 7; 8] /\ map snd (answers_of 2 4 (s_log s)) = [9; 10; 11] /\
  In (Ended 2 5 false) (s_log s) /\ answers_of 2 5 (s_log s) = [].
Proof.
  intros eager s.
  assert (NR : no_reuse_scopes host) by (cbn; repeat (try split; intros; auto)).
  assert (S1 : forall m c q, In (Began m c q false) (s_log s) -> forallb (fun e => match e with Began m' c' _ _ => negb (Nat.eqb m' m) || Nat.leb c c' | _ => true end) (s_log s) = true -> starts_afresh s m c).
  { intros m c q Hi Hf. split; [exists q; exact Hi|]. intros _ c0 q0 r0 H0. rewrite forallb_forall in Hf. apply Hf in H0.
    rewrite Nat.eqb_refl in H0. cbn in H0. apply Nat.leb_le in H0. exact H0. }
  split; [destruct eager; vm_compute; reflexivity|]. split; [exact NR|].
  destruct eager; subst s;
  (split; [eexists; split; [vm_compute; reflexivity|reflexivity]|]);
  (split; [eexists; split; [vm_compute; reflexivity|reflexivity]|]);
  (split; [eexists; split; [vm_compute; reflexivity|reflexivity]|]);
  (split; [apply (S1 0 0 []); vm_compute; tauto|]); (split; [apply (S1 1 1 []); vm_compute; tauto|]);
  (split; [apply (S1 2 2 []); vm_compute; tauto|]); vm_compute; repeat (split; [reflexivity|]); (split; [tauto|reflexivity]).
Qed.

(** The hypotheses of C51_again: a first call, then other models, a failing call and a
    variable of the host's own. *)
Example C51_again_example :
  forall eager,
  let before := NewModel true (Some (1, [])) true (fun _ => NewModel true (Some (1, [])) true (fun _ => Done Fine)) in
  let after := Observe 1 layers (InScope (1, []) (get_w Fine) (Try (Observe 0 (get_w Fine) (Done Fine)) (fun _ => Done Fine))) in
  let s0 := fst (run eager before start) in
  let s1 := fst (observe eager 0 (run eager layers) s0) in
  let s2 := fst (run eager after s1) in
  let s3 := fst (observe eager 0 (run eager layers) s2) in
  hostly before /\ hostly after /\ plain layers /\
  (exists x, nth_error (s_models s0) 0 = Some x /\ m_reuse x = true /\ m_args x = true) /\
  (forall c q r, ~ In (Began 0 c q r) (s_log s0)) /\
  snd (observe eager 0 (run eager layers) s0) = Fine /\ s_next s2 = 7 /\
  answers_of 0 (s_calls s2) (s_log s3) = [([(3, []); w_name], 0); ([(3, [1]); w_name], 1); ([(4, []); w_name], 2)].
Proof.
  intros eager before after s0 s1 s2 s3.
  split; [cbn; auto|]. split; [vm_compute; tauto|]. split; [vm_compute; tauto|].
  destruct eager; subst s0 s1 s2 s3 before after; (split; [eexists; split; [vm_compute; reflexivity|split; reflexivity]|]);
    (split; [cbn; tauto|]); vm_compute; repeat split.
Qed.
