(** C02 and C03: context stacks and observe(). *)
From Coq Require Import List Arith Lia.
From Verif Require Import ModelContext SpecContext ProofContext.
Import ListNotations.

(** C02 (balance).  Whatever the program does inside its blocks, whatever
    exceptions are raised, and whatever the stacks were before: afterwards every
    class sees the stack it saw before. *)
Theorem C02_stacks_balanced :
  forall p s, uses_only (fun c => c <> []) p ->
  forall c, visible (s_heap (fst (run p s))) c = visible (s_heap s) c.
Proof. intros p s U c. exact (ext_visible _ _ c (run_ext p U s)). Qed.
Print Assumptions C02_stacks_balanced.

(** C02 (transparency).  A with-block never fails by itself: it ends exactly as
    its body ended. *)
Theorem C02_block_outcome :
  forall c x body s, c <> [] -> uses_only (fun c => c <> []) body ->
  snd (with_block c x (run body) s) =
  snd (run body (St (ctx_enter (s_heap s) c x) (s_locals s) (s_events s))).
Proof.
  intros c x body s Hc U.
  destruct (with_block_balance c x (run body) s Hc (run_ext body U))
    as [h3 [_ [E _]]]. rewrite E. reflexivity.
Qed.
Print Assumptions C02_block_outcome.

(** C02 and C03 (innermost).  For host programs whose context classes are not
    in a subclass relation with one another or with Local (true of BayesianNet),
    every get_context() answer and the (model, observations) captured by every
    network, in order, are those given by lexical nesting: the innermost
    enclosing block of that class, the innermost enclosing observe(); no answer
    (RuntimeError) outside of all; and the program ends as lexical nesting says. *)
Theorem C03_innermost_observe :
  forall P p, unrelated_classes (fun c => P c \/ c = Local_cls) -> ~ P Local_cls ->
  uses_only P p ->
  let '(s, o) := run p (St [] [] []) in
  lexical p [] = (s_events s, o).
Proof.
  intros P p H1 H2 U.
  pose proof (refine P H1 H2 p U _ _ _ (agrees_init P)) as H.
  destruct (run p (St [] [] [])) as [s o]. destruct (lexical p []) as [e o'].
  destruct H as [-> [H _]]. simpl in H. now rewrite H.
Qed.
Print Assumptions C03_innermost_observe.

(** The library's classes meet the hypotheses. *)
Example C03_library_classes :
  unrelated_classes (fun c => c = BayesianNet_cls \/ c = Local_cls)
  /\ BayesianNet_cls <> Local_cls.
Proof.
  split; [|discriminate]. split.
  - intros c [->| ->]; discriminate.
  - intros a b Ha Hb [pre [Hp E]]. apply Hp.
    destruct Ha as [->| ->], Hb as [->| ->];
      assert (length pre = 0) by (apply (f_equal (@length nat)) in E;
        rewrite app_length in E; simpl in E; lia);
      destruct pre; auto; discriminate.
Qed.

(** A program meeting them: an observe() whose model function itself observes
    another model, fails inside, catches, and creates networks at every level. *)
Definition ex_prog : prog :=
  Observe 1 (fun n => Some n)
    (NewBN (Observe 2 (fun _ => None)
       (With BayesianNet_cls 9 (NewBN (Done (Raised 5))) Done)
       (fun _ => GetContext BayesianNet_cls (fun _ => NewBN (Done Normal)))))
    (fun _ => NewBN (Done Normal)).
Example C03_witness :
  uses_only (fun c => c = BayesianNet_cls) ex_prog /\
  s_events (fst (run ex_prog (St [] [] []))) =
  [EvBN (Some (1, fun n => Some n)); EvBN (Some (2, fun _ => None));
   EvContext BayesianNet_cls None;
   EvBN (Some (1, fun n => Some n)); EvBN None].
Proof. split; [|reflexivity]. repeat (constructor; intros). Qed.

(** The subclass hypothesis is needed (finding): when a user-defined subclass of
    BayesianNet is the first to be used as a context, its stack is invisible to
    BayesianNet.get_context(), so an enclosing network is not found ... *)
Theorem C03_subclass_context_refuted :
  let Sub := 7 :: BayesianNet_cls in
  let p := With Sub 3 (GetContext BayesianNet_cls (fun _ => Done Normal)) Done in
  let q := GetContext BayesianNet_cls (fun _ => p) in
  s_events (fst (run p (St [] [] []))) = [EvContext BayesianNet_cls None] /\
  s_events (fst (run q (St [] [] []))) =
    [EvContext BayesianNet_cls None; EvContext BayesianNet_cls (Some 3)].
Proof. split; reflexivity. Qed.
Print Assumptions C03_subclass_context_refuted.

(** ... and once Context itself has been asked for its stack, Local and
    BayesianNet share one list, so an open network is returned as if it were the
    observing Local context. *)
Theorem C03_shared_stack_refuted :
  let p := GetContext Context_cls (fun _ =>
             With BayesianNet_cls 3 (GetContext Local_cls (fun _ => Done Normal)) Done) in
  s_events (fst (run p (St [] [] []))) =
    [EvContext Context_cls None; EvContext Local_cls (Some 3)].
Proof. reflexivity. Qed.
Print Assumptions C03_shared_stack_refuted.
