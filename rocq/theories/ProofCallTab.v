(** The tables of named constructors satisfy the conditions of ProofCall. *)
From Coq Require Import List String Bool Lia Arith.
From Verif Require Import ModelCall SpecCall ProofCall.
Import ListNotations.
Local Open Scope string_scope.

(** ** The tables *)
Ltac in_cases := intros; repeat match goal with H : In _ _ |- _ => simpl in H end;
  repeat match goal with H : _ \/ _ |- _ => destruct H | H : False |- _ => destruct H end; subst.
Fixpoint nodupb (l : list string) : bool := match l with [] => true | k :: l' => negb (among k l') && nodupb l' end.
Lemma nodupb_ok l : nodupb l = true -> NoDup l.
Proof.
  induction l; simpl; intros H; [constructor|]. apply andb_true_iff in H. destruct H as [H1 H2].
  apply negb_true_iff, among_not in H1. constructor; auto.
Qed.
Lemma all_ok (dropped ps names : list string) :
  forallb (fun p => String.eqb p "name" || among p dropped || among p ps) names = true ->
  forall p, In p names -> p = "name" \/ In p dropped \/ In p ps.
Proof.
  intros H p I. rewrite forallb_forall in H. specialize (H p I). rewrite !orb_true_iff, String.eqb_eq, !among_In in H. tauto.
Qed.
Ltac find_in := simpl; repeat (first [left; reflexivity | right]).
Ltac notin := apply among_not; reflexivity.
Ltac table := constructor;
  [ eexists; reflexivity
  | apply nodupb_ok; reflexivity
  | apply nodupb_ok; reflexivity
  | reflexivity
  | in_cases; reflexivity
  | unfold passed; in_cases; (split; [notin|]);
    eexists; eexists; (split; [find_in|]); (split; [find_in|]); now auto
  | apply all_ok; reflexivity
  | in_cases; first [now left | right; split; [find_in|notin]]
  | simpl; now auto
  | first [notin|find_in] ].
Lemma method_fits c w : method c = Some w -> fits c w ["n_samples"].
Proof. intros H. destruct c; simpl in H; try discriminate; injection H as <-; table. Qed.
Lemma legacy_fits c : c <> Empirical -> fits c (legacy c) ["n_samples"].
Proof. intros H. destruct c; try congruence; simpl; table. Qed.
Definition empirical' : wrapper := Wrapper (w_sig (legacy Empirical)) ["dtype"; "batch_shape"]
  [("value_shape", "value_shape"); ("group_ndims", "group_ndims")] true.
Lemma empirical_fits : fits Empirical empirical' ["n_samples"; "is_continuous"].
Proof. unfold empirical'. simpl. table. Qed.
