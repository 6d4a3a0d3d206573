(** The real numbers of the standard library as a mathcomp field, so that mathcomp's
    matrices and determinants can be used over them. Choice on R comes from the
    standard library's ClassicalEpsilon. *)
From Coq Require Import Reals Lra ClassicalEpsilon FunctionalExtensionality.
From mathcomp Require Import all_ssreflect all_algebra.
Set Implicit Arguments.
Unset Strict Implicit.
Unset Printing Implicit Defensive.

Definition R_eqb (x y : R) : bool := if Req_EM_T x y then true else false.
Lemma R_eqP : Equality.axiom R_eqb.
Proof. move=> x y; rewrite /R_eqb; case: Req_EM_T => H; by [apply: ReflectT | apply: ReflectF]. Qed.
Canonical R_eqMixin := EqMixin R_eqP.
Canonical R_eqType := Eval hnf in EqType R R_eqMixin.

Definition R_find (P : pred R) (n : nat) : option R :=
  if excluded_middle_informative (exists x, P x) is left h
  then Some (proj1_sig (constructive_indefinite_description _ h)) else None.
Lemma R_choiceMixin : choiceMixin R.
Proof.
  exists R_find.
  - move=> P n x; rewrite /R_find. case: excluded_middle_informative => // h [<-].
    by case: constructive_indefinite_description.
  - move=> P h; exists 0%N; rewrite /R_find. by case: excluded_middle_informative.
  - move=> P Q PQ n. by have -> : P = Q by apply: functional_extensionality.
Qed.
Canonical R_choiceType := Eval hnf in ChoiceType R R_choiceMixin.

Lemma R_addA : associative Rplus. Proof. move=> x y z; ring. Qed.
Lemma R_addC : commutative Rplus. Proof. move=> x y; ring. Qed.
Lemma R_add0 : left_id R0 Rplus. Proof. move=> x; ring. Qed.
Lemma R_addN : left_inverse R0 Ropp Rplus. Proof. move=> x; ring. Qed.
Definition R_zmodMixin := ZmodMixin R_addA R_addC R_add0 R_addN.
Canonical R_zmodType := Eval hnf in ZmodType R R_zmodMixin.

Lemma R_mulA : associative Rmult. Proof. move=> x y z; ring. Qed.
Lemma R_mulC : commutative Rmult. Proof. move=> x y; ring. Qed.
Lemma R_mul1 : left_id R1 Rmult. Proof. move=> x; ring. Qed.
Lemma R_mulDl : left_distributive Rmult Rplus. Proof. move=> x y z; ring. Qed.
Lemma R_1neq0 : R1 != R0. Proof. apply/eqP; lra. Qed.
Definition R_ringMixin := ComRingMixin R_mulA R_mulC R_mul1 R_mulDl R_1neq0.
Canonical R_ringType := Eval hnf in RingType R R_ringMixin.
Canonical R_comRingType := Eval hnf in ComRingType R R_mulC.

(** The ring operations are the operations of the standard library. *)
Lemma R_addE (x y : R) : GRing.add x y = Rplus x y. Proof. by []. Qed.
Lemma R_mulE (x y : R) : GRing.mul x y = Rmult x y. Proof. by []. Qed.
Lemma R_oppE (x : R) : GRing.opp x = Ropp x. Proof. by []. Qed.
Lemma R_zeroE : (GRing.zero R_zmodType) = R0. Proof. by []. Qed.
Lemma R_oneE : (GRing.one R_ringType) = R1. Proof. by []. Qed.
