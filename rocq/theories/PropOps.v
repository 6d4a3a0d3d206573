(** C45: operators on tensor-like objects. *)
From Coq Require Import List ZArith Bool Lia.
From Verif Require Import ModelOps SpecOps.
Import ListNotations.

(** The arithmetic and logical operators build the operator's TensorFlow node with the
    operands in the order written, whichever side is tensor-like. *)
Theorem C45_order right_first o op a b : involved a b -> comparison o = false ->
  meaning o = Some op -> binary right_first o a b = Node op [a; b].
Proof.
  intros I C M. unfold binary, call.
  destruct I as [Ha|Hb]; [rewrite Ha; destruct (kind_of b)|rewrite Hb; destruct (kind_of a)];
    destruct right_first, o; cbn in *; congruence.
Qed.
Print Assumptions C45_order.

(** All operators, comparisons included, evaluate to the operator of the operands in
    the order written. *)
Theorem C45_value {V} (f : tf_op -> V -> V -> V) value right_first o op a b : converse f -> involved a b ->
  meaning o = Some op -> denote f value (binary right_first o a b) = Some (f op (value a) (value b)).
Proof.
  intros Cv I M. destruct (comparison o) eqn:C; [|now rewrite (C45_order _ _ op)].
  unfold binary, call. pose proof (Cv (value a) (value b)) as [E1 E2]. pose proof (Cv (value b) (value a)) as [E3 E4].
  destruct I as [Ha|Hb]; [rewrite Ha; destruct (kind_of b)|rewrite Hb; destruct (kind_of a)];
    destruct right_first, o; cbn in *; congruence.
Qed.
Print Assumptions C45_value.

(** Python integers as values, with the subtraction and comparisons of the integers:
    5 - x is not x - 5 and 5 < x is not x < 5. *)
Example C45_case :
  let f op (a b : Z) := match op with
    | tf_subtract => (a - b)%Z | tf_less => Z.b2z (a <? b)%Z | tf_greater => Z.b2z (b <? a)%Z
    | tf_less_equal => Z.b2z (a <=? b)%Z | tf_greater_equal => Z.b2z (b <=? a)%Z | _ => 0%Z end in
  let x := Object 1 Mixin in let five := Object 2 Foreign in
  let value o := if Z.eqb (identity o) 1 then 3%Z else 5%Z in
  converse f /\ involved five x /\
  denote f value (binary false Sub five x) = Some 2%Z /\ denote f value (binary false Sub x five) = Some (-2)%Z /\
  denote f value (binary false Lt five x) = Some 0%Z /\ denote f value (binary false Lt x five) = Some 1%Z.
Proof. repeat split; try easy. now right. Qed.

(** Matrix multiplication and shifts are not defined: a TypeError, as for any pair of
    operands without the method. *)
Theorem C45_unsupported right_first o a b : meaning o = None -> binary right_first o a b = TypeError.
Proof.
  intros M. unfold binary, call.
  destruct (kind_of a), (kind_of b), right_first, o; cbn in *; congruence.
Qed.
Print Assumptions C45_unsupported.

Theorem C45_unary a : kind_of a = Mixin ->
  unary m_abs a = Node tf_abs [a] /\ unary m_neg a = Node tf_negative [a] /\ unary m_invert a = Node tf_logical_not [a].
Proof. intros H. unfold unary, call. now rewrite H. Qed.
Print Assumptions C45_unary.

(** [==] is identity, on both sides; it is an equivalence and equal objects have equal
    hashes. *)
Theorem C45_equality right_first a b : equal right_first a b = Bool (Z.eqb (identity a) (identity b)).
Proof.
  unfold equal, call. destruct (kind_of a), (kind_of b), right_first; cbn; try easy;
  now rewrite Z.eqb_sym.
Qed.
Theorem C45_hash right_first a b : equal right_first a b = Bool true <-> hash a = hash b.
Proof.
  rewrite C45_equality. unfold hash. split; [intros H; injection H as H; now apply Z.eqb_eq|].
  intros ->. now rewrite Z.eqb_refl.
Qed.
Print Assumptions C45_equality.
Print Assumptions C45_hash.

(** So a dictionary keyed by tensor-like objects is a map from object identities. *)
Lemma matches_id k key : matches k key = Z.eqb (identity k) (identity key).
Proof.
  unfold matches, hash. rewrite C45_equality. destruct (Z.eqb_spec (identity k) (identity key)) as [->|N]; [|easy].
  easy.
Qed.
Theorem C45_dict_same {V} (d : list (object * V)) k k' v : identity k = identity k' ->
  dict_get (dict_set d k v) k' = Some v.
Proof.
  intros E. induction d as [|[key w] d IH]; cbn.
  - now rewrite matches_id, E, Z.eqb_refl.
  - destruct (matches k key) eqn:M; cbn; rewrite matches_id in *.
    + now rewrite <- E, M.
    + now rewrite <- E, M.
Qed.
Theorem C45_dict_other {V} (d : list (object * V)) k k' v : identity k <> identity k' ->
  dict_get (dict_set d k v) k' = dict_get d k'.
Proof.
  intros N. induction d as [|[key w] d IH]; cbn.
  - rewrite matches_id. destruct (Z.eqb_spec (identity k') (identity k)); congruence.
  - destruct (matches k key) eqn:M; cbn; rewrite matches_id in *.
    + apply Z.eqb_eq in M. destruct (Z.eqb_spec (identity k') (identity key)); congruence.
    + now rewrite IH.
Qed.
Print Assumptions C45_dict_same.
Print Assumptions C45_dict_other.
Example C45_dict_case : (* two objects in one dictionary *)
  let a := Object 7 Mixin in let b := Object 9 Mixin in
  dict_get (dict_set (dict_set [] a 1) b 2) a = Some 1 /\ dict_get (dict_set (dict_set [] a 1) b 2) b = Some 2.
Proof. easy. Qed.

(** Testing or iterating always raises, whatever the program would have done next. *)
Theorem C45_rejected a k l : conditional a k = TypeError /\ for_each a l = TypeError.
Proof. easy. Qed.
Print Assumptions C45_rejected.
