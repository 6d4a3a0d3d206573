(** C75: data preparation of the examples. *)
From Coq Require Import List Reals Arith ZArith Bool Permutation Lra Lia.
From Verif Require Import SpecDist SpecVI ModelExamples SpecExamples ProofExamples ProofDiscrete.
Import ListNotations.
Local Open Scope R_scope.

(** ** Standardization *)
Lemma mean_total {A} (f : A -> R) l : mean (map f l) = total f l / INR (length l).
Proof. unfold mean. rewrite map_length, total_map. reflexivity. Qed.
Lemma total_zero {A} (f : A -> R) l : (forall x, In x l -> 0 <= f x) -> total f l = 0 -> forall x, In x l -> f x = 0.
Proof.
  induction l as [|a l IH]; intros P E x Hx; [destruct Hx|]. cbn in E. assert (P1 : 0 <= f a) by (apply P; now left). assert (P2 : 0 <= total f l) by (apply total_nonneg; intros y Hy; apply P; now right).
  destruct Hx as [<-|Hx]; [lra|]. apply IH; [intros y Hy; apply P; now right|lra|exact Hx].
Qed.
Lemma total_const {A} c (l : list A) : total (fun _ => c) l = INR (length l) * c.
Proof. induction l as [|a l IH]; [cbn; ring|]. cbn [length]. rewrite S_INR. cbn in *. rewrite IH. ring. Qed.
Theorem C75_standardize train test : train <> [] ->
  let '(train', test', m, s) := standardize train test in
  forall j,
    m j = mean (map (fun x => x j) train) /\ mean (map (fun x => x j) train') = 0 /\
    ((exists x y, In x train /\ In y train /\ x j <> y j) ->
       s j = sqrt (mean (map (fun x => (x j - m j) ^ 2) train)) /\ mean (map (fun x => x j ^ 2) train') = 1) /\
    ((forall x y, In x train -> In y train -> x j = y j) -> s j = 1 /\ forall x, In x train' -> x j = 0) /\
    0 < s j /\
    map (fun x => x j * s j + m j) train' = map (fun x => x j) train /\
    map (fun x => x j * s j + m j) test' = map (fun x => x j) test.
Proof.
  intros N. unfold standardize. intros j. set (m := column_mean train j). set (s := used_std train j).
  assert (L : 0 < INR (length train)) by (apply lt_0_INR; destruct train; [congruence|cbn; lia]).
  assert (Em : m = mean (map (fun x => x j) train)) by (unfold m, column_mean; now rewrite mean_total).
  assert (Ev : column_std train j = sqrt (mean (map (fun x => (x j - m) ^ 2) train))) by (unfold column_std; now rewrite mean_total).
  set (var := mean (map (fun x => (x j - m) ^ 2) train)) in *. assert (Pv : 0 <= var). { unfold var. rewrite mean_total. apply Rmult_le_pos; [apply total_nonneg; intros; apply pow2_ge_0|left; apply Rinv_0_lt_compat; exact L]. }
  assert (T0 : total (fun x => x j - m) train = 0). { unfold Rminus. rewrite (total_plus (fun x => x j) (fun _ => - m)), total_const, Em, mean_total. field. apply Rgt_not_eq. exact L. }
  assert (Z : var = 0 -> forall x, In x train -> x j = m). { intros V x Hx. unfold var in V. rewrite mean_total in V. apply Rmult_integral in V as [V|V]; [|apply Rinv_neq_0_compat in V; [easy|lra]]. assert (Q := total_zero (fun x => (x j - m) ^ 2) train (fun y _ => pow2_ge_0 _) V x Hx). cbn in Q. rewrite Rmult_1_r in Q. apply Rmult_integral in Q. lra. }
  assert (S : 0 < s). { unfold s, used_std. destruct (Req_EM_T (column_std train j) 0) as [E|E]; [lra|]. rewrite Ev in E |- *. destruct (sqrt_pos var) as [P|P]; [exact P|congruence]. }
  split; [exact Em|]. split.
  { rewrite map_map, mean_total. rewrite (total_ext _ (fun x => / s * (x j - m))) by (intros; unfold Rdiv; apply Rmult_comm). rewrite total_scal, T0. unfold Rdiv. ring. }
  split.
  { intros (x & y & Hx & Hy & D). assert (V : 0 < var). { destruct (Rle_lt_or_eq_dec _ _ Pv) as [P|E]; [exact P|]. exfalso. apply D. rewrite (Z (eq_sym E) x Hx), (Z (eq_sym E) y Hy). reflexivity. }
    assert (Es : s = sqrt var). { unfold s, used_std. rewrite Ev. destruct (Req_EM_T (sqrt var) 0) as [E|E]; [|reflexivity]. pose proof (sqrt_lt_R0 var V). lra. }
    split; [exact Es|]. rewrite map_map, mean_total. rewrite (total_ext _ (fun x => / var * (x j - m) ^ 2)). 2:{ intros z _. fold m s. replace var with (s ^ 2); [field; lra|]. rewrite Es, <- Rsqr_pow2. apply Rsqr_sqrt. lra. }
    rewrite total_scal. assert (T : total (fun x => (x j - m) ^ 2) train = var * INR (length train)) by (unfold var; rewrite mean_total; field; lra). rewrite T. field. lra. }
  split.
  { intros A. assert (Q : forall x, In x train -> x j = m). { intros x Hx. rewrite Em, mean_total. rewrite (total_ext _ (fun _ => x j)) by (intros y Hy; now apply A). rewrite total_const. field. lra. }
    assert (V0 : var = 0). { unfold var. rewrite mean_total. rewrite (total_ext _ (fun x => 0 * x j)) by (intros x Hx; rewrite (Q x Hx); ring). rewrite total_scal. unfold Rdiv. ring. }
    split; [unfold s, used_std; rewrite Ev, V0, sqrt_0; destruct (Req_EM_T 0 0); [reflexivity|congruence]|]. intros x Hx. apply in_map_iff in Hx as (y & <- & Hy). fold m s. rewrite (Q y Hy). unfold Rdiv. ring. }
  split; [exact S|]. split; rewrite map_map; apply map_ext; intros x; fold m s; field; lra.
Qed.
Print Assumptions C75_standardize.
Example C75_standardize_case : exists x y : row, In x [(fun j => INR j); (fun _ => 1)] /\ In y [(fun j => INR j); (fun _ => 1)] /\ x 0%nat <> y 0%nat /\ (forall a b, In a [(fun j => INR j); (fun _ => 1)] -> In b [(fun j => INR j); (fun _ => 1)] -> a 1%nat = b 1%nat).
Proof. exists (fun j => INR j), (fun _ => 1). split; [now left|]. split; [now right; left|]. split; [cbn; lra|]. intros a b [<-|[<-|[]]] [<-|[<-|[]]]; reflexivity. Qed.

(** ** One-hot labels *)
Lemma all_present_some {A B} (f : A -> option B) l : (forall x, In x l -> f x <> None) -> exists r, all_present (map f l) = Some r /\ length r = length l /\ forall i x, nth_error l i = Some x -> f x = nth_error r i.
Proof.
  induction l as [|a l IH]; intros H; [exists []; repeat split; intros [|i]; discriminate|]. destruct IH as (r & E & L & Q); [intros x Hx; apply H; now right|]. cbn. destruct (f a) as [b|] eqn:Ea; [|exfalso; apply (H a); [now left|exact Ea]]. rewrite E. exists (b :: r). split; [reflexivity|]. split; [cbn; lia|]. intros [|i] x; cbn; [now intros [= <-]|apply Q].
Qed.
Lemma all_present_none {A B} (f : A -> option B) l x : In x l -> f x = None -> all_present (map f l) = None.
Proof. induction l as [|a l IH]; intros Hx E; [destruct Hx|]. cbn. destruct Hx as [->|Hx]; [now rewrite E|]. destruct (f a); [|reflexivity]. now rewrite IH. Qed.
Theorem C75_one_hot x depth : (forall k, In k x -> (0 <= k < Z.of_nat depth)%Z) ->
  exists rows, to_one_hot x depth = Some rows /\ length rows = length x /\
    forall i k, nth_error x i = Some k -> exists r, nth_error rows i = Some r /\ length r = depth /\ forall j, (j < depth)%nat -> nth j r 0 = if Z.eqb (Z.of_nat j) k then 1 else 0.
Proof.
  intros H. assert (I : forall k, In k x -> index_of depth k = Some (Z.to_nat k)). { intros k Hk. specialize (H k Hk). unfold index_of. replace (_ && _)%bool with true; [reflexivity|]. symmetry. apply andb_true_intro. split; [apply Z.leb_le|apply Z.ltb_lt]; lia. }
  destruct (all_present_some (index_of depth) x) as (ks & E & L & Q); [intros k Hk; rewrite (I k Hk); discriminate|]. unfold to_one_hot. rewrite E. eexists. split; [reflexivity|]. split; [now rewrite map_length|]. intros i k Hi. specialize (Q i k Hi). pose proof (nth_error_In _ _ Hi) as Hk. rewrite (I k Hk) in Q.
  eexists. split; [rewrite nth_error_map, <- Q; reflexivity|]. split; [now rewrite map_length, seq_length|]. intros j Hj. rewrite nth_indep with (d' := (fun j => if (j =? Z.to_nat k)%nat then 1 else 0) 0%nat) by (rewrite map_length, seq_length; lia). rewrite (map_nth (fun j => if (j =? Z.to_nat k)%nat then 1 else 0)), seq_nth by lia. cbn [Nat.add]. specialize (H k Hk).
  destruct (Nat.eqb_spec j (Z.to_nat k)), (Z.eqb_spec (Z.of_nat j) k); try reflexivity; lia.
Qed.
(** A label outside -depth..depth-1 is rejected; a negative one inside is taken from the end. *)
Theorem C75_one_hot_rejects x depth k : In k x -> (k < - Z.of_nat depth \/ Z.of_nat depth <= k)%Z -> to_one_hot x depth = None.
Proof.
  intros Hk R. unfold to_one_hot. rewrite (all_present_none _ x k Hk); [reflexivity|]. unfold index_of. replace (_ && _)%bool with false; [replace (_ && _)%bool with false; [reflexivity|]|]; symmetry; apply andb_false_iff; rewrite Z.leb_gt, Z.ltb_ge; lia.
Qed.
Theorem C75_one_hot_negative_refuted : exists x depth, to_one_hot [x] depth <> None /\ (x < 0)%Z /\ to_one_hot [x] depth = to_one_hot [(Z.of_nat depth + x)%Z] depth.
Proof. exists (-1)%Z, 3%nat. split; [discriminate|]. split; [lia|]. reflexivity. Qed.
Print Assumptions C75_one_hot.
Print Assumptions C75_one_hot_rejects.
Print Assumptions C75_one_hot_negative_refuted.

(** ** Semi-supervised data *)
Section SemiSupervised.
Context {A : Type} (classes k : nat) (shuffle : nat -> list (A * nat) -> list (A * nat)) (shuffle_all : list A -> list A).
Hypothesis shuffles : forall i l, Permutation l (shuffle i l).
Hypothesis shuffles_all : forall l, Permutation l (shuffle_all l).
Lemma filter_permutation {B} (f : B -> bool) l l' : Permutation l l' -> Permutation (filter f l) (filter f l').
Proof. induction 1; cbn; repeat destruct (f _); eauto using Permutation; apply Permutation_refl. Qed.
Lemma filter_id {B} (f : B -> bool) l : (forall x, In x l -> f x = true) -> filter f l = l.
Proof. induction l as [|a l IH]; intros H; [reflexivity|]. cbn. rewrite (H a) by now left. f_equal. apply IH. intros x Hx. apply H. now right. Qed.
Lemma filter_none {B} (f : B -> bool) l : (forall x, In x l -> f x = false) -> filter f l = [].
Proof. induction l as [|a l IH]; intros H; [reflexivity|]. cbn. rewrite (H a) by now left. apply IH. intros x Hx. apply H. now right. Qed.
Lemma in_shuffle i train p : In p (firstn k (shuffle i (by_class train i))) -> In p train /\ snd p = i.
Proof.
  intros H. assert (In p (by_class train i)). { apply (Permutation_in p (Permutation_sym (shuffles i _))). rewrite <- (firstn_skipn k (shuffle i (by_class train i))). apply in_or_app. now left. }
  apply filter_In in H0 as (H1 & H2). apply Nat.eqb_eq in H2. now split.
Qed.
Lemma labeled_class train i n : filter (with_label i) (flat_map (fun i => firstn k (shuffle i (by_class train i))) (seq 0 n)) = if Nat.ltb i n then firstn k (shuffle i (by_class train i)) else [].
Proof.
  induction n as [|n IH]; [reflexivity|]. rewrite seq_S, flat_map_app, filter_app, IH. cbn [flat_map Nat.add]. rewrite app_nil_r. destruct (Nat.ltb_spec i n) as [L|L].
  - replace (i <? S n)%nat with true by (symmetry; apply Nat.ltb_lt; lia). rewrite (filter_none (with_label i) (firstn k (shuffle n _))); [now rewrite app_nil_r|]. intros p Hp. apply in_shuffle in Hp as (_ & <-). unfold with_label. apply Nat.eqb_neq. lia.
  - cbn [app]. destruct (Nat.eq_dec i n) as [->|D].
    + replace (n <? S n)%nat with true by (symmetry; apply Nat.ltb_lt; lia). apply filter_id. intros p Hp. apply in_shuffle in Hp as (_ & <-). unfold with_label. apply Nat.eqb_refl.
    + replace (i <? S n)%nat with false by (symmetry; apply Nat.ltb_ge; lia). apply filter_none. intros p Hp. apply in_shuffle in Hp as (_ & <-). unfold with_label. apply Nat.eqb_neq. lia.
Qed.
(** Every class gives k of its points, or all if there are fewer, with their labels. *)
Theorem C75_labeled train i : (i < classes)%nat ->
  length (filter (with_label i) (labeled classes k shuffle train)) = Nat.min k (length (filter (with_label i) train)).
Proof.
  intros Hi. unfold labeled. rewrite labeled_class. replace (i <? classes)%nat with true by (symmetry; apply Nat.ltb_lt; lia). rewrite firstn_length. f_equal. symmetry. apply Permutation_length. apply shuffles.
Qed.
(** No training point is used twice: the labeled points are a part of the training set. *)
Lemma part_of_classes train n : exists rest, Permutation (filter (fun p => Nat.ltb (snd p) n) train) (flat_map (fun i => firstn k (shuffle i (by_class train i))) (seq 0 n) ++ rest).
Proof.
  induction n as [|n (rest & IH)].
  - exists []. cbn. rewrite filter_none; [constructor|]. reflexivity.
  - exists (skipn k (shuffle n (by_class train n)) ++ rest). rewrite seq_S, flat_map_app. cbn [flat_map Nat.add]. rewrite app_nil_r.
    assert (S : Permutation (filter (fun p : A * nat => (snd p <? S n)%nat) train) (filter (fun p => (snd p <? n)%nat) train ++ by_class train n)).
    { clear. unfold by_class. induction train as [|p l IH]; [constructor|]. cbn [filter]. destruct (Nat.ltb_spec (snd p) (S n)), (Nat.ltb_spec (snd p) n), (Nat.eqb_spec (snd p) n); try lia; cbn [app]; [now constructor|now apply Permutation_cons_app|exact IH]. }
    rewrite S, IH, <- !app_assoc. apply Permutation_app_head. etransitivity; [apply Permutation_app_comm|]. rewrite app_assoc, firstn_skipn. apply Permutation_app_tail. apply shuffles.
Qed.
Theorem C75_labeled_part train : (forall p, In p train -> (snd p < classes)%nat) -> exists rest, Permutation train (labeled classes k shuffle train ++ rest).
Proof.
  intros H. destruct (part_of_classes train classes) as (rest & P). exists rest. rewrite filter_id in P; [exact P|]. intros p Hp. apply Nat.ltb_lt. now apply H.
Qed.
(** The unlabeled points are all training points, in another order: also the labeled ones. *)
Theorem C75_unlabeled train : Permutation (unlabeled shuffle_all train) (map fst train) /\ (forall p, In p (labeled classes k shuffle train) -> In (fst p) (unlabeled shuffle_all train)).
Proof.
  assert (P : Permutation (map fst train) (unlabeled shuffle_all train)) by apply shuffles_all. split; [now symmetry|]. intros p Hp. apply (Permutation_in _ P). apply in_map. unfold labeled in Hp. apply in_flat_map in Hp as (i & _ & Hp). now apply in_shuffle in Hp.
Qed.
End SemiSupervised.
Print Assumptions C75_labeled.
Print Assumptions C75_labeled_part.
Print Assumptions C75_unlabeled.
Example C75_labeled_case : labeled 2 1 (fun _ l => rev l) [(10, 0); (11, 1); (12, 0); (13, 1)]%nat = [(12, 0); (13, 1)]%nat /\ forall l : list (nat * nat), Permutation l (rev l).
Proof. split; [reflexivity|apply Permutation_rev]. Qed.

(** ** Splits *)
Lemma rows_at_seq {A} (d : A) data : rows_at d data (seq 0 (length data)) = data.
Proof.
  unfold rows_at. apply nth_ext with (d := d) (d' := d); [now rewrite map_length, seq_length|]. intros i Hi. rewrite map_length, seq_length in Hi. rewrite nth_indep with (d' := (fun i => nth i data d) 0%nat) by now rewrite map_length, seq_length. rewrite (map_nth (fun i => nth i data d)), seq_nth by exact Hi. reflexivity.
Qed.
(** Every row is in exactly one of the three sets, whose sizes are 8, 1 and 1 tenths, rounded. *)
Theorem C75_uci_split {A} (d : A) up permutation data : Permutation permutation (seq 0 (length data)) ->
  let '(train, validation, test) := uci_split d up permutation data in
  Permutation (train ++ validation ++ test) data /\
  (8 * length data <= 10 * length train + 5 /\ 10 * length train <= 8 * length data + 5 /\
   9 * length data <= 10 * (length train + length test) + 5 /\ 10 * (length train + length test) <= 9 * length data + 5)%nat.
Proof.
  intros P. unfold uci_split. set (n := length data). assert (Lp : length permutation = n) by (apply Permutation_length in P; now rewrite seq_length in P).
  pose proof (Nat.div_mod (8 * n + 5) 10 ltac:(lia)) as E1. pose proof (Nat.mod_upper_bound (8 * n + 5) 10 ltac:(lia)) as B1. fold (size_train n) in E1.
  assert (E2 : (9 * n <= 10 * size_test up n + 5 /\ 10 * size_test up n <= 9 * n + 5)%nat). { unfold size_test. destruct up; [pose proof (Nat.div_mod (9 * n + 5) 10 ltac:(lia)); pose proof (Nat.mod_upper_bound (9 * n + 5) 10 ltac:(lia))|pose proof (Nat.div_mod (9 * n + 4) 10 ltac:(lia)); pose proof (Nat.mod_upper_bound (9 * n + 4) 10 ltac:(lia))]; lia. }
  assert (O : (size_train n <= size_test up n)%nat). { unfold size_train, size_test. destruct up; [apply Nat.div_le_mono; lia|]. destruct n as [|n]; [cbn; lia|]. apply Nat.div_le_mono; lia. }
  assert (O2 : (size_test up n <= n)%nat) by lia.
  split.
  - unfold rows_at. rewrite <- !map_app. transitivity (rows_at d data (seq 0 (length data))); [|now rewrite rows_at_seq]. apply Permutation_map. rewrite <- P.
    etransitivity; [apply Permutation_app_head, Permutation_app_comm|]. rewrite app_assoc. replace (slice 0 (size_train n) permutation) with (firstn (size_train n) permutation) by (unfold slice; cbn; now rewrite Nat.sub_0_r). rewrite firstn_slice by exact O. now rewrite firstn_skipn.
  - unfold rows_at. rewrite !map_length, !slice_length, Lp. replace (Nat.min (size_train n - 0) (n - 0)) with (size_train n) by lia. replace (Nat.min (size_test up n - size_train n) (n - size_train n)) with (size_test up n - size_train n)%nat by lia. lia.
Qed.
Print Assumptions C75_uci_split.
Example C75_uci_case : uci_split 0%nat true [2; 0; 1; 4; 3; 9; 8; 7; 5; 6]%nat [10; 11; 12; 13; 14; 15; 16; 17; 18; 19]%nat = ([12; 10; 11; 14; 13; 19; 18; 17], [16], [15])%nat.
Proof. reflexivity. Qed.
Theorem C75_credits {A} n_train (data : list A) : let '(train, test) := credits_split n_train data in train ++ test = data /\ ((n_train <= length data)%nat -> length train = n_train).
Proof. split; [apply firstn_skipn|]. intros. rewrite firstn_length. lia. Qed.
Print Assumptions C75_credits.
Theorem C75_movielens {A} (corpus : list A) : let '(train, valid, test) := movielens_split corpus in
  train ++ valid ++ test = corpus /\ length train = (length corpus / 20 * 17)%nat /\ (length train + length valid = length corpus / 10 * 9)%nat.
Proof.
  unfold movielens_split. set (n := length corpus). pose proof (Nat.div_mod n 20 ltac:(lia)) as E1. pose proof (Nat.mod_upper_bound n 20 ltac:(lia)) as B1. pose proof (Nat.div_mod n 10 ltac:(lia)) as E2. pose proof (Nat.mod_upper_bound n 10 ltac:(lia)) as B2.
  set (a := (n / 20)%nat) in *. set (b := (n / 10)%nat) in *. assert (O : (a * 17 <= b * 9)%nat) by lia. split; [|rewrite !slice_length; fold n; lia].
  replace (slice 0 (a * 17) corpus) with (firstn (a * 17) corpus) by (unfold slice; cbn [skipn]; now rewrite Nat.sub_0_r). rewrite app_assoc, firstn_slice by exact O. apply firstn_skipn.
Qed.
Print Assumptions C75_movielens.

(** ** Lists per user, movie and document *)
Lemma append_at_some {A} (l : list (list A)) i a : (i < length l)%nat -> exists l', append_at l i a = Some l' /\ length l' = length l /\ forall j, nth j l' [] = if Nat.eqb i j then nth j l [] ++ [a] else nth j l [].
Proof.
  revert i. induction l as [|x l IH]; intros i Hi; [cbn in Hi; lia|]. destruct i as [|i].
  - eexists. split; [reflexivity|]. split; [reflexivity|]. intros [|j]; reflexivity.
  - cbn [append_at]. destruct (IH i) as (l' & E & L & Q); [cbn in Hi; lia|]. rewrite E. eexists. split; [reflexivity|]. split; [cbn; lia|]. intros [|j]; cbn; [reflexivity|apply Q].
Qed.
Lemma append_each_some {A B} (key : B -> nat) (f : B -> A) data acc : (forall b, In b data -> (key b < length acc)%nat) ->
  exists l, append_each key f data acc = Some l /\ length l = length acc /\ forall j, nth j l [] = nth j acc [] ++ map f (filter (fun b => Nat.eqb (key b) j) data).
Proof.
  revert acc. induction data as [|b data IH]; intros acc H; cbn [append_each].
  - exists acc. split; [reflexivity|]. split; [reflexivity|]. intros j. cbn. now rewrite app_nil_r.
  - destruct (append_at_some acc (key b) (f b)) as (acc' & E & L & Q); [apply H; now left|]. rewrite E. destruct (IH acc') as (l & El & Ll & Ql); [intros c Hc; rewrite L; apply H; now right|]. exists l. split; [exact El|]. split; [lia|]. intros j. rewrite Ql, Q. cbn [filter]. destruct (Nat.eqb (key b) j); [|reflexivity]. cbn [map]. now rewrite <- app_assoc.
Qed.
Lemma num_of_above key corpus t : In t corpus -> (key t < num_of key corpus)%nat.
Proof.
  unfold num_of. assert (X : forall l m, (m <= fold_left (fun m t => Nat.max m (key t + 1)) l m)%nat /\ forall t, In t l -> (key t < fold_left (fun m t => Nat.max m (key t + 1)) l m)%nat).
  { induction l as [|a l IH]; intros m; [split; [cbn; lia|now intros ? []]|]. cbn [fold_left]. destruct (IH (Nat.max m (key a + 1))) as (I1 & I2). split; [lia|]. intros u [<-|Hu]; [lia|now apply I2]. }
  intros Ht. now apply X.
Qed.
Lemma nth_repeat_nil {A} n j : nth j (repeat (@nil A) n) [] = [].
Proof. revert j. induction n as [|n IH]; intros [|j]; cbn; auto. Qed.
(** One list for every user up to the largest identifier, holding the movies (or scores) of
    exactly this user's training ratings, in their order; likewise for movies. *)
Theorem C75_grouped {A} key (f : rating -> A) corpus train : incl train corpus ->
  exists lists, grouped key f (num_of key corpus) train = Some lists /\ length lists = num_of key corpus /\
    forall i, nth i lists [] = map f (filter (fun t => Nat.eqb (key t) i) train).
Proof.
  intros I. destruct (append_each_some key f train (repeat [] (num_of key corpus))) as (l & E & L & Q).
  - intros b Hb. rewrite repeat_length. apply num_of_above. now apply I.
  - exists l. split; [exact E|]. split; [now rewrite L, repeat_length|]. intros i. now rewrite Q, nth_repeat_nil.
Qed.
(** The smallest such number: some rating has the last identifier. *)
Theorem C75_num_of key corpus : corpus <> [] -> exists t, In t corpus /\ num_of key corpus = (key t + 1)%nat.
Proof.
  unfold num_of. assert (X : forall l m, fold_left (fun m t => Nat.max m (key t + 1)) l m = m \/ exists t, In t l /\ fold_left (fun m t => Nat.max m (key t + 1)) l m = (key t + 1)%nat).
  { induction l as [|a l IH]; intros m; [now left|]. cbn [fold_left]. destruct (IH (Nat.max m (key a + 1))) as [E|(t & Ht & E)]; [|right; exists t; split; [now right|exact E]]. rewrite E. destruct (Nat.max_spec m (key a + 1)) as [(_ & ->)|(_ & ->)]; [right; exists a; split; [now left|reflexivity]|now left]. }
  intros N. destruct (X corpus 0%nat) as [E|H]; [|exact H]. destruct corpus as [|t l]; [congruence|]. pose proof (num_of_above key (t :: l) t (or_introl eq_refl)) as B. unfold num_of in B. rewrite E in B. lia.
Qed.
Theorem C75_untrained key num train lists : (forall t, In t train -> (key t < num)%nat) -> grouped key (fun t => t) num train = Some lists ->
  untrained key num train = length (filter (fun l => match l with [] => true | _ => false end) lists).
Proof.
  intros H G. destruct (append_each_some key (fun t => t) train (repeat [] num)) as (l & E & L & Q); [intros b Hb; rewrite repeat_length; now apply H|]. unfold grouped in G. rewrite G in E. injection E as <-. rewrite repeat_length in L.
  assert (El : lists = map (fun i => filter (fun t => Nat.eqb (key t) i) train) (seq 0 num)). { apply nth_ext with (d := []) (d' := []); [now rewrite map_length, seq_length|]. intros i Hi. rewrite Q, nth_repeat_nil, map_id. symmetry. rewrite nth_indep with (d' := (fun i => filter (fun t => Nat.eqb (key t) i) train) 0%nat) by (rewrite map_length, seq_length; lia). rewrite (map_nth (fun i => filter (fun t => Nat.eqb (key t) i) train)), seq_nth by lia. reflexivity. }
  unfold untrained. rewrite El. clear. assert (X : forall s, (length (filter (fun i => existsb (fun t => Nat.eqb (key t) i) train) s) + length (filter (fun l : list rating => match l with [] => true | _ => false end) (map (fun i => filter (fun t => Nat.eqb (key t) i) train) s)) = length s)%nat).
  { induction s as [|i s IH]; [reflexivity|]. cbn [filter map]. assert (Y : existsb (fun t => Nat.eqb (key t) i) train = match filter (fun t => Nat.eqb (key t) i) train with [] => false | _ => true end). { clear. induction train as [|t l IH]; [reflexivity|]. cbn. destruct (Nat.eqb (key t) i); [reflexivity|exact IH]. }
    rewrite Y. destruct (filter (fun t => Nat.eqb (key t) i) train); cbn [length]; lia. }
  specialize (X (seq 0 num)). rewrite seq_length in X. lia.
Qed.
Print Assumptions C75_grouped.
Print Assumptions C75_num_of.
Print Assumptions C75_untrained.
Example C75_grouped_case : let corpus := [(0, 2, 5); (2, 0, 3); (0, 1, 4)]%nat in let train := [(0, 2, 5); (0, 1, 4)]%nat in
  incl train corpus /\ grouped r_user r_movie (num_of r_user corpus) train = Some [[2; 1]; []; []]%nat /\ untrained r_user (num_of r_user corpus) train = 2%nat.
Proof. split; [intros t [<-|[<-|[]]]; cbn; auto|]. split; reflexivity. Qed.
(** The array and the lists of a bag of words agree: both hold for every document and word the
    sum of the counts of the file. *)
Theorem C75_bag_of_words D entries : (forall e, In e entries -> (1 <= fst (fst e) <= D /\ 1 <= snd (fst e))%nat) ->
  exists lists, bow_sparse D entries = Some lists /\ length lists = D /\
  forall d v, let count := list_sum (map snd (filter (fun e => andb (Nat.eqb (fst (fst e)) (d + 1)) (Nat.eqb (snd (fst e)) (v + 1))) entries)) in
    bow_dense entries d v = count /\ list_sum (map snd (filter (fun p => Nat.eqb (fst p) v) (nth d lists []))) = count.
Proof.
  intros H. destruct (append_each_some (fun e : bow_entry => (fst (fst e) - 1)%nat) (fun e => ((snd (fst e) - 1)%nat, snd e)) entries (repeat [] D)) as (l & E & L & Q).
  { intros e He. rewrite repeat_length. specialize (H e He). lia. }
  rewrite repeat_length in L. exists l. split; [exact E|]. split; [exact L|]. intros d v. cbv zeta. split.
  - unfold bow_dense. assert (X : forall es data, (forall e, In e es -> (1 <= fst (fst e) <= D /\ 1 <= snd (fst e))%nat) -> fold_left (fun (data : nat -> nat -> nat) (e : bow_entry) d v => if andb (Nat.eqb d (fst (fst e) - 1)) (Nat.eqb v (snd (fst e) - 1)) then (data d v + snd e)%nat else data d v) es data d v = (data d v + list_sum (map snd (filter (fun e => andb (Nat.eqb (fst (fst e)) (d + 1)) (Nat.eqb (snd (fst e)) (v + 1))) es)))%nat).
    { clear. induction es as [|e es IH]; intros data H; [cbn; lia|]. cbn [fold_left filter]. rewrite IH by (intros; apply H; now right). pose proof (H e (or_introl eq_refl)) as (H1 & H2).
      replace (Nat.eqb d (fst (fst e) - 1)) with (Nat.eqb (fst (fst e)) (d + 1)) by (destruct (Nat.eqb_spec (fst (fst e)) (d + 1)), (Nat.eqb_spec d (fst (fst e) - 1)); try reflexivity; lia).
      replace (Nat.eqb v (snd (fst e) - 1)) with (Nat.eqb (snd (fst e)) (v + 1)) by (destruct (Nat.eqb_spec (snd (fst e)) (v + 1)), (Nat.eqb_spec v (snd (fst e) - 1)); try reflexivity; lia).
      destruct (_ && _)%bool; cbn [map list_sum fold_right]; [|reflexivity]. cbn [map]. unfold list_sum. cbn [fold_right]. lia. }
    now rewrite X.
  - rewrite Q, nth_repeat_nil. cbn [app]. clear E L Q. induction entries as [|e es IH]; [reflexivity|]. pose proof (H e (or_introl eq_refl)) as (H1 & H2). specialize (IH (fun x Hx => H x (or_intror Hx))). cbn [filter].
    replace (Nat.eqb (fst (fst e) - 1) d) with (Nat.eqb (fst (fst e)) (d + 1)) by (destruct (Nat.eqb_spec (fst (fst e)) (d + 1)), (Nat.eqb_spec (fst (fst e) - 1) d); try reflexivity; lia).
    destruct (Nat.eqb (fst (fst e)) (d + 1)); [|exact IH]. cbn [andb map filter fst].
    replace (Nat.eqb (snd (fst e) - 1) v) with (Nat.eqb (snd (fst e)) (v + 1)) by (destruct (Nat.eqb_spec (snd (fst e)) (v + 1)), (Nat.eqb_spec (snd (fst e) - 1) v); try reflexivity; lia).
    destruct (Nat.eqb (snd (fst e)) (v + 1)); [|exact IH]. cbn [map snd]. unfold list_sum in *. cbn [fold_right]. now rewrite IH.
Qed.
Print Assumptions C75_bag_of_words.
Example C75_bow_case : let e := [(1, 2, 3); (2, 1, 1); (1, 2, 4)]%nat in bow_dense e 0 1 = 7%nat /\ bow_sparse 2 e = Some [[(1, 3); (1, 4)]; [(0, 1)]]%nat.
Proof. split; reflexivity. Qed.
