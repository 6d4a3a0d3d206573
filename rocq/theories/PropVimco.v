(** C36: the VIMCO estimator. *)
From Coq Require Import List Arith Bool ZArith Reals Lra Lia.
From Coquelicot Require Import Coquelicot.
From Verif Require Import ModelShape SpecShape SpecDist ModelVI SpecVI ProofDiscrete ProofVI PropELBO PropIW.
Import ListNotations.
Local Open Scope R_scope.

(** ** The permutation *)
Definition swap (a n d : nat) : nat :=
  if Nat.eqb d a then (n - 1)%nat else if Nat.eqb d (n - 1) then a else d.

Lemma where_map {A X} (c : A -> bool) (x y : A -> X) l :
  where_ (map c l) (map x l) (map y l) = map (fun d => if c d then x d else y d) l.
Proof.
  unfold where_, zip_with. induction l; cbn; [easy|]. f_equal. exact IHl.
Qed.
Lemma repeat_map {A X} (x : X) (l : list A) : repeat x (length l) = map (fun _ => x) l.
Proof. induction l; cbn; [easy|]. now f_equal. Qed.
Lemma perm_eq a n : vimco_perm a n = map (fun d =>
    if Z.eqb a (Z.of_nat d) then (Z.of_nat n - 1)%Z
    else if Z.eqb (Z.of_nat n - 1) (Z.of_nat d) then a else Z.of_nat d) (seq 0 n).
Proof.
  unfold vimco_perm, one_hot_mask. replace n with (length (seq 0 n)) at 3 5 by apply seq_length.
  rewrite !repeat_map. now rewrite !where_map.
Qed.
Lemma perm_nat a n : (a < n)%nat -> vimco_perm (Z.of_nat a) n = map (fun d => Z.of_nat (swap a n d)) (seq 0 n).
Proof.
  intros H. rewrite perm_eq. apply map_ext_in. intros d Hd. apply in_seq in Hd. unfold swap.
  destruct (Nat.eqb_spec d a), (Z.eqb_spec (Z.of_nat a) (Z.of_nat d)); try lia.
  destruct (Nat.eqb_spec d (n - 1)), (Z.eqb_spec (Z.of_nat n - 1) (Z.of_nat d)); lia.
Qed.
Lemma swap_lt a n d : (a < n)%nat -> (d < n)%nat -> (swap a n d < n)%nat.
Proof. intros. unfold swap. destruct (Nat.eqb_spec d a), (Nat.eqb_spec d (n - 1)); lia. Qed.
Lemma swap_swap a n d : (a < n)%nat -> swap a n (swap a n d) = d.
Proof.
  intros. unfold swap. destruct (Nat.eqb_spec d a).
  - subst. destruct (Nat.eqb_spec (n - 1) a); [easy|]. now rewrite Nat.eqb_refl.
  - destruct (Nat.eqb_spec d (n - 1)); [now rewrite Nat.eqb_refl|].
    destruct (Nat.eqb_spec d a); [easy|]. destruct (Nat.eqb_spec d (n - 1)); easy.
Qed.
Lemma perm_checked a n : (a < n)%nat -> check_perm (vimco_perm (Z.of_nat a) n) = true.
Proof.
  intros H. rewrite perm_nat by easy. unfold check_perm. rewrite map_length, seq_length.
  apply forallb_forall. intros d Hd. apply in_seq in Hd. apply existsb_exists.
  exists (Z.of_nat d). split; [|apply Z.eqb_refl]. apply in_map_iff. exists (swap a n d).
  rewrite swap_swap by easy. split; [easy|]. apply in_seq. pose proof (swap_lt a n d H). lia.
Qed.

(** The axes are permuted by an involution that exchanges the sample axis with the
    last one and leaves the others, at every rank. *)
Theorem C36_permutation a n : (a < n)%nat ->
  length (vimco_perm (Z.of_nat a) n) = n /\
  check_perm (vimco_perm (Z.of_nat a) n) = true /\
  nth (n - 1) (vimco_perm (Z.of_nat a) n) 0%Z = Z.of_nat a /\
  nth a (vimco_perm (Z.of_nat a) n) 0%Z = (Z.of_nat n - 1)%Z /\
  (forall d, (d < n)%nat -> d <> a -> d <> (n - 1)%nat ->
     nth d (vimco_perm (Z.of_nat a) n) 0%Z = Z.of_nat d) /\
  (forall d, (d < n)%nat ->
     nth (Z.to_nat (nth d (vimco_perm (Z.of_nat a) n) 0%Z)) (vimco_perm (Z.of_nat a) n) 0%Z = Z.of_nat d).
Proof.
  intros H. rewrite perm_nat by easy.
  assert (E : forall d, (d < n)%nat -> nth d (map (fun d => Z.of_nat (swap a n d)) (seq 0 n)) 0%Z = Z.of_nat (swap a n d)).
  { intros d Hd. rewrite (nth_indep _ 0%Z (Z.of_nat (swap a n 0))) by (rewrite map_length, seq_length; lia).
    rewrite (map_nth (fun d => Z.of_nat (swap a n d))), seq_nth by easy. easy. }
  split; [now rewrite map_length, seq_length|]. rewrite <- perm_nat by easy. split; [now apply perm_checked|].
  rewrite perm_nat by easy. repeat split.
  - rewrite E by lia. unfold swap. destruct (Nat.eqb_spec (n - 1) a); [now subst|]. now rewrite Nat.eqb_refl.
  - rewrite E by lia. unfold swap. rewrite Nat.eqb_refl. lia.
  - intros d Hd N1 N2. rewrite E by lia. unfold swap.
    destruct (Nat.eqb_spec d a); [easy|]. now destruct (Nat.eqb_spec d (n - 1)).
  - intros d Hd. rewrite (E d Hd), Nat2Z.id, E by now apply swap_lt. now rewrite swap_swap.
Qed.

(** ** Indices *)
Lemma index_of_perm a n d : (a < n)%nat -> (d < n)%nat -> index_of (map (swap a n) (seq 0 n)) d = swap a n d.
Proof.
  intros Ha Hd.
  assert (G : forall m k, (k <= swap a n d < k + m)%nat ->
    index_of (map (swap a n) (seq k m)) d = (swap a n d - k)%nat).
  { induction m; intros k Hk; [lia|]. cbn [seq map index_of].
    destruct (Nat.eqb_spec (swap a n k) d) as [E | NE].
    - rewrite <- E, swap_swap by easy. lia.
    - assert (k <> swap a n d) by (intros ->; now rewrite swap_swap in NE). rewrite IHm by lia. lia. }
  rewrite G; [lia|]. pose proof (swap_lt a n d Ha Hd). lia.
Qed.
Lemma transpose_at {A} a n (t : tensor A) i : (a < n)%nat ->
  t_at (transpose (map (swap a n) (seq 0 n)) t) i = t_at t (map (fun d => nth (swap a n d) i 0%nat) (seq 0 n)).
Proof.
  intros H. cbn [t_at transpose]. rewrite map_length, seq_length. f_equal. apply map_ext_in.
  intros d Hd. apply in_seq in Hd. now rewrite index_of_perm by lia.
Qed.
Lemma nth_seq_map {X} (f : nat -> X) n d e : (d < n)%nat -> nth d (map f (seq 0 n)) e = f d.
Proof.
  intros H. rewrite (nth_indep _ e (f 0%nat)) by (rewrite map_length, seq_length; lia).
  rewrite (map_nth f), seq_nth by easy. easy.
Qed.
Lemma nth_set_axis a k i d : (a < length i)%nat -> nth d (set_axis a k i) 0%nat = if Nat.eqb d a then k else nth d i 0%nat.
Proof.
  intros H. unfold set_axis. assert (L : length (firstn a i) = a) by (rewrite firstn_length; lia).
  destruct (lt_eq_lt_dec d a) as [[C | ->] | C].
  - rewrite app_nth1 by lia. destruct (Nat.eqb_spec d a); [lia|].
    rewrite <- (firstn_skipn a i) at 2. now rewrite app_nth1 by lia.
  - rewrite app_nth2 by lia. now rewrite L, Nat.sub_diag, Nat.eqb_refl.
  - rewrite app_nth2 by lia. rewrite L. destruct (Nat.eqb_spec d a); [lia|].
    destruct (d - a)%nat as [|m] eqn:E; [lia|]. cbn [nth].
    rewrite <- (firstn_skipn (S a) i) at 2. rewrite app_nth2; rewrite firstn_length; [|lia].
    f_equal. lia.
Qed.
Lemma set_axis_length a k (i : list nat) : (a < length i)%nat -> length (set_axis a k i) = length i.
Proof. intros H. unfold set_axis. rewrite app_length, firstn_length. cbn [length]. rewrite skipn_length. lia. Qed.
Lemma set_set a k k' (i : list nat) : (a < length i)%nat -> set_axis a k' (set_axis a k i) = set_axis a k' i.
Proof.
  intros H. apply (nth_ext _ _ 0%nat 0%nat); rewrite !set_axis_length; try rewrite set_axis_length; try lia.
  intros d _. rewrite !nth_set_axis; try rewrite set_axis_length; try lia. now destruct (Nat.eqb_spec d a).
Qed.
Lemma insert_drop a k (i : list nat) : (a < length i)%nat -> insert_at a k (drop_axis a i) = set_axis a k i.
Proof.
  intros H. unfold insert_at, drop_axis, set_axis. assert (L : length (firstn a i) = a) by (rewrite firstn_length; lia).
  rewrite firstn_app, skipn_app, L, Nat.sub_diag. cbn. rewrite app_nil_r, firstn_firstn, Nat.min_id.
  rewrite (skipn_all2 (firstn a i)) by lia. easy.
Qed.
Lemma insert_length a k (i : list nat) : length (insert_at a k i) = S (length i).
Proof. unfold insert_at. rewrite app_length. cbn. rewrite <- plus_n_Sm, <- app_length, firstn_skipn. easy. Qed.
Lemma drop_insert a k (i : list nat) : (a <= length i)%nat -> drop_axis a (insert_at a k i) = i.
Proof.
  intros H. unfold insert_at, drop_axis. assert (L : length (firstn a i) = a) by (rewrite firstn_length; lia).
  rewrite firstn_app, skipn_app, L. rewrite Nat.sub_diag. replace (S a - a)%nat with 1%nat by lia.
  rewrite (skipn_all2 (firstn a i)) by lia. cbn. rewrite app_nil_r, firstn_firstn, Nat.min_id. apply firstn_skipn.
Qed.
Lemma set_insert a k k' (i : list nat) : (a <= length i)%nat -> set_axis a k' (insert_at a k i) = insert_at a k' i.
Proof.
  intros H. rewrite <- insert_drop by (rewrite insert_length; lia). now rewrite drop_insert.
Qed.
Lemma nth_insert a k (i : list nat) : (a <= length i)%nat -> nth a (insert_at a k i) 0%nat = k.
Proof.
  intros H. unfold insert_at. rewrite app_nth2; rewrite firstn_length; [|lia]. 
  now replace (a - Nat.min a (length i))%nat with 0%nat by lia.
Qed.
Lemma along_length {A} a (t : tensor A) i : length (along a t i) = nth a (t_shape t) 0%nat.
Proof. unfold along. now rewrite map_length, seq_length. Qed.
Lemma along_nth {A} a (t : tensor A) i k d : (k < nth a (t_shape t) 0)%nat -> nth k (along a t i) d = t_at t (insert_at a k i).
Proof. intros H. unfold along. now rewrite nth_seq_map. Qed.

(** The index read by the control variate. *)
Lemma swapped_index a n i k : (a < n)%nat -> length i = n ->
  let i' := map (fun d => nth (swap a n d) i 0%nat) (seq 0 n) in
  last i' 0%nat = nth a i 0%nat /\
  map (fun d => nth (swap a n d) (removelast i' ++ [k]) 0%nat) (seq 0 n) = set_axis a k i.
Proof.
  intros H L i'. assert (Li : length i' = n) by (unfold i'; now rewrite map_length, seq_length).
  assert (Ni : i' <> []) by (intros E; rewrite E in Li; cbn in Li; lia).
  assert (E : i' = removelast i' ++ [last i' 0%nat]) by now apply app_removelast_last.
  assert (Lr : length (removelast i') = (n - 1)%nat).
  { rewrite E in Li. rewrite app_length in Li. cbn in Li. lia. }
  assert (NE : forall d, (d < n)%nat -> nth d i' 0%nat = nth (swap a n d) i 0%nat).
  { intros d Hd. unfold i'. now rewrite (nth_seq_map (fun d => nth (swap a n d) i 0%nat)). }
  split.
  - transitivity (nth (n - 1) i' 0%nat).
    + rewrite E at 2. rewrite app_nth2 by lia. now rewrite Lr, Nat.sub_diag.
    + rewrite NE by lia. f_equal. unfold swap. destruct (Nat.eqb_spec (n - 1) a); [easy|]. now rewrite Nat.eqb_refl.
  - apply (nth_ext _ _ 0%nat 0%nat); [rewrite map_length, seq_length, set_axis_length; lia|].
    rewrite map_length, seq_length. intros d Hd.
    rewrite (nth_seq_map (fun d => nth (swap a n d) (removelast i' ++ [k]) 0%nat)), nth_set_axis by lia.
    destruct (Nat.eqb_spec d a) as [-> | ND].
    + replace (swap a n a) with (n - 1)%nat by (unfold swap; now rewrite Nat.eqb_refl).
      rewrite app_nth2 by lia. now rewrite Lr, Nat.sub_diag.
    + assert (SD : (swap a n d < n - 1)%nat).
      { unfold swap. destruct (Nat.eqb_spec d a); [easy|]. destruct (Nat.eqb_spec d (n - 1)); lia. }
      rewrite app_nth1 by lia.
      replace (nth (swap a n d) (removelast i') 0%nat) with (nth (swap a n d) i' 0%nat).
      * rewrite NE by lia. now rewrite swap_swap.
      * rewrite E at 1. now rewrite app_nth1 by lia.
Qed.

(** Replacing entry [b] of a list, position by position. *)
Lemma replace_seq {X} b (x : X) (f : nat -> X) K : (b < K)%nat ->
  map (fun k => if Nat.eqb b k then x else f k) (seq 0 K) = replace_nth b x (map f (seq 0 K)).
Proof.
  intros H. unfold replace_nth. rewrite firstn_map, skipn_map.
  replace K with (b + S (K - b - 1))%nat by lia. rewrite seq_app, map_app. cbn [seq map Nat.add].
  rewrite firstn_app, seq_length, Nat.sub_diag. cbn [firstn]. rewrite app_nil_r.
  rewrite firstn_all2 by (rewrite seq_length; lia).
  rewrite skipn_app, seq_length, skipn_all2 by (rewrite seq_length; lia).
  replace (S b - b)%nat with 1%nat by lia. cbn [skipn app]. rewrite Nat.eqb_refl. f_equal.
  - apply map_ext_in. intros k Hk. apply in_seq in Hk. destruct (Nat.eqb_spec b k); [lia|easy].
  - f_equal. apply map_ext_in. intros k Hk. apply in_seq in Hk. destruct (Nat.eqb_spec b k); [lia|easy].
Qed.

(** ** What the control variate is *)
Section CV.
Context (a : nat) (t : tensor dual) (Ha : (a < length (t_shape t))%nat).
Let n := length (t_shape t).
Let K := nth a (t_shape t) 0%nat.

Lemma cv_at i : length i = n -> (nth a i 0 < K)%nat ->
  t_at (vimco_control_variate a (map (swap a n) (seq 0 n)) t) i =
  let l := along a t (drop_axis a i) in
  let b := nth a i 0%nat in
  log_mean_exp (replace_nth b (ddiv (dsub (dsum l) (nth b l (dconst 0))) (dconst (INR K - 1))) l).
Proof.
  intros Li Hb. cbv zeta. unfold vimco_control_variate. fold K. rewrite transpose_at by easy.
  set (i' := map (fun d => nth (swap a n d) i 0%nat) (seq 0 n)).
  assert (Lp : length i' = n) by (unfold i'; now rewrite map_length, seq_length).
  unfold reduce_axis. cbn [t_at]. f_equal. unfold along at 1.
  assert (SK : nth (length (t_shape t) - 1) (t_shape (same_shape_op dadd
        (same_shape_op dsub (expand_tile K (transpose (map (swap a n) (seq 0 n)) t))
           (matrix_diag (dconst 0) (transpose (map (swap a n) (seq 0 n)) t)))
        (matrix_diag (dconst 0) (transpose (map (swap a n) (seq 0 n))
              (keep_op_l (fun s x => ddiv (dsub s x) (dconst (INR K - 1))) a (reduce_axis_keep dsum a t) t))))) 0%nat = K).
  { cbn [t_shape same_shape_op expand_tile transpose]. fold n.
    rewrite app_nth1 by (rewrite !map_length, seq_length; lia). rewrite map_map.
    rewrite (nth_seq_map (fun d => nth (swap a n d) (t_shape t) 0%nat)) by lia. unfold K. f_equal.
    unfold swap. destruct (Nat.eqb_spec (n - 1) a); [easy|]. now rewrite Nat.eqb_refl. }
  rewrite SK. fold n. clear SK.
  set (b := nth a i 0%nat). fold b in Hb.
  transitivity (map (fun k => if Nat.eqb b k then
     ddiv (dsub (dsum (along a t (drop_axis a i))) (t_at t (set_axis a k i))) (dconst (INR K - 1))
     else t_at t (set_axis a k i)) (seq 0 K)).
  - apply map_ext_in. intros k Hk. apply in_seq in Hk.
    destruct (swapped_index a n i k) as [SL SS]; [easy|easy|]. fold i' in SL, SS.
    assert (Ei : insert_at (n - 1) k i' = (removelast i' ++ [k]) ++ [b]).
    { assert (NI : i' <> []) by (intros E; rewrite E in Lp; cbn in Lp; lia).
      pose proof (app_removelast_last 0%nat NI) as E. rewrite SL in E. fold b in E.
      assert (Lr : length (removelast i') = (n - 1)%nat) by (rewrite E, app_length in Lp; cbn in Lp; lia).
      rewrite E at 1. unfold insert_at. rewrite firstn_app, skipn_app, Lr, Nat.sub_diag. cbn [firstn skipn].
      rewrite firstn_all2, skipn_all2 by lia. rewrite app_nil_r. cbn. now rewrite <- app_assoc. }
    rewrite Ei. cbn [t_at same_shape_op expand_tile matrix_diag].
    rewrite !removelast_last, !last_last.
    rewrite !transpose_at, SS by easy. cbn [t_at keep_op_l reduce_axis_keep].
    assert (Lin : (a < length i)%nat) by (rewrite Li; easy).
    assert (DD : drop_axis a (set_axis a 0 (set_axis a k i)) = drop_axis a i).
    { rewrite set_set by easy. rewrite <- insert_drop by easy. apply drop_insert.
      unfold drop_axis. rewrite app_length, firstn_length, skipn_length. lia. }
    rewrite DD. destruct (Nat.eqb_spec b k) as [E | E].
    + subst k. apply dual_eq; cbn [val tan dadd dsub]; ring.
    + apply dual_eq; cbn; ring.
  - assert (Lin : (a < length i)%nat) by (rewrite Li; easy).
    transitivity (map (fun k => if Nat.eqb b k then
     ddiv (dsub (dsum (along a t (drop_axis a i))) (t_at t (set_axis a b i))) (dconst (INR K - 1))
     else t_at t (set_axis a k i)) (seq 0 K)).
    { apply map_ext. intros k. destruct (Nat.eqb_spec b k); [now subst|easy]. }
    rewrite replace_seq by easy. f_equal.
    + rewrite along_nth by easy. now rewrite insert_drop.
    + unfold along. fold K. apply map_ext. intros k. now rewrite insert_drop.
Qed.
End CV.

(** ** The cost, slice by slice *)

(** The objective when the log weight [j] is replaced by the mean of the others;
    written in terms of the others only. *)
Definition without (j : nat) (others : list R) : R :=
  ln_mean_exp (firstn j others ++ mean others :: skipn j others).

Lemma replace_without j (l : list dual) : (j < length l)%nat -> (2 <= length l)%nat ->
  val (log_mean_exp (replace_nth j (ddiv (dsub (dsum l) (nth j l (dconst 0))) (dconst (INR (length l) - 1))) l)) =
  without j (remove_nth j (map val l)).
Proof.
  intros H H2. set (m := ddiv _ _).
  assert (Nr : replace_nth j m l <> []) by (unfold replace_nth; destruct (firstn j l); easy).
  rewrite <- (map_id (replace_nth j m l)), val_lme by easy. unfold without.
  assert (Lj : length (firstn j (map val l)) = j) by (rewrite firstn_length, map_length; lia).
  replace (firstn j (remove_nth j (map val l))) with (firstn j (map val l)).
  2:{ unfold remove_nth. rewrite firstn_app, Lj, Nat.sub_diag. cbn. now rewrite app_nil_r, firstn_firstn, Nat.min_id. }
  replace (skipn j (remove_nth j (map val l))) with (skipn (S j) (map val l)).
  2:{ unfold remove_nth. rewrite skipn_app, Lj, Nat.sub_diag, (skipn_all2 (firstn j (map val l))) by lia. easy. }
  replace (mean (remove_nth j (map val l))) with (val m).
  - unfold ln_mean_exp, mean. rewrite total_map, map_length. f_equal. f_equal.
    + unfold replace_nth. rewrite !total_app. cbn [total]. rewrite firstn_map, skipn_map, !total_map. easy.
    + unfold replace_nth. rewrite !app_length. cbn [length]. now rewrite firstn_map, skipn_map, !map_length.
  - unfold mean. rewrite remove_length by (rewrite map_length; lia). rewrite map_length, minus_INR by lia.
    rewrite (remove_total (fun x => x) _ (val (dconst 0))) by (rewrite map_length; lia).
    rewrite total_map, (map_nth val). unfold m. cbn [val ddiv dsub dconst INR].
    rewrite <- (map_id l) at 1. rewrite val_dsum. easy.
Qed.

(** For every rank, every position [axis] of the sample axis and every size at
    least 2 along it, each element of the cost depends only on the entries along
    the sample axis at its position; sample [j] is credited with the objective
    minus the objective recomputed without it. *)
Definition weights_at (axis : nat) (log_joint ent : tensor dual) (i : index) : list dual :=
  along axis (same_shape_op dadd log_joint ent) i.
Theorem C36_cost axis (log_joint ent : tensor dual) i :
  t_shape ent = t_shape log_joint -> (axis < length (t_shape log_joint))%nat ->
  (2 <= nth axis (t_shape log_joint) 0)%nat -> valid (drop_axis axis (t_shape log_joint)) i ->
  exists cost, vimco (Z.of_nat axis) log_joint (Some ent) = Some cost /\
    t_shape cost = drop_axis axis (t_shape log_joint) /\
    let l := weights_at axis log_joint ent i in
    let w := map val l in
    let credit j := ln_mean_exp w - without j (remove_nth j w) in
    val (t_at cost i) = total (fun j => val (nth j (along axis ent i) (dconst 0)) * credit j) (seq 0 (length w))
                        - ln_mean_exp w /\
    tan (t_at cost i) = total (fun j => tan (nth j (along axis ent i) (dconst 0)) * credit j) (seq 0 (length w))
                        - tan (log_mean_exp l).
Proof.
  intros Sh Ha HK Hv. unfold vimco.
  set (log_w := same_shape_op dadd log_joint ent).
  assert (SW : t_shape log_w = t_shape log_joint) by easy. rewrite SW.
  assert (EA : Z.to_nat (if (Z.of_nat axis <? 0)%Z then Z.of_nat axis + Z.of_nat (length (t_shape log_joint)) else Z.of_nat axis)%Z = axis).
  { destruct (Z.ltb_spec (Z.of_nat axis) 0); lia. }
  rewrite EA. destruct (Nat.ltb_spec (nth axis (t_shape log_joint) 0%nat) 2); [lia|].
  rewrite perm_checked by easy. cbn [negb]. rewrite perm_nat by easy.
  replace (map Z.to_nat (map (fun d => Z.of_nat (swap axis (length (t_shape log_joint)) d)) (seq 0 (length (t_shape log_joint)))))
    with (map (swap axis (length (t_shape log_joint))) (seq 0 (length (t_shape log_joint))))
    by (rewrite map_map; apply map_ext; intros d; now rewrite Nat2Z.id).
  set (n := length (t_shape log_joint)) in *. set (K := nth axis (t_shape log_joint) 0%nat) in *.
  set (cv := vimco_control_variate axis (map (swap axis n) (seq 0 n)) log_w).
  assert (SC : t_shape cv = t_shape log_joint).
  { unfold cv, vimco_control_variate. cbn [t_shape transpose reduce_axis same_shape_op expand_tile].
    rewrite SW. fold n K.
    set (s' := map (fun d => nth d (t_shape log_joint) 0%nat) (map (swap axis n) (seq 0 n))).
    assert (Ls : length s' = n) by (unfold s'; now rewrite !map_length, seq_length).
    assert (Ed : drop_axis (n - 1) (s' ++ [K]) = s').
    { apply (nth_ext _ _ 0%nat 0%nat).
      - unfold drop_axis. rewrite app_length, firstn_length, skipn_length, app_length. cbn. lia.
      - intros d Hd. unfold drop_axis. rewrite firstn_app, Ls. replace (n - 1 - n)%nat with 0%nat by lia. cbn [firstn].
        rewrite app_nil_r. rewrite skipn_app, Ls. replace (S (n - 1) - n)%nat with 0%nat by lia.
        rewrite skipn_all2 by lia. cbn [app skipn].
        destruct (Nat.eq_dec d (n - 1)) as [-> | ND].
        + rewrite app_nth2; rewrite firstn_length; [|lia].
          replace (n - 1 - Nat.min (n - 1) (length s'))%nat with 0%nat by lia. cbn [nth].
          unfold s'. rewrite map_map, (nth_seq_map (fun d => nth (swap axis n d) (t_shape log_joint) 0%nat)) by lia.
          unfold K. f_equal. unfold swap. destruct (Nat.eqb_spec (n - 1) axis); [easy|]. now rewrite Nat.eqb_refl.
        + assert (d < n - 1)%nat.
          { unfold drop_axis in Hd. rewrite app_length, firstn_length, skipn_length, app_length in Hd. cbn in Hd. lia. }
          rewrite app_nth1 by (rewrite firstn_length; lia).
          rewrite <- (firstn_skipn (n - 1) s') at 2. rewrite app_nth1 by (rewrite firstn_length; lia). easy. }
    rewrite Ed. apply (nth_ext _ _ 0%nat 0%nat); [now rewrite !map_length, seq_length|].
    rewrite !map_length, seq_length. intros d Hd. rewrite map_map.
    rewrite (nth_seq_map (fun d => nth (swap axis n d) s' 0%nat)) by easy. unfold s'. rewrite map_map.
    rewrite (nth_seq_map (fun d => nth (swap axis n d) (t_shape log_joint) 0%nat)) by now apply swap_lt.
    now rewrite swap_swap. }
  eexists. split; [reflexivity|]. split; [cbn [t_shape same_shape_op reduce_axis keep_op_l]; now rewrite Sh|].
  assert (Li : length i = (n - 1)%nat).
  { destruct Hv as [E _]. rewrite E. unfold drop_axis. rewrite app_length, firstn_length, skipn_length. lia. }
  set (l := weights_at axis log_joint ent i). cbv zeta. set (w := map val l).
  assert (El : l = along axis log_w i) by easy.
  assert (Ll : length l = K) by (rewrite El, along_length; easy).
  assert (Lw : length w = K) by (unfold w; now rewrite map_length). rewrite Lw.
  assert (Nl : l <> []) by (intros E; rewrite E in Ll; cbn in Ll; lia).
  assert (VL : val (log_mean_exp l) = ln_mean_exp w).
  { rewrite <- (map_id l) at 1. rewrite val_lme by easy. unfold w, ln_mean_exp, mean.
    rewrite map_map, total_map, map_length. easy. }
  assert (Credit : forall j, (j < K)%nat ->
    t_at (keep_op_l dsub axis (reduce_axis_keep log_mean_exp_keep axis log_w) cv) (insert_at axis j i) =
    dsub (log_mean_exp l) (t_at cv (insert_at axis j i)) /\
    val (t_at cv (insert_at axis j i)) = without j (remove_nth j w)).
  { intros j Hj. assert (Lj : length (insert_at axis j i) = n) by (rewrite insert_length; lia). split.
    - cbn [t_at keep_op_l reduce_axis_keep]. f_equal. rewrite <- lme_keep_eq. f_equal.
      rewrite set_insert by lia. now rewrite drop_insert by lia.
    - unfold cv. assert (Hn : n = length (t_shape log_w)) by easy. rewrite Hn, cv_at.
      + cbv zeta. rewrite drop_insert by lia. rewrite nth_insert by lia. rewrite <- El.
        replace (INR (nth axis (t_shape log_w) 0%nat)) with (INR (length l)) by (rewrite Ll; easy).
        apply replace_without; lia.
      + easy.
      + now rewrite <- Hn.
      + rewrite nth_insert by lia. exact Hj. }
  cbn [t_at same_shape_op reduce_axis]. rewrite <- El.
  match goal with |- context [dsum ?x] => assert (AL : x = map (fun j =>
    dmul (dneg (t_at ent (insert_at axis j i)))
         (stop_gradient (t_at (keep_op_l dsub axis (reduce_axis_keep log_mean_exp_keep axis log_w) cv) (insert_at axis j i))))
    (seq 0 K)) end.
  { unfold along. cbn [t_shape same_shape_op]. rewrite Sh. easy. }
  rewrite AL. split.
  - cbn [val dsub dneg]. rewrite val_dsum, VL. f_equal. rewrite <- total_opp. apply total_ext.
    intros j Hj. apply in_seq in Hj. destruct (Credit j ltac:(lia)) as [C1 C2].
    rewrite C1. cbn [val dmul dneg stop_gradient dsub]. rewrite C2, VL.
    rewrite along_nth by (rewrite Sh; fold K; lia). ring.
  - cbn [tan dsub dneg]. rewrite tan_dsum. f_equal. rewrite <- total_opp. apply total_ext.
    intros j Hj. apply in_seq in Hj. destruct (Credit j ltac:(lia)) as [C1 C2].
    rewrite C1. cbn [val tan dmul dneg stop_gradient dsub]. rewrite C2, VL.
    rewrite along_nth by (rewrite Sh; fold K; lia). ring.
Qed.

(** Fewer than two samples are rejected, and there must be a latent variable. *)
Theorem C36_rejects axis (log_joint ent : tensor dual) : t_shape ent = t_shape log_joint ->
  (axis < length (t_shape log_joint))%nat -> (nth axis (t_shape log_joint) 0 < 2)%nat ->
  vimco (Z.of_nat axis) log_joint (Some ent) = None /\
  forall axis', vimco axis' log_joint None = None.
Proof.
  intros Sh Ha HK. split; [|easy]. unfold vimco. cbn [t_shape same_shape_op].
  destruct (Z.ltb_spec (Z.of_nat axis) 0); [lia|]. rewrite Nat2Z.id.
  now destruct (Nat.ltb_spec (nth axis (t_shape log_joint) 0%nat) 2); [|lia].
Qed.

(** A sample axis counted from the end, accepted by the objective itself, is not
    accepted by vimco(): the permutation it builds is not one. *)
Theorem C36_negative_axis_refuted axis (log_joint ent : tensor dual) : (axis < 0)%Z ->
  t_shape log_joint <> [] -> vimco axis log_joint (Some ent) = None.
Proof.
  intros H N. unfold vimco. cbn [t_shape same_shape_op].
  destruct (Nat.ltb _ 2); [easy|].
  assert (C : check_perm (vimco_perm axis (length (t_shape log_joint))) = false).
  { set (n := length (t_shape log_joint)). assert (n <> 0)%nat by (unfold n; destruct (t_shape log_joint); easy).
    destruct (check_perm _) eqn:E; [|easy]. unfold check_perm in E.
    rewrite forallb_forall in E. rewrite perm_eq, map_length, seq_length in E.
    specialize (E (n - 1)%nat). rewrite in_seq in E. specialize (E ltac:(lia)).
    apply existsb_exists in E. destruct E as [z [Hz Ez]]. apply Z.eqb_eq in Ez. subst z.
    apply in_map_iff in Hz. destruct Hz as [d [E Hd]]. apply in_seq in Hd.
    destruct (Z.eqb_spec axis (Z.of_nat d)); [lia|].
    destruct (Z.eqb_spec (Z.of_nat n - 1) (Z.of_nat d)); lia. }
  now rewrite C.
Qed.

(** ** The gradient *)
Lemma map_remove {X Y} (f : X -> Y) j l : map f (remove_nth j l) = remove_nth j (map f l).
Proof. unfold remove_nth. now rewrite map_app, firstn_map, skipn_map. Qed.

(** The tangent of an element of the cost, in terms of the draws. *)
Lemma vimco_tan {Z} (lj : @quantity Z) lqs theta K axis s i (log_joint ent : tensor dual) (zs : list Z) z0 : lqs <> [] ->
  (2 <= K)%nat -> (axis < length s)%nat -> nth axis s 0%nat = K -> valid (drop_axis axis s) i -> length zs = K ->
  t_shape log_joint = s -> t_shape ent = s -> along axis log_joint i = tensor_of theta lj zs ->
  Some (along axis ent i) = entropy_of theta lqs zs ->
  exists c, vimco (Z.of_nat axis) log_joint (Some ent) = Some c /\
    tan (t_at c i) = total (fun j => - score lqs (nth j zs z0) *
         (ln_mean_exp (map (log_weight lj lqs theta) zs)
          - without j (map (log_weight lj lqs theta) (remove_nth j zs)))) (seq 0 K)
      - tan (log_mean_exp (map (weighted theta lj lqs) zs)).
Proof.
  intros N HK Ha Hs Hv Lz S1 S2 A1 A2.
  rewrite entropy_eq in A2 by easy. injection A2 as A2.
  destruct (C36_cost axis log_joint ent i) as [c [E [_ [_ T]]]];
    [congruence|now rewrite S1|now rewrite S1, Hs|now rewrite S1|].
  exists c. split; [exact E|].
  assert (EW : weights_at axis log_joint ent i = map (weighted theta lj lqs) zs).
  { unfold weights_at. unfold weighted. rewrite <- log_w_eq. rewrite <- A1, <- A2.
    unfold along. cbn [t_shape same_shape_op]. rewrite S1, S2, zip_with_map. easy. }
  rewrite EW in T. rewrite T. rewrite map_map, map_length, Lz. cbn [val weighted]. f_equal.
  apply total_ext. intros j Hj. apply in_seq in Hj. rewrite A2.
  rewrite (nth_indep _ (dconst 0) (Dual (- log_q lqs theta z0) (- score lqs z0))) by (rewrite map_length; lia).
  rewrite (map_nth (fun z => Dual (- log_q lqs theta z) (- score lqs z))). cbn [tan]. now rewrite map_remove.
Qed.

(** The log joint and the entropy are tensors of any rank; at position [i] of the
    other axes, the entries along the sample axis are those of [K] draws. The
    expected gradient of that element of the cost is minus the gradient of the
    expected objective. *)
Theorem C36_unbiased {Z} (Zs : list Z) q lj lqs theta K axis s i
    (log_joint ent : list Z -> tensor dual) :
  family Zs q lqs theta -> differentiable theta Zs lj ->
  (2 <= K)%nat -> (axis < length s)%nat -> nth axis s 0%nat = K -> valid (drop_axis axis s) i ->
  (forall zs, length zs = K -> t_shape (log_joint zs) = s /\ t_shape (ent zs) = s /\
     along axis (log_joint zs) i = tensor_of theta lj zs /\
     Some (along axis (ent zs) i) = entropy_of theta lqs zs) ->
  exists cost, (forall zs, length zs = K -> exists c,
      vimco (Z.of_nat axis) (log_joint zs) (Some (ent zs)) = Some c /\ t_at c i = cost zs) /\
    is_derive (fun t => expects (q t) Zs K (fun zs => ln_mean_exp (map (log_weight lj lqs t) zs))) theta
      (- expects (q theta) Zs K (fun zs => tan (cost zs))).
Proof.
  intros F Dj HK Ha Hs Hv HT. destruct F as [P S L Dq]. pose proof (proj1 (L theta)) as N.
  pose proof (family_distribution Zs q P S theta) as D.
  destruct (dist_nonempty _ _ D) as [z0 _].
  exists (fun zs => match vimco (Z.of_nat axis) (log_joint zs) (Some (ent zs)) with
                    | Some c => t_at c i | None => dconst 0 end).
  assert (HC : forall zs, length zs = K -> exists c,
    vimco (Z.of_nat axis) (log_joint zs) (Some (ent zs)) = Some c /\
    tan (t_at c i) = total (fun j => - score lqs (nth j zs z0) *
         (ln_mean_exp (map (log_weight lj lqs theta) zs)
          - without j (map (log_weight lj lqs theta) (remove_nth j zs)))) (seq 0 K)
      - tan (log_mean_exp (map (weighted theta lj lqs) zs))).
  { intros zs Lz. destruct (HT zs Lz) as [S1 [S2 [A1 A2]]]. now apply (vimco_tan lj lqs theta K axis s). }
  split.
  { intros zs Lz. destruct (HC zs Lz) as [c [E _]]. exists c. now rewrite E. }
  assert (G : is_derive (fun t => expects (q t) Zs K (fun zs => ln_mean_exp (map (log_weight lj lqs t) zs))) theta
    (expects (q theta) Zs K (fun zs => total (score lqs) zs * ln_mean_exp (map (log_weight lj lqs theta) zs)
        + tan (log_mean_exp (map (weighted theta lj lqs) zs))))).
  { apply (expects_derive Zs q (score lqs) theta) with (f := fun t zs => ln_mean_exp (map (log_weight lj lqs t) zs)).
    - now apply family_derive.
    - intros zs [Lz Fz].
      apply (lme_derive Zs (fun t => log_weight lj lqs t) (fun z => partial lj z - score lqs z)).
      { apply (nonempty zs K); [lia|easy]. }
      intros z Hz. assert (In z Zs) by (rewrite List.Forall_forall in Fz; auto).
      apply (is_derive_minus (K := R_AbsRing) (V := R_NormedModule) (fun t => at_param lj t z) (fun t => log_q lqs t z)).
      + now apply Dj.
      + now apply (score_derive Zs lqs theta Dq). }
  match type of G with is_derive _ _ ?m => match goal with |- is_derive _ _ ?d => replace d with m; [exact G|] end end.
  rewrite <- expects_opp.
  transitivity (expects (q theta) Zs K (fun zs =>
     total (score lqs) zs * ln_mean_exp (map (log_weight lj lqs theta) zs)
        + tan (log_mean_exp (map (weighted theta lj lqs) zs)) +
     - total (fun j => score lqs (nth j zs z0) * without j (map (log_weight lj lqs theta) (remove_nth j zs))) (seq 0 K))).
  - rewrite (expects_plus _ _ K _ (fun zs => - total _ _)), expects_opp.
    replace (expects (q theta) Zs K (fun zs => total (fun j => score lqs (nth j zs z0) *
      without j (map (log_weight lj lqs theta) (remove_nth j zs))) (seq 0 K))) with 0; [ring|].
    symmetry. rewrite expects_total. apply total_zero. intros j Hj. apply in_seq in Hj.
    destruct K as [|K']; [lia|].
    rewrite (expects_indep (q theta) Zs j K' z0 (score lqs) (fun zs => without j (map (log_weight lj lqs theta) zs))) by lia.
    rewrite (score_mean_zero Zs q lqs theta P S L Dq). ring.
  - apply expects_ext. intros zs [Lz _]. destruct (HC zs Lz) as [c [E T]]. rewrite E, T.
    rewrite (total_nth z0 (score lqs) zs), Lz, <- total_scal_r.
    unfold Rminus at 1. rewrite Ropp_plus_distr, Ropp_involutive, <- !total_opp.
    set (T1 := tan _). 
    match goal with |- ?a + T1 + ?b = ?c + T1 => enough (a + b = c) by lra end.
    rewrite <- total_plus. apply total_ext. intros j _. ring.
Qed.

(** The coin, two samples along the only axis. *)
Example C36_case : exists cost, (forall zs, length zs = 2%nat -> exists c,
      vimco 0 (Tensor [2%nat] (fun i => nth (nth 0 i 0%nat) (tensor_of 0 coin_lj zs) (dconst 0)))
        (Some (Tensor [2%nat] (fun i => nth (nth 0 i 0%nat) (map (fun z => Dual (- log_q [coin_lq] 0 z) (- score [coin_lq] z)) zs) (dconst 0))))
      = Some c /\ t_at c [] = cost zs) /\
    is_derive (fun t => expects (coin t) [true; false] 2 (fun zs => ln_mean_exp (map (log_weight coin_lj [coin_lq] t) zs))) 0
      (- expects (coin 0) [true; false] 2 (fun zs => tan (cost zs))).
Proof.
  apply (C36_unbiased [true; false] coin coin_lj [coin_lq] 0 2 0 [2%nat] []
    (fun zs => Tensor [2%nat] (fun i => nth (nth 0 i 0%nat) (tensor_of 0 coin_lj zs) (dconst 0)))
    (fun zs => Tensor [2%nat] (fun i => nth (nth 0 i 0%nat) (map (fun z => Dual (- log_q [coin_lq] 0 z) (- score [coin_lq] z)) zs) (dconst 0))));
    [apply coin_family|apply coin_lj_diff|lia|cbn; lia|easy|split; [easy|cbn; intros; lia]|].
  intros [|a [|b [|c zs]]] H; cbn in H; try lia. split; [easy|]. split; [easy|]. split; [easy|].
  now rewrite entropy_eq.
Qed.

Print Assumptions C36_permutation.
Print Assumptions C36_cost.
Print Assumptions C36_rejects.
Print Assumptions C36_negative_axis_refuted.
Print Assumptions C36_unbiased.
