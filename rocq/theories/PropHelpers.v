(** C76: evaluation helpers of the examples. *)
From Coq Require Import List Reals Arith Bool Permutation Lra Lia.
From Verif Require Import SpecDist SpecVI ModelExamples SpecExamples ProofExamples ProofDiscrete.
Import ListNotations.
Local Open Scope R_scope.

(** ** Root mean squared errors of batches *)
(** Combining the errors of any nonempty batches gives the error over all data together,
    however the data were divided. *)
Theorem C76_rmse (batches : list (list R)) : batches <> [] -> (forall b, In b batches -> b <> []) ->
  average_rmse_over_batches (map rms batches) (map (@length R) batches) = rms (concat batches).
Proof.
  intros N H. unfold average_rmse_over_batches, rms, mean. f_equal. rewrite map_length, total_map. f_equal.
  - rewrite total_concat. clear N. induction batches as [|b bs IH]; [reflexivity|]. cbn [map combine].
    assert (E : rms b ^ 2 * INR (length b) = total (fun x => x ^ 2) b).
    { assert (L : 0 < INR (length b)) by (apply lt_0_INR; specialize (H b (or_introl eq_refl)); destruct b; [congruence|cbn; lia]).
      unfold rms, mean. rewrite <- Rsqr_pow2, Rsqr_sqrt; [rewrite map_length, total_map; field; lra|]. rewrite map_length, total_map. apply Rmult_le_pos; [apply total_nonneg; intros; apply pow2_ge_0|left; now apply Rinv_0_lt_compat]. }
    specialize (IH (fun c Hc => H c (or_intror Hc))). change (rms b ^ 2 * INR (length b) + total (fun p => fst p ^ 2 * INR (snd p)) (combine (map rms bs) (map (@length R) bs)) = total (fun x => x ^ 2) b + total (total (fun x => x ^ 2)) bs). rewrite E. f_equal. exact IH.
  - f_equal. clear. induction batches as [|b bs IH]; [reflexivity|]. cbn [map concat]. rewrite app_length, <- IH. reflexivity.
Qed.
Print Assumptions C76_rmse.
(** A plain average of the errors would be wrong for unequal batches. *)
Theorem C76_plain_average_refuted : exists batches, batches <> [] /\ (forall b, In b batches -> b <> []) /\ mean (map rms batches) <> rms (concat batches).
Proof.
  exists [[0]; [2; 2; 2]]. split; [discriminate|]. split; [intros b [<-|[<-|[]]]; discriminate|]. unfold rms, mean. cbn.
  replace ((0 * (0 * 1) + 0) / 1) with (0 * 0) by field. replace ((2 * (2 * 1) + (2 * (2 * 1) + (2 * (2 * 1) + 0))) / (1 + 1 + 1)) with (2 * 2) by field. replace ((0 * (0 * 1) + (2 * (2 * 1) + (2 * (2 * 1) + (2 * (2 * 1) + 0)))) / (1 + 1 + 1 + 1)) with 3 by field.
  rewrite !sqrt_square by lra. intros E. pose proof (sqrt_sqrt 3 ltac:(lra)) as Q. rewrite <- E in Q. lra.
Qed.
Print Assumptions C76_plain_average_refuted.

(** ** The grid of images *)
Lemma div_between h (Hh : (0 < h)%nat) y i : (i * h <= y < (i + 1) * h)%nat <-> (y / h = i)%nat.
Proof.
  pose proof (Nat.div_mod y h ltac:(lia)) as E. pose proof (Nat.mod_upper_bound y h ltac:(lia)) as B. split; [intros (A & C)|intros <-; nia].
  destruct (lt_eq_lt_dec (y / h) i) as [[L| ->]|L]; [|reflexivity|]; exfalso; [assert (S (y / h) * h <= i * h)%nat by (apply Nat.mul_le_mono_r; lia)|assert ((i + 1) * h <= y / h * h)%nat by (apply Nat.mul_le_mono_r; lia)]; nia.
Qed.
Lemma paste_at {P} h w i j (picture ret : nat -> nat -> P) y z : (0 < h)%nat -> (0 < w)%nat ->
  paste h w i j picture ret y z = if andb (Nat.eqb (y / h) i) (Nat.eqb (z / w) j) then picture (y mod h)%nat (z mod w)%nat else ret y z.
Proof.
  intros Hh Hw. unfold paste. pose proof (div_between h Hh y i) as D1. pose proof (div_between w Hw z j) as D2.
  pose proof (Nat.div_mod y h ltac:(lia)) as E1. pose proof (Nat.div_mod z w ltac:(lia)) as E2.
  destruct (Nat.eqb_spec (y / h) i) as [Y|Y].
  - pose proof (proj2 D1 Y) as (A1 & A2). replace (i * h <=? y)%nat with true by (symmetry; apply Nat.leb_le; lia). replace (y <? (i + 1) * h)%nat with true by (symmetry; apply Nat.ltb_lt; lia). cbn [andb]. destruct (Nat.eqb_spec (z / w) j) as [Z|Z].
    + pose proof (proj2 D2 Z) as (B1 & B2). replace (j * w <=? z)%nat with true by (symmetry; apply Nat.leb_le; lia). replace (z <? (j + 1) * w)%nat with true by (symmetry; apply Nat.ltb_lt; lia). cbn [andb]. f_equal; nia.
    + destruct (Nat.leb_spec (j * w) z), (Nat.ltb_spec z ((j + 1) * w)); try reflexivity. exfalso. apply Z. apply D2. lia.
  - replace (_ && _)%bool with false; [reflexivity|]. destruct (Nat.leb_spec (i * h) y), (Nat.ltb_spec y ((i + 1) * h)); try reflexivity. exfalso. apply Y. apply D1. lia.
Qed.
Lemma tile_row_at {P} h w c n (x : nat -> nat -> nat -> P) i ret y z : (0 < h)%nat -> (0 < w)%nat ->
  tile_row h w c n x i ret y z = if andb (andb (Nat.eqb (y / h) i) (Nat.ltb (z / w) c)) (Nat.ltb (i * c + z / w) n) then x (i * c + z / w)%nat (y mod h)%nat (z mod w)%nat else ret y z.
Proof.
  intros Hh Hw. unfold tile_row. assert (X : forall k, fold_left (fun ret j => if (i * c + j <? n)%nat then paste h w i j (x (i * c + j)%nat) ret else ret) (seq 0 k) ret y z = if andb (andb (Nat.eqb (y / h) i) (Nat.ltb (z / w) k)) (Nat.ltb (i * c + z / w) n) then x (i * c + z / w)%nat (y mod h)%nat (z mod w)%nat else ret y z); [|apply X].
  induction k as [|k IH]; [cbn [seq fold_left]; now rewrite andb_false_r|]. rewrite seq_S, fold_left_app. cbn [fold_left Nat.add]. destruct (Nat.ltb_spec (i * c + k) n) as [L|L].
  - rewrite paste_at by assumption. destruct (Nat.eqb_spec (y / h) i) as [Y|Y]; cbn [andb] in *; [|exact IH]. destruct (Nat.eqb_spec (z / w) k) as [Z|Z].
    + rewrite Z. replace (k <? S k)%nat with true by (symmetry; apply Nat.ltb_lt; lia). replace (i * c + k <? n)%nat with true by (symmetry; apply Nat.ltb_lt; lia). reflexivity.
    + rewrite IH. replace (z / w <? S k)%nat with (z / w <? k)%nat; [reflexivity|]. destruct (Nat.ltb_spec (z / w) k), (Nat.ltb_spec (z / w) (S k)); try reflexivity; lia.
  - rewrite IH. destruct (Nat.eqb_spec (y / h) i) as [Y|Y]; cbn [andb]; [|reflexivity]. destruct (Nat.ltb_spec (z / w) k), (Nat.ltb_spec (z / w) (S k)); cbn [andb]; try reflexivity; try lia. replace (z / w)%nat with k by lia. replace (i * c + k <? n)%nat with false by (symmetry; apply Nat.ltb_ge; lia). reflexivity.
Qed.
(** Pixel (y, z) of the big image is a pixel of the image in that cell, counted along the rows
    of the grid, and zero where there is no image. *)
Theorem C76_grid {P} (zero : P) h w r c n (x : nat -> nat -> nat -> P) y z : (y < h * r)%nat -> (z < w * c)%nat ->
  let k := (y / h * c + z / w)%nat in
  tile zero h w r c n x y z = if Nat.ltb k n then x k (y mod h)%nat (z mod w)%nat else zero.
Proof.
  intros Hy Hz. cbv zeta. assert (Hh : (0 < h)%nat) by (destruct h; lia). assert (Hw : (0 < w)%nat) by (destruct w; lia). assert (Cy : (y / h < r)%nat) by (apply Nat.div_lt_upper_bound; lia). assert (Cz : (z / w < c)%nat) by (apply Nat.div_lt_upper_bound; lia).
  unfold tile. assert (X : forall m, fold_left (fun ret i => tile_row h w c n x i ret) (seq 0 m) (fun _ _ => zero) y z = if andb (Nat.ltb (y / h) m) (Nat.ltb (y / h * c + z / w) n) then x (y / h * c + z / w)%nat (y mod h)%nat (z mod w)%nat else zero).
  { induction m as [|m IH]; [reflexivity|]. rewrite seq_S, fold_left_app. cbn [fold_left Nat.add]. rewrite tile_row_at by assumption. replace (z / w <? c)%nat with true by (symmetry; apply Nat.ltb_lt; lia). rewrite andb_true_r. destruct (Nat.eqb_spec (y / h) m) as [Y|Y].
    - rewrite <- Y in *. cbn [andb]. replace (y / h <? S (y / h))%nat with true by (symmetry; apply Nat.ltb_lt; lia). cbn [andb]. destruct (_ <? n)%nat eqn:En; [reflexivity|]. now rewrite IH, Nat.ltb_irrefl.
    - cbn [andb]. rewrite IH. replace (y / h <? S m)%nat with (y / h <? m)%nat; [reflexivity|]. destruct (Nat.ltb_spec (y / h) m), (Nat.ltb_spec (y / h) (S m)); try reflexivity; lia. }
  rewrite X. replace (y / h <? r)%nat with true by (symmetry; apply Nat.ltb_lt; lia). reflexivity.
Qed.
(** With room for all, every pixel of every image appears, at its place. *)
Theorem C76_all_images {P} (zero : P) h w r c n (x : nat -> nat -> nat -> P) k y z : (n <= r * c)%nat -> (k < n)%nat -> (y < h)%nat -> (z < w)%nat ->
  tile zero h w r c n x (k / c * h + y)%nat (k mod c * w + z)%nat = x k y z.
Proof.
  intros F K Hy Hz. assert (Hc : (0 < c)%nat) by (destruct c; lia). pose proof (Nat.div_mod k c ltac:(lia)) as E. pose proof (Nat.mod_upper_bound k c ltac:(lia)) as B. assert (Kr : (k / c < r)%nat) by (apply Nat.div_lt_upper_bound; lia).
  rewrite C76_grid; [|nia|nia]. replace ((k / c * h + y) / h)%nat with (k / c)%nat by (rewrite Nat.div_add_l, (Nat.div_small y) by lia; lia). replace ((k mod c * w + z) / w)%nat with (k mod c)%nat by (rewrite Nat.div_add_l, (Nat.div_small z) by lia; lia).
  replace (k / c * c + k mod c)%nat with k by lia. replace (k <? n)%nat with true by (symmetry; apply Nat.ltb_lt; lia). f_equal; [rewrite (Nat.add_comm _ y), Nat.mod_add by lia; now apply Nat.mod_small|rewrite (Nat.add_comm _ z), Nat.mod_add by lia; now apply Nat.mod_small].
Qed.
Print Assumptions C76_grid.
Print Assumptions C76_all_images.
Example C76_grid_case : map (fun y => map (fun z => tile 0 2 2 2 2 3 (fun k y z => 100 * k + 10 * y + z + 1) y z)%nat (seq 0 4)) (seq 0 4) = [[1; 2; 101; 102]; [11; 12; 111; 112]; [201; 202; 0; 0]; [211; 212; 0; 0]]%nat.
Proof. reflexivity. Qed.

(** ** Ratings of a range of users *)
Lemma entry_nth {A} (l : list (list A)) i : entry_at l i = nth i l [].
Proof. unfold entry_at. destruct (nth_error l i) eqn:E; [symmetry; now apply nth_error_nth|]. symmetry. apply nth_overflow. now apply nth_error_None. Qed.
Lemma position_nth d v : In v d -> nth_error d (position d v) = Some v.
Proof.
  induction d as [|a d IH]; intros H; [destruct H|]. cbn. destruct (Nat.eqb_spec a v) as [->|N]; [reflexivity|]. cbn. apply IH. destruct H; [contradiction|assumption].
Qed.
(** The batch arrays describe exactly those ratings: the i-th entries of the three results are a
    user number, an index into the list of movies, and a score. *)
Theorem C76_select distinct l r u_v u_v_score :
  (forall s, NoDup (distinct s) /\ forall v, In v (distinct s) <-> In v s) ->
  (forall i, length (nth i u_v []) = length (nth i u_v_score [])) ->
  let '(nv, sv, tr, ssu, ssv) := select_from_corpus distinct l r u_v u_v_score in
  let wanted := ratings l r u_v u_v_score in
  ssu = map (fun t => fst (fst t)) wanted /\ map (nth_error sv) ssv = map (fun t => Some (snd (fst t))) wanted /\ tr = map snd wanted /\
  NoDup sv /\ nv = length sv /\ (forall v, In v sv <-> exists t, In t wanted /\ snd (fst t) = v).
Proof.
  intros D L. unfold select_from_corpus, ratings. set (rows := seq 0 (r - l)). set (all := flat_map (fun i => entry_at u_v (l + i)) rows).
  assert (C : forall {A B} (a : list A) (b : list B), length a = length b -> map fst (combine a b) = a /\ map snd (combine a b) = b).
  { intros A B. induction a as [|x a IH]; intros [|y b] E; try discriminate; [split; reflexivity|]. cbn in *. destruct (IH b) as (-> & ->); [lia|]. split; reflexivity. }
  assert (M : map (fun t : nat * nat * nat => snd (fst t)) (flat_map (fun i => map (fun p => (i, fst p, snd p)) (combine (nth (l + i) u_v []) (nth (l + i) u_v_score []))) rows) = all).
  { unfold all. rewrite flat_map_concat_map, concat_map, map_map, <- flat_map_concat_map. apply flat_map_ext. intros i. rewrite map_map. cbn [fst snd]. rewrite entry_nth. apply C. apply L. }
  destruct (D all) as (N & I). split; [|split; [|split; [|split; [exact N|split; [reflexivity|]]]]].
  - rewrite flat_map_concat_map, (flat_map_concat_map (fun i => map _ _)), concat_map, map_map. f_equal. apply map_ext. intros i. rewrite map_map. cbn [fst]. rewrite entry_nth. assert (E : length (combine (nth (l + i) u_v []) (nth (l + i) u_v_score [])) = length (nth (l + i) u_v [])) by (rewrite combine_length, <- L; lia). rewrite <- E.
    set (q := combine _ _). clear. induction q as [|a q IH]; [reflexivity|]. cbn. now rewrite IH.
  - rewrite map_map. assert (Q : map (fun t : nat * nat * nat => Some (snd (fst t))) (flat_map (fun i => map (fun p => (i, fst p, snd p)) (combine (nth (l + i) u_v []) (nth (l + i) u_v_score []))) rows) = map Some all) by (rewrite <- M, map_map; reflexivity). rewrite Q. apply map_ext_in. intros v Hv. apply position_nth. now apply I.
  - rewrite !flat_map_concat_map, concat_map, map_map. f_equal. apply map_ext. intros i. rewrite map_map. cbn [snd]. rewrite entry_nth. symmetry. apply C. apply L.
  - intros v. rewrite I, <- M, in_map_iff. split; intros (t & A & B); exists t; now split.
Qed.
Print Assumptions C76_select.
Example C76_select_case : select_from_corpus (nodup Nat.eq_dec) 1 4 [[9]; [5; 7]; [7]]%nat [[1]; [2; 3]; [4]]%nat = (2, [5; 7], [2; 3; 4], [0; 0; 1], [0; 1; 1])%nat /\
  (forall s, NoDup (nodup Nat.eq_dec s) /\ forall v, In v (nodup Nat.eq_dec s) <-> In v s).
Proof. split; [reflexivity|]. intros s. split; [apply NoDup_nodup|]. intros v. apply nodup_In. Qed.
