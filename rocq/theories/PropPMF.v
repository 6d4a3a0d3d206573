(** C83: the matrix factorization example (examples/probabilistic_matrix_factorization). *)
From Coq Require Import List Reals Lra Lia Arith Permutation.
From Verif Require Import SpecDist SpecExamples SpecPMF ModelExamples ModelTrain ModelPMF ProofDiscrete ProofVI ProofTrain PropData PropHelpers.
Import ListNotations.
Local Open Scope R_scope.

(** ** Chunks *)
(** The numbers of rows are rounded up to whole chunks, so every user and movie has a row and
    less than a chunk is added. *)
Theorem C83_rounded : forall n c, (0 < c)%nat ->
  (n <= rounded n c < n + c)%nat /\ (rounded n c mod c = 0)%nat /\ (rounded n c / c * c = rounded n c)%nat.
Proof.
  intros n c H. unfold rounded. pose proof (Nat.div_mod (n + c - 1) c ltac:(lia)) as E.
  pose proof (Nat.mod_upper_bound (n + c - 1) c ltac:(lia)) as B. set (q := ((n + c - 1) / c)%nat) in *.
  split; [nia|]. rewrite Nat.mod_mul, Nat.div_mul by lia. auto.
Qed.
Print Assumptions C83_rounded.
Example C83_rounded_case : rounded 604 50 = 650%nat.
Proof. reflexivity. Qed.

Section chunks.
Context {T : Type} (zero : T) (c : nat).
Implicit Types (chunks : list (list T)).
Lemma concat_length chunks : Forall (fun l => length l = c) chunks -> length (concat chunks) = (length chunks * c)%nat.
Proof. induction 1; cbn; [reflexivity|]. rewrite app_length. lia. Qed.
Lemma split_chunks chunks i : (i < length chunks)%nat -> chunks = firstn i chunks ++ nth i chunks [] :: skipn (S i) chunks.
Proof.
  revert i. induction chunks as [|a chunks IH]; intros [|i] H; cbn in *; try lia; [reflexivity|]. f_equal. apply IH. lia.
Qed.
Lemma firstn_chunks chunks i : (i < length chunks)%nat -> Forall (fun l => length l = c) chunks -> length (concat (firstn i chunks)) = (i * c)%nat.
Proof.
  intros H F. rewrite concat_length.
  - rewrite firstn_length. f_equal. lia.
  - rewrite Forall_forall in *. intros x Hx. apply F. rewrite <- (firstn_skipn i chunks). apply in_or_app. now left.
Qed.
Lemma nth_assign chunks i x j : (i < length chunks)%nat -> Forall (fun l => length l = c) chunks -> length x = c ->
  nth j (concat (assign_chunk i x chunks)) zero =
  if andb (i * c <=? j)%nat (j <? (i + 1) * c)%nat then nth (j - i * c) x zero else nth j (concat chunks) zero.
Proof.
  intros H F L. assert (Ln : length (nth i chunks []) = c) by (rewrite Forall_forall in F; apply F, nth_In, H).
  pose proof (firstn_chunks chunks i H F) as Lf. unfold assign_chunk.
  assert (E : concat chunks = concat (firstn i chunks) ++ nth i chunks [] ++ concat (skipn (S i) chunks)).
  { rewrite (split_chunks chunks i H) at 1. rewrite concat_app. reflexivity. }
  rewrite E, concat_app. cbn [concat]. set (P := concat (firstn i chunks)) in *. set (S := concat (skipn _ chunks)).
  destruct (Nat.leb_spec (i * c) j) as [A|A]; cbn [andb].
  - rewrite !(app_nth2 P) by lia. rewrite Lf. destruct (Nat.ltb_spec j ((i + 1) * c)) as [B|B].
    + now rewrite app_nth1 by lia.
    + rewrite !app_nth2 by lia. now rewrite L, Ln.
  - now rewrite !(app_nth1 P) by lia.
Qed.
Lemma total_assign f chunks i x : (i < length chunks)%nat ->
  total f (concat (assign_chunk i x chunks)) = total f (concat chunks) - total f (nth i chunks []) + total f x.
Proof.
  intros H. unfold assign_chunk. rewrite (split_chunks chunks i H) at 3. rewrite !concat_app. cbn [concat]. rewrite !total_app. ring.
Qed.
Lemma candidate_chunk chunks i : (i < length chunks)%nat -> Forall (fun l => length l = c) chunks ->
  candidate zero c chunks i = nth i chunks [].
Proof.
  intros H F. assert (Ln : length (nth i chunks []) = c) by (rewrite Forall_forall in F; apply F, nth_In, H).
  pose proof (firstn_chunks chunks i H F) as Lf. unfold candidate, rows_at.
  apply (nth_ext _ _ zero zero); [now rewrite map_length, seq_length, Ln|].
  intros n Hn. rewrite map_length, seq_length in Hn.
  rewrite (nth_indep _ zero (nth 0 (concat chunks) zero)) by (now rewrite map_length, seq_length).
  rewrite (map_nth (fun k => nth k (concat chunks) zero)), seq_nth by exact Hn.
  rewrite (split_chunks chunks i H) at 1. rewrite concat_app. cbn [concat].
  rewrite app_nth2 by lia. rewrite Lf, app_nth1 by lia. f_equal. lia.
Qed.
Lemma assign_length chunks i x : (i < length chunks)%nat -> length (assign_chunk i x chunks) = length chunks.
Proof. intros H. unfold assign_chunk. rewrite app_length, firstn_length. cbn [length]. rewrite skipn_length. lia. Qed.
Lemma assign_nth chunks i x j : (i < length chunks)%nat -> nth j (assign_chunk i x chunks) [] = if Nat.eqb j i then x else nth j chunks [].
Proof.
  intros H. unfold assign_chunk. revert i j H. induction chunks as [|a chunks IH]; intros i j H; [cbn in H; lia|].
  destruct i as [|i], j as [|j]; cbn; try reflexivity. apply (IH i j). cbn in H. lia.
Qed.
Lemma assign_forall (P : list T -> Prop) chunks i x : P x -> Forall P chunks -> Forall P (assign_chunk i x chunks).
Proof.
  intros H F. unfold assign_chunk. rewrite Forall_forall in *. intros y Hy. apply in_app_or in Hy. destruct Hy as [Hy|[<-|Hy]]; [| exact H|].
  - apply F. rewrite <- (firstn_skipn i chunks). apply in_or_app. now left.
  - apply F. rewrite <- (firstn_skipn (S i) chunks). apply in_or_app. now right.
Qed.
Lemma nth_map_seq (g : nat -> list T) n i : (i < n)%nat -> nth i (map g (seq 0 n)) [] = g i.
Proof. intros Hi. rewrite (nth_indep _ [] (g 0%nat)) by (now rewrite map_length, seq_length). now rewrite (map_nth g), seq_nth by exact Hi. Qed.
(** A sweep over the chunks changes each once, from its own old value. *)
Lemma sweep (step : nat -> list T -> list T) (chunks : list (list T)) :
  Forall (fun l => length l = c) chunks -> (forall i x, length x = c -> length (step i x) = c) ->
  forall n, (n <= length chunks)%nat ->
  fold_left (fun l i => assign_chunk i (step i (candidate zero c l i)) l) (seq 0 n) chunks
  = map (fun i => if Nat.ltb i n then step i (nth i chunks []) else nth i chunks []) (seq 0 (length chunks)).
Proof.
  intros F L n. induction n as [|n IH]; intros Hn.
  - cbn [seq fold_left]. apply (nth_ext _ _ [] []); [now rewrite map_length, seq_length|]. intros j Hj.
    rewrite nth_map_seq by exact Hj. reflexivity.
  - rewrite seq_S, fold_left_app, IH by lia. cbn [fold_left Nat.add].
    set (g := fun i => if (i <? n)%nat then step i (nth i chunks []) else nth i chunks []).
    set (now := map g (seq 0 (length chunks))).
    assert (Ln : length now = length chunks) by (unfold now; now rewrite map_length, seq_length).
    assert (N : forall j, (j < length chunks)%nat -> nth j now [] = g j).
    { intros j Hj. unfold now. rewrite (nth_indep _ [] (g 0%nat)) by (now rewrite map_length, seq_length). now rewrite (map_nth g), seq_nth by exact Hj. }
    assert (Fn : Forall (fun l => length l = c) now).
    { rewrite Forall_forall. intros y Hy. unfold now in Hy. apply in_map_iff in Hy. destruct Hy as [j [<- Hj]]. apply in_seq in Hj.
      assert (length (nth j chunks []) = c) by (rewrite Forall_forall in F; apply F, nth_In; lia).
      unfold g. destruct (j <? n)%nat; auto. }
    rewrite candidate_chunk by (try exact Fn; lia). rewrite N by lia. unfold g at 1. rewrite Nat.ltb_irrefl.
    apply (nth_ext _ _ [] []); [rewrite assign_length, map_length, seq_length by lia; exact Ln|].
    intros j Hj. rewrite assign_length in Hj by lia. rewrite assign_nth by lia.
    set (h := fun i => if (i <? S n)%nat then step i (nth i chunks []) else nth i chunks []).
    rewrite (nth_indep (map h _) [] (h 0%nat)) by (rewrite map_length, seq_length; lia).
    rewrite (map_nth h), seq_nth by lia. cbn [Nat.add]. unfold h.
    destruct (Nat.eqb_spec j n) as [->|Ne]; [replace (n <? S n)%nat with true by (symmetry; apply Nat.ltb_lt; lia); reflexivity|].
    rewrite N by lia. unfold g. destruct (Nat.ltb_spec j n), (Nat.ltb_spec j (S n)); try lia; reflexivity.
Qed.
End chunks.

(** ** The ratings of a chunk *)
Lemma total_filter {X} (f : X -> R) p l : total f (filter p l) = total (fun x => if p x then f x else 0) l.
Proof. induction l as [|x l IH]; [reflexivity|]. cbn. destruct (p x); cbn; rewrite IH; ring. Qed.
Lemma indicator_sum a x l c : total (fun k => if Nat.eqb x (l + k) then a else 0) (seq 0 c) =
  if andb (l <=? x)%nat (x <? l + c)%nat then a else 0.
Proof.
  induction c as [|c IH].
  - cbn [seq total]. rewrite Nat.add_0_r. destruct (Nat.leb_spec l x), (Nat.ltb_spec x l); cbn [andb]; try reflexivity; lia.
  - rewrite seq_S, total_app, IH. cbn [Nat.add total].
    destruct (Nat.leb_spec l x), (Nat.ltb_spec x (l + c)), (Nat.ltb_spec x (l + S c)), (Nat.eqb_spec x (l + c)); cbn [andb]; try lia; ring.
Qed.
Lemma combine_maps {X A B} (f : X -> A) (g : X -> B) l : combine (map f l) (map g l) = map (fun x => (f x, g x)) l.
Proof. induction l; [reflexivity|]. cbn. now rewrite IHl. Qed.
(** The sum over the selected arrays is the sum over the training ratings with a key in the range. *)
Lemma selected_sum {T} (zero : T) distinct l c key other train lists scores (B : list T) (f : nat -> T -> nat -> R) :
  (forall s, NoDup (distinct s) /\ forall v, In v (distinct s) <-> In v s) ->
  lists_of key other train lists -> lists_of key r_score train scores ->
  let '(n, so, tr, ssa, ssb) := select_from_corpus distinct l (l + c) lists scores in
  length ssa = length ssb /\ length tr = length ssb /\
  total (fun t => f (fst (fst t)) (nth (snd (fst t)) (rows_at zero B so) zero) (snd t)) (combine (combine ssa ssb) tr)
  = total (fun t => if andb (l <=? key t)%nat (key t <? l + c)%nat then f (key t - l)%nat (nth (other t) B zero) (r_score t) else 0) train.
Proof.
  intros D L1 L2. pose proof (C76_select distinct l (l + c) lists scores D) as S.
  destruct (select_from_corpus distinct l (l + c) lists scores) as [[[[n so] tr] ssa] ssb].
  destruct S as [Ea [Eb [Et [_ _]]]]; [intros i; now rewrite L1, L2, !map_length|].
  set (w := ratings l (l + c) lists scores) in *.
  assert (Lb : length ssb = length w) by (apply (f_equal (@length _)) in Eb; now rewrite !map_length in Eb).
  split; [now rewrite Ea, map_length|]. split; [now rewrite Et, map_length|].
  transitivity (total (fun t => f (fst (fst t)) (nth (snd (fst t)) B zero) (snd t)) w).
  - rewrite Ea, Et. clear Ea Et Lb. clearbody w. revert ssb Eb. induction w as [|t w IH]; intros [|b ssb] Eb; try discriminate; [reflexivity|].
    cbn [map] in Eb. injection Eb as E0 E1. cbn [map combine total fst snd]. rewrite (IH ssb E1). f_equal. f_equal.
    unfold rows_at. apply nth_error_split in E0. destruct E0 as [l1 [l2 [-> <-]]]. rewrite map_app. cbn [map].
    rewrite app_nth2 by (rewrite map_length; lia). now rewrite map_length, Nat.sub_diag.
  - unfold w, ratings. rewrite total_flat_map. replace (l + c - l)%nat with c by lia.
    rewrite (total_ext _ (fun k => total (fun t => if Nat.eqb (key t) (l + k) then f (key t - l)%nat (nth (other t) B zero) (r_score t) else 0) train)).
    + rewrite total_swap. apply total_ext. intros t _. apply indicator_sum.
    + intros k _. rewrite total_map. cbn [fst snd]. rewrite (L1 (l + k)%nat), (L2 (l + k)%nat), combine_maps, total_map. cbn [fst snd].
      rewrite total_filter. apply total_ext. intros t _. destruct (Nat.eqb_spec (key t) (l + k)) as [E|_]; [|reflexivity].
      do 2 f_equal. lia.
Qed.

Section conditional.
Context {T : Type} (zero : T) (log_pu log_pv : T -> R) (log_pr : T -> T -> nat -> R) (distinct : list nat -> list nat).
Hypothesis distinct_ok : forall s, NoDup (distinct s) /\ forall v, In v (distinct s) <-> In v s.
Context (c : nat) (train : list rating) (user_movie user_movie_score movie_user movie_user_score : list (list nat)).
Hypothesis Hum : lists_of r_user r_movie train user_movie.
Hypothesis Hus : lists_of r_user r_score train user_movie_score.
Hypothesis Hmu : lists_of r_movie r_user train movie_user.
Hypothesis Hms : lists_of r_movie r_score train movie_user_score.
Notation posterior := (log_posterior zero log_pu log_pv log_pr train).
Notation tu := (target_user zero log_pu log_pv log_pr distinct c user_movie user_movie_score).
Notation tm := (target_movie zero log_pu log_pv log_pr distinct c movie_user movie_user_score).
Lemma user_conditional (Us : list (list T)) V i x y : (i < length Us)%nat -> Forall (fun l => length l = c) Us -> length x = c -> length y = c ->
  posterior (concat (assign_chunk i x Us)) V - posterior (concat (assign_chunk i y Us)) V = tu V i x - tu V i y.
Proof.
  intros H F Lx Ly. unfold log_posterior, target_user.
  pose proof (fun z => selected_sum zero distinct (i * c) c r_user r_movie train user_movie user_movie_score V
    (fun a b s => log_pr (nth a z zero) b s) distinct_ok Hum Hus) as S.
  replace (i * c + c)%nat with ((i + 1) * c)%nat in S by lia.
  destruct (select_from_corpus distinct (i * c) ((i + 1) * c) user_movie user_movie_score) as [[[[n so] tr] ssa] ssb].
  unfold log_joint. destruct (S x) as [_ [_ Ex]]. destruct (S y) as [_ [_ Ey]]. rewrite Ex, Ey.
  rewrite !total_assign by exact H.
  assert (G : forall z, length z = c -> total (fun t => log_pr (nth (r_user t) (concat (assign_chunk i z Us)) zero) (nth (r_movie t) V zero) (r_score t)) train
    = total (fun t => if andb (i * c <=? r_user t)%nat (r_user t <? (i + 1) * c)%nat then log_pr (nth (r_user t - i * c) z zero) (nth (r_movie t) V zero) (r_score t) else 0) train
    + total (fun t => if andb (i * c <=? r_user t)%nat (r_user t <? (i + 1) * c)%nat then 0 else log_pr (nth (r_user t) (concat Us) zero) (nth (r_movie t) V zero) (r_score t)) train).
  { intros z Lz. rewrite <- total_plus. apply total_ext. intros t _. rewrite (nth_assign zero c) by assumption. destruct (andb _ _); ring. }
  rewrite (G x Lx), (G y Ly). ring.
Qed.
Lemma swap_combine {A B C} (g : A -> B -> C -> R) a b s : length a = length b ->
  total (fun t => g (fst (fst t)) (snd (fst t)) (snd t)) (combine (combine a b) s) =
  total (fun t => g (snd (fst t)) (fst (fst t)) (snd t)) (combine (combine b a) s).
Proof.
  revert b s. induction a as [|x a IH]; intros [|y b] [|z s] L; try discriminate; try reflexivity. cbn. rewrite IH by (now injection L). reflexivity.
Qed.
Lemma movie_conditional U (Vs : list (list T)) i x y : (i < length Vs)%nat -> Forall (fun l => length l = c) Vs -> length x = c -> length y = c ->
  posterior U (concat (assign_chunk i x Vs)) - posterior U (concat (assign_chunk i y Vs)) = tm U i x - tm U i y.
Proof.
  intros H F Lx Ly. unfold log_posterior, target_movie.
  pose proof (fun z => selected_sum zero distinct (i * c) c r_movie r_user train movie_user movie_user_score U
    (fun a b s => log_pr b (nth a z zero) s) distinct_ok Hmu Hms) as S.
  replace (i * c + c)%nat with ((i + 1) * c)%nat in S by lia.
  destruct (select_from_corpus distinct (i * c) ((i + 1) * c) movie_user movie_user_score) as [[[[n so] tr] ssa] ssb].
  unfold log_joint. destruct (S x) as [L1 [_ Ex]]. destruct (S y) as [_ [_ Ey]].
  pose proof (fun z => swap_combine (fun a b s => log_pr (nth a (rows_at zero U so) zero) (nth b z zero) s) ssb ssa tr (eq_sym L1)) as W.
  rewrite (W x), (W y), Ex, Ey.
  rewrite !total_assign by exact H.
  assert (G : forall z, length z = c -> total (fun t => log_pr (nth (r_user t) U zero) (nth (r_movie t) (concat (assign_chunk i z Vs)) zero) (r_score t)) train
    = total (fun t => if andb (i * c <=? r_movie t)%nat (r_movie t <? (i + 1) * c)%nat then log_pr (nth (r_user t) U zero) (nth (r_movie t - i * c) z zero) (r_score t) else 0) train
    + total (fun t => if andb (i * c <=? r_movie t)%nat (r_movie t <? (i + 1) * c)%nat then 0 else log_pr (nth (r_user t) U zero) (nth (r_movie t) (concat Vs) zero) (r_score t)) train).
  { intros z Lz. rewrite <- total_plus. apply total_ext. intros t _. rewrite (nth_assign zero c) by assumption. destruct (andb _ _); ring. }
  rewrite (G x Lx), (G y Ly). ring.
Qed.
End conditional.

(** The density given to HMC for a chunk is the conditional posterior of its rows given all other
    rows: exchanging the chunk changes both log densities by the same amount. For users ... *)
Theorem C83_user_conditional : forall {T} (zero : T) log_pu log_pv log_pr distinct c train user_movie user_movie_score Us V i x y,
  (forall s, NoDup (distinct s) /\ forall v, In v (distinct s) <-> In v s) ->
  lists_of r_user r_movie train user_movie -> lists_of r_user r_score train user_movie_score ->
  (i < length Us)%nat -> Forall (fun l => length l = c) Us -> length x = c -> length y = c ->
  let target := target_user zero log_pu log_pv log_pr distinct c user_movie user_movie_score V i in
  let posterior u := log_posterior zero log_pu log_pv log_pr train u V in
  posterior (concat (assign_chunk i x Us)) - posterior (concat (assign_chunk i y Us)) = target x - target y.
Proof. intros. now apply user_conditional. Qed.
Print Assumptions C83_user_conditional.
(** ... and for movies. *)
Theorem C83_movie_conditional : forall {T} (zero : T) log_pu log_pv log_pr distinct c train movie_user movie_user_score U Vs i x y,
  (forall s, NoDup (distinct s) /\ forall v, In v (distinct s) <-> In v s) ->
  lists_of r_movie r_user train movie_user -> lists_of r_movie r_score train movie_user_score ->
  (i < length Vs)%nat -> Forall (fun l => length l = c) Vs -> length x = c -> length y = c ->
  let target := target_movie zero log_pu log_pv log_pr distinct c movie_user movie_user_score U i in
  let posterior v := log_posterior zero log_pu log_pv log_pr train U v in
  posterior (concat (assign_chunk i x Vs)) - posterior (concat (assign_chunk i y Vs)) = target x - target y.
Proof. intros. now apply movie_conditional. Qed.
Print Assumptions C83_movie_conditional.
(** The loader provides such lists. *)
Example C83_lists_case : forall corpus train, incl train corpus ->
  exists lists, grouped r_user r_movie (num_of r_user corpus) train = Some lists /\ lists_of r_user r_movie train lists.
Proof. intros corpus train I. destruct (C75_grouped r_user r_movie corpus train I) as [lists [E [_ N]]]. now exists lists. Qed.

(** An epoch moves every chunk exactly once, from its own value: the users given the old movies, the
    movies given the new users. *)
Theorem C83_epoch : forall {T} (zero : T) log_pu log_pv log_pr distinct c um us mu ms
  (hmc_u hmc_v : nat -> (list T -> R) -> list T -> list T) Us Vs,
  Forall (fun l => length l = c) Us -> Forall (fun l => length l = c) Vs ->
  (forall i f x, length x = c -> length (hmc_u i f x) = c) -> (forall i f x, length x = c -> length (hmc_v i f x) = c) ->
  let '(Us', Vs') := pmf_epoch zero log_pu log_pv log_pr distinct c um us mu ms hmc_u hmc_v (Us, Vs) in
  length Us' = length Us /\ length Vs' = length Vs /\
  (forall i, (i < length Us)%nat -> nth i Us' [] =
     hmc_u i (target_user zero log_pu log_pv log_pr distinct c um us (concat Vs) i) (nth i Us [])) /\
  (forall i, (i < length Vs)%nat -> nth i Vs' [] =
     hmc_v i (target_movie zero log_pu log_pv log_pr distinct c mu ms (concat Us') i) (nth i Vs [])).
Proof.
  intros T zero log_pu log_pv log_pr distinct c um us mu ms hmc_u hmc_v Us Vs Fu Fv Lu Lv.
  unfold pmf_epoch. cbn [fst snd].
  pose proof (sweep zero c (fun i => hmc_u i (target_user zero log_pu log_pv log_pr distinct c um us (concat Vs) i)) Us Fu (fun i x => Lu i _ x) (length Us) ltac:(lia)) as EU.
  unfold user_step. rewrite EU. set (Us' := map _ (seq 0 (length Us))).
  pose proof (sweep zero c (fun i => hmc_v i (target_movie zero log_pu log_pv log_pr distinct c mu ms (concat Us') i)) Vs Fv (fun i x => Lv i _ x) (length Vs) ltac:(lia)) as EV.
  unfold movie_step. rewrite EV.
  assert (G : forall (g : nat -> list T) n i, (i < n)%nat -> nth i (map g (seq 0 n)) [] = g i).
  { intros g n i Hi. rewrite (nth_indep _ [] (g 0%nat)) by (now rewrite map_length, seq_length). now rewrite (map_nth g), seq_nth by exact Hi. }
  split; [unfold Us'; now rewrite map_length, seq_length|]. split; [now rewrite map_length, seq_length|]. split; intros i Hi.
  - unfold Us'. rewrite G by exact Hi. apply Nat.ltb_lt in Hi. now rewrite Hi.
  - rewrite G by exact Hi. apply Nat.ltb_lt in Hi. now rewrite Hi.
Qed.
Print Assumptions C83_epoch.
Example C83_epoch_case : pmf_epoch 0%nat (fun _ => 0) (fun _ => 0) (fun _ _ _ => 0) (nodup Nat.eq_dec) 2 [] [] [] []
  (fun i _ => map (fun x => 10 * x + i)%nat) (fun i _ => map S) ([[1; 2]; [3; 4]], [[5; 6]])%nat = ([[10; 20]; [31; 41]], [[6; 7]])%nat.
Proof. reflexivity. Qed.

(** With steps that never lower the density they are given, no epoch lowers the posterior of the
    whole model: the chunks never work against one another. *)
Theorem C83_ascent : forall {T} (zero : T) log_pu log_pv log_pr distinct c train um us mu ms
  (hmc_u hmc_v : nat -> (list T -> R) -> list T -> list T) Us Vs,
  (forall s, NoDup (distinct s) /\ forall v, In v (distinct s) <-> In v s) ->
  lists_of r_user r_movie train um -> lists_of r_user r_score train us ->
  lists_of r_movie r_user train mu -> lists_of r_movie r_score train ms ->
  Forall (fun l => length l = c) Us -> Forall (fun l => length l = c) Vs ->
  (forall i f x, length x = c -> length (hmc_u i f x) = c /\ f x <= f (hmc_u i f x)) ->
  (forall i f x, length x = c -> length (hmc_v i f x) = c /\ f x <= f (hmc_v i f x)) ->
  let '(Us', Vs') := pmf_epoch zero log_pu log_pv log_pr distinct c um us mu ms hmc_u hmc_v (Us, Vs) in
  log_posterior zero log_pu log_pv log_pr train (concat Us) (concat Vs)
  <= log_posterior zero log_pu log_pv log_pr train (concat Us') (concat Vs').
Proof.
  intros T zero log_pu log_pv log_pr distinct c train um us mu ms hmc_u hmc_v Us Vs D Hum Hus Hmu Hms Fu Fv Lu Lv.
  unfold pmf_epoch. cbn [fst snd]. set (post := log_posterior zero log_pu log_pv log_pr train).
  assert (Self : forall (chunks : list (list T)) i, (i < length chunks)%nat -> assign_chunk i (nth i chunks []) chunks = chunks).
  { intros chunks i Hi. unfold assign_chunk. symmetry. now apply split_chunks. }
  assert (LN : forall (chunks : list (list T)) i, Forall (fun l => length l = c) chunks -> (i < length chunks)%nat -> length (nth i chunks []) = c).
  { intros chunks i F Hi. rewrite Forall_forall in F. apply F, nth_In, Hi. }
  assert (A : forall ids (chunks : list (list T)), Forall (fun l => length l = c) chunks -> (forall i, In i ids -> (i < length chunks)%nat) ->
    let r := fold_left (user_step zero log_pu log_pv log_pr distinct c um us hmc_u Vs) ids chunks in
    Forall (fun l => length l = c) r /\ post (concat chunks) (concat Vs) <= post (concat r) (concat Vs)).
  { induction ids as [|i ids IH]; intros chunks F Hi; cbn [fold_left]; [split; [exact F|lra]|].
    assert (Hii : (i < length chunks)%nat) by (apply Hi; now left).
    unfold user_step at 2 4. rewrite (candidate_chunk zero c) by assumption.
    pose proof (LN chunks i F Hii) as Ln.
    destruct (Lu i (target_user zero log_pu log_pv log_pr distinct c um us (concat Vs) i) (nth i chunks []) Ln) as [L1 L2].
    set (x := hmc_u i _ _) in *.
    destruct (IH (assign_chunk i x chunks)) as [I1 I2]; [now apply assign_forall|intros j Hj; rewrite assign_length by exact Hii; apply Hi; now right|].
    split; [exact I1|]. pose proof (C83_user_conditional zero log_pu log_pv log_pr distinct c train um us chunks (concat Vs) i x (nth i chunks []) D Hum Hus Hii F L1 Ln) as E.
    cbv zeta in E. rewrite Self in E by exact Hii. fold post in E. lra. }
  destruct (A (seq 0 (length Us)) Us Fu) as [FU AU]; [intros i Hi; apply in_seq in Hi; lia|]. set (Us' := fold_left _ _ Us) in *.
  assert (B : forall ids (chunks : list (list T)), Forall (fun l => length l = c) chunks -> (forall i, In i ids -> (i < length chunks)%nat) ->
    post (concat Us') (concat chunks) <= post (concat Us') (concat (fold_left (movie_step zero log_pu log_pv log_pr distinct c mu ms hmc_v Us') ids chunks))).
  { induction ids as [|i ids IH]; intros chunks F Hi; cbn [fold_left]; [lra|].
    assert (Hii : (i < length chunks)%nat) by (apply Hi; now left).
    unfold movie_step at 2. rewrite (candidate_chunk zero c) by assumption.
    pose proof (LN chunks i F Hii) as Ln.
    destruct (Lv i (target_movie zero log_pu log_pv log_pr distinct c mu ms (concat Us') i) (nth i chunks []) Ln) as [L1 L2].
    set (x := hmc_v i _ _) in *.
    pose proof (IH (assign_chunk i x chunks)) as I2.
    pose proof (C83_movie_conditional zero log_pu log_pv log_pr distinct c train mu ms (concat Us') chunks i x (nth i chunks []) D Hmu Hms Hii F L1 Ln) as E.
    cbv zeta in E. rewrite Self in E by exact Hii. fold post in E.
    assert (I3 := I2 ltac:(now apply assign_forall) ltac:(intros j Hj; rewrite assign_length by exact Hii; apply Hi; now right)). lra. }
  pose proof (B (seq 0 (length Vs)) Vs Fv ltac:(intros i Hi; apply in_seq in Hi; lia)). lra.
Qed.
Print Assumptions C83_ascent.

(** ** The reported error *)
(** Node "r" is sampled in the evaluation, so the report measures the noise as well: perfect
    predicted means do not give error zero. *)
Theorem C83_rmse_refuted : forall alpha, 0 < alpha -> exists points,
  (forall p, In p points -> forall m, In m (snd p) -> fst m = (fst p - 1) / 4) /\ 0 < pmf_rmse alpha points.
Proof.
  intros alpha H. exists [(1, [((1 - 1) / 4, 1)])]. split.
  - intros p [<-|[]] m [<-|[]]. reflexivity.
  - unfold pmf_rmse, pmf_pred, reduce_mean. cbn [map total length fst snd INR].
    apply Rmult_lt_0_compat; [|lra]. apply sqrt_lt_R0.
    replace (_ / 1) with (alpha * alpha) by field. nra.
Qed.
Print Assumptions C83_rmse_refuted.
(** With the noise switched off it is the root mean square error in the original scale 1 to 5. *)
Theorem C83_rmse : forall points, points <> [] ->
  pmf_rmse 0 points = sqrt (total (fun p => ((1 + 4 * (total fst (snd p) / INR (length (snd p)))) - fst p) ^ 2) points / INR (length points)).
Proof.
  intros points N. unfold pmf_rmse, pmf_pred, reduce_mean.
  assert (P : 0 < INR (length points)) by (apply lt_0_INR; destruct points; [contradiction|cbn; lia]).
  rewrite (total_ext (fun p => ((1 + 4 * (total fst (snd p) / INR (length (snd p)))) - fst p) ^ 2)
    (fun p => 16 * (total (fun q => fst q + 0 * snd q) (snd p) / INR (length (snd p)) - (fst p - 1) / 4) ^ 2)).
  - rewrite total_scal. set (S := total _ points).
    assert (0 <= S) by (apply total_nonneg; intros; apply pow2_ge_0).
    replace (16 * S / INR (length points)) with (16 * (S / INR (length points))) by (unfold Rdiv; ring).
    rewrite sqrt_mult; [|lra|apply Rmult_le_pos; [assumption|left; now apply Rinv_0_lt_compat]].
    replace 16 with (4 * 4) by lra. rewrite sqrt_square by lra. ring.
  - intros p _. rewrite (total_ext (fun q => fst q + 0 * snd q) fst) by (intros; ring).
    set (m := total fst (snd p) / INR (length (snd p))). field.
Qed.
Print Assumptions C83_rmse.
