(** C77: loaders that are stopped at any point. *)
From Coq Require Import List Arith Lia.
From Verif Require Import ModelCache SpecCache ProofCache.
Import ListNotations.

(** ** One file *)
Section File.
Context {A : Type} (remote : bytes) (parse : bytes -> option A) (data : A).
Notation load := (load_file remote parse).
Notation runs history := (forall j, In j history -> exists n, j = Job A n load).
(** A first run downloads and returns the data; the next run uses the file. *)
Theorem C77_file_undisturbed s : parse remote = Some data -> s Archive = None ->
  let s' := put s Archive (Some remote) in ends s load s' (Returned data) /\ ends s' load s' (Returned data).
Proof.
  intros P N s'. assert (E : s' Archive = Some remote) by apply put_same. assert (R : ends s' (Read Archive (fun b => match parse b with Some d => Return d | None => Raise end)) s' (Returned data)) by (apply (ends_read _ _ _ _ _ remote E); rewrite P; apply ends_return).
  split; apply ends_fetched; intros X; [exact R|congruence|congruence|exact R].
Qed.
Hypothesis cut : rejects_cut parse remote data.
Let truth (p : path) : bytes := remote.
Lemma load_file_honest : honest truth (fun d => d = data) load.
Proof.
  unfold load_file, fetched. cbn. assert (R : forall b, prefix b remote -> honest truth (fun d => d = data) (match parse b with Some d => Return d | None => Raise end)).
  { intros b P. destruct (parse b) eqn:E; cbn; [|exact I]. now apply (rejects_cut_prefix parse remote data b a). }
  intros here; destruct here; cbn; [exact R|]. split; [apply prefix_refl|exact R].
Qed.
(** After any runs, stopped anywhere, a run that returns anything returns the whole data. *)
Theorem C77_file_safe history n d : runs history -> snd (run n (after history nothing) load) = Returned d -> d = data.
Proof.
  intros H. refine (proj2 (honest_run truth (fun d => d = data) _ n _ _ _) d); [|apply load_file_honest]. apply honest_after; [apply good_nothing|]. intros j Hj. destruct (H j Hj) as (m & ->). cbn [program]. apply (honest_weaken truth (fun d => d = data)); [easy|apply load_file_honest].
Qed.
(** But a download that was stopped is never repeated: every later run fails, until somebody
    deletes the file. *)
Theorem C77_file_stuck s k : k < length remote -> s Archive = Some (firstn k remote) -> forall history, runs history ->
  after history s = s /\ forall n, run n s load = (s, Raised) \/ run n s load = (s, Stopped).
Proof.
  intros K E. assert (S : forall n, run n s load = (s, Raised) \/ run n s load = (s, Stopped)).
  { intros n. destruct cut as (_ & C). unfold load_file, fetched. cbn. destruct n as [|n]; [now right|]. rewrite E. cbn. destruct n as [|n]; [now right|]. rewrite E, (C k K). now left. }
  induction history as [|j rest IH]; intros H; [split; [reflexivity|exact S]|]. split; [|exact S]. destruct (H j (or_introl eq_refl)) as (n & ->). cbn [after steps program result]. destruct (S n) as [-> | ->]; cbn [fst]; apply IH; intros; apply H; now right.
Qed.
Theorem C77_file_stopped k : k < length remote -> run (S (S k)) nothing load = (put nothing Archive (Some (firstn k remote)), Stopped).
Proof. intros K. unfold load_file, fetched. cbn [run]. change (nothing Archive) with (@None bytes). cbn [run]. apply Nat.ltb_lt in K. now rewrite K. Qed.
End File.
Print Assumptions C77_file_undisturbed.
Print Assumptions C77_file_safe.
Print Assumptions C77_file_stuck.
Print Assumptions C77_file_stopped.
(** A format whose first byte is the length. *)
Definition counted (b : bytes) : option bytes := match b with [] => None | n :: r => if Nat.leb n (length r) then Some (firstn n r) else None end.
Example C77_file_case : rejects_cut counted [3; 7; 8; 9] [7; 8; 9].
Proof. split; [reflexivity|]. intros n L. cbn in L. repeat (destruct n as [|n]; [reflexivity|]). lia. Qed.
(** Text files are cut without anybody noticing: a stopped download of the housing data makes
    every later run return fewer rows. *)
Theorem C77_text_cut remote s k : s Archive = Some (firstn k remote) ->
  ends s (load_file remote (fun b => Some (text_rows [] b))) s (Returned (text_rows [] (firstn k remote))).
Proof. intros E. apply ends_fetched; [congruence|]. intros _. apply (ends_read _ _ _ _ _ _ E). apply ends_return. Qed.
Theorem C77_text_refuted : exists remote n rows, let load := load_file remote (fun b => Some (text_rows [] b)) in
  let s := fst (run n nothing load) in ends s load s (Returned rows) /\ length rows < length (text_rows [] remote).
Proof.
  exists [1; 10; 2; 10; 3; 10], 5, [[1]; [2]]. cbv zeta. split; [|cbn; lia]. rewrite (C77_file_stopped [1; 10; 2; 10; 3; 10] (fun b => Some (text_rows [] b)) 3) by (cbn; lia). exact (C77_text_cut [1; 10; 2; 10; 3; 10] _ 3 (put_same _ _ _)).
Qed.
Print Assumptions C77_text_cut.
Print Assumptions C77_text_refuted.

(** ** The cifar archive *)
Section Cifar.
Context {B : Type} (remote : bytes) (unpack : bytes -> list (nat * bytes) * bool) (parse : bytes -> option B)
  (members : list (nat * bytes)) (contents : nat -> bytes) (batch : nat -> B).
Notation load := (load_cifar10 remote unpack parse).
Notation runs history := (forall j, In j history -> exists n, j = Job (list B) n load).
Notation needed := [1; 2; 3; 4; 5; 0].
Hypothesis whole : unpack remote = (members, true).
Hypothesis genuine : forall i b, In (i, b) members -> b = contents i.
Hypothesis pickles : forall i, In i needed -> rejects_cut parse (contents i) (batch i).
Lemma read_batches_ends s l acc : (forall i, In i l -> In i needed) -> (forall i, In i l -> s (Member i) = Some (contents i)) -> ends s (read_batches parse l acc) s (Returned (acc ++ map batch l)).
Proof.
  revert acc. induction l as [|i l IH]; intros acc Hn Hs; cbn [read_batches map]; [rewrite app_nil_r; apply ends_return|]. apply (ends_read _ _ _ _ _ (contents i)); [apply Hs; now left|]. destruct (pickles i (Hn i (or_introl eq_refl))) as (P & _). rewrite P. replace (acc ++ batch i :: map batch l) with ((acc ++ [batch i]) ++ map batch l) by now rewrite <- app_assoc. apply IH; intros; [apply Hn|apply Hs]; now right.
Qed.
Definition extracted (l : list (nat * bytes)) (s : files) : files := fold_left (fun s m => put s (Member (fst m)) (Some (snd m))) l s.
Lemma extract_ends {T} s l (k : prog T) s' o : ends (extracted l s) k s' o -> ends s (extract l k) s' o.
Proof. revert s. induction l as [|(i, b) l IH]; intros s H; [exact H|]. cbn [extract]. apply ends_write. apply IH. exact H. Qed.
Lemma extracted_at l s i : (forall i b, In (i, b) l -> b = contents i) -> (exists b, In (i, b) l) \/ s (Member i) = Some (contents i) -> extracted l s (Member i) = Some (contents i).
Proof.
  revert s. induction l as [|(j, b) l IH]; intros s G [(c & H)|H]; cbn; [destruct H| exact H| |].
  - apply IH; [intros; apply G; now right|]. destruct H as [[= -> ->]|H]; [right; rewrite put_same; f_equal; apply G; now left|left; now exists c].
  - apply IH; [intros; apply G; now right|]. destruct (Nat.eq_dec i j) as [->|N]; [right; rewrite put_same; f_equal; apply G; now left|right; rewrite put_other by congruence; exact H].
Qed.
(** A first run returns the six batches; so does the next, which only reads. *)
Theorem C77_cifar_undisturbed : (forall i, In i needed -> exists b, In (i, b) members) ->
  exists s', ends nothing load s' (Returned (map batch needed)) /\ ends s' load s' (Returned (map batch needed)).
Proof.
  intros A. set (s1 := put nothing Archive (Some remote)). set (s' := extracted members s1). assert (M : forall i, In i needed -> s' (Member i) = Some (contents i)) by (intros i Hi; apply extracted_at; [exact genuine|left; now apply A]).
  assert (RB : ends s' (read_batches parse needed []) s' (Returned (map batch needed))) by (apply (read_batches_ends s' needed []); [easy|exact M]).
  exists s'. split.
  - apply ends_fetched; [|intros X; now contradiction X]. intros _. fold s1. apply ends_isfile. replace (s1 (Member 5)) with (@None bytes) by reflexivity. apply (ends_read _ _ _ _ _ remote); [reflexivity|]. rewrite whole. cbn [fst snd]. apply extract_ends. exact RB.
  - assert (Ar : s' Archive <> None). { unfold s'. assert (X : forall l s, s Archive <> None -> extracted l s Archive <> None) by (induction l as [|m l IH]; intros s H; [exact H|]; cbn; apply IH; now rewrite put_other by discriminate). apply X. discriminate. }
    apply ends_fetched; [congruence|]. intros _. apply ends_isfile. rewrite (M 5) by (cbn; auto 7). exact RB.
Qed.
(** Extracting from an archive that was cut short writes parts of the same files and raises. *)
Hypothesis partly : forall n, n < length remote -> snd (unpack (firstn n remote)) = false /\ forall i b, In (i, b) (fst (unpack (firstn n remote))) -> prefix b (contents i).
Let truth (p : path) : bytes := match p with Member i => contents i | _ => remote end.
Lemma read_batches_honest l acc : (forall i, In i l -> In i needed) -> honest truth (fun d => d = acc ++ map batch l) (read_batches parse l acc).
Proof.
  revert acc. induction l as [|i l IH]; intros acc Hn; cbn; [now rewrite app_nil_r|]. intros b P. destruct (parse b) eqn:E; cbn; [|exact I]. destruct (rejects_cut_prefix _ _ _ _ _ (pickles i (Hn i (or_introl eq_refl))) P E) as (_ & ->). eapply honest_weaken; [|apply IH; intros; apply Hn; now right]. intros a ->. now rewrite <- app_assoc.
Qed.
Lemma extract_honest {T} (Q : T -> Prop) l k : (forall i b, In (i, b) l -> prefix b (contents i)) -> honest truth Q k -> honest truth Q (extract l k).
Proof. induction l as [|(i, b) l IH]; intros H K; [exact K|]. cbn. split; [apply H; now left|]. apply IH; [intros; apply H; now right|exact K]. Qed.
Lemma load_cifar_honest : honest truth (fun d => d = map batch needed) load.
Proof.
  assert (RB : honest truth (fun d => d = map batch needed) (read_batches parse needed [])) by (apply (read_batches_honest needed []); easy).
  assert (M : honest truth (fun d => d = map batch needed) (IsFile (Member 5) (fun here => if here then read_batches parse needed [] else Read Archive (fun b => extract (fst (unpack b)) (if snd (unpack b) then read_batches parse needed [] else Raise))))).
  { cbn [honest]. intros []; [exact RB|]. cbn [honest]. intros b P. change (truth Archive) with remote in P. destruct (prefix_cases _ _ P) as [->|(n & L & ->)].
    - rewrite whole. cbn [fst snd]. apply extract_honest; [|exact RB]. intros i b Hi. rewrite (genuine i b Hi). apply prefix_refl.
    - destruct (partly n L) as (F & G). rewrite F. apply extract_honest; [exact G|exact I]. }
  unfold load_cifar10, fetched. intros []; [exact M|]. split; [apply prefix_refl|exact M].
Qed.
Theorem C77_cifar_safe history n d : runs history -> snd (run n (after history nothing) load) = Returned d -> d = map batch needed.
Proof.
  intros H. refine (proj2 (honest_run truth (fun d => d = map batch needed) _ n _ _ _) d); [|apply load_cifar_honest]. apply honest_after; [apply good_nothing|]. intros j Hj. destruct (H j Hj) as (m & ->). cbn [program]. apply (honest_weaken truth (fun d => d = map batch needed)); [easy|apply load_cifar_honest].
Qed.
(** Only data_batch_5 is looked for: if it is there and another batch is not, no later run
    extracts it, and all fail. *)
Theorem C77_cifar_stuck s i : s Archive <> None -> s (Member 5) <> None -> In i needed -> s (Member i) = None -> forall history, runs history ->
  after history s = s /\ forall n d, run n s load <> (s, Returned d).
Proof.
  intros Ar M5 Hi Mi. assert (R : forall l acc n, (exists o, run n s (read_batches parse l acc) = (s, o)) /\ (In i l -> forall d, run n s (read_batches parse l acc) <> (s, Returned d))).
  { induction l as [|j l IH]; intros acc n; cbn [read_batches run]; [split; [now eexists|intros []]|]. destruct n as [|n]; [split; [now eexists|discriminate]|]. destruct (s (Member j)) as [b|] eqn:E; [|split; [now eexists|discriminate]]. destruct (parse b) as [x|]; [|split; [now eexists|cbn; discriminate]]. destruct (IH (acc ++ [x]) n) as (I1 & I2). split; [exact I1|]. intros [->|Hl]; [congruence|now apply I2]. }
  assert (S : forall n, (exists o, run n s load = (s, o)) /\ forall d, run n s load <> (s, Returned d)).
  { intros n. unfold load_cifar10, fetched. cbn [run]. destruct n as [|n]; [split; [now eexists|discriminate]|]. destruct (s Archive); [|congruence]. cbn [run]. destruct n as [|n]; [split; [now eexists|discriminate]|]. destruct (s (Member 5)); [|congruence]. destruct (R needed [] n) as (R1 & R2). split; [exact R1|now apply R2]. }
  induction history as [|j rest IH]; intros H; [split; [reflexivity|intros n; apply S]|]. split; [|intros n; apply S]. destruct (H j (or_introl eq_refl)) as (n & ->). cbn [after steps program result]. destruct (S n) as ((o & ->) & _). cbn [fst]. apply IH. intros; apply H; now right.
Qed.
End Cifar.
Print Assumptions C77_cifar_undisturbed.
Print Assumptions C77_cifar_safe.
Print Assumptions C77_cifar_stuck.
(** Such a state is reached when extraction is stopped after data_batch_5 in an archive that has
    it before another batch; the archive itself is intact. *)
Definition small_unpack (b : bytes) : list (nat * bytes) * bool := match b with [7] => (map (fun i => (i, [i])) [5; 1; 2; 3; 4; 0], true) | _ => ([], false) end.
Definition small_parse (b : bytes) : option nat := match b with [x] => Some x | _ => None end.
Theorem C77_cifar_refuted : exists k, let load := load_cifar10 [7] small_unpack small_parse in let s := fst (run k nothing load) in
  s Archive = Some [7] /\ forall history, (forall j, In j history -> exists n, j = Job (list nat) n load) -> after history s = s /\ forall n d, run n s load <> (s, Returned d).
Proof. exists 7. cbv zeta. split; [reflexivity|]. apply (C77_cifar_stuck [7] small_unpack small_parse _ 1); cbn; auto; discriminate. Qed.
Print Assumptions C77_cifar_refuted.
Example C77_cifar_case : small_unpack [7] = (map (fun i => (i, [i])) [5; 1; 2; 3; 4; 0], true) /\ (forall i b, In (i, b) (map (fun i => (i, [i])) [5; 1; 2; 3; 4; 0]) -> b = [i]) /\
  (forall i, In i [1; 2; 3; 4; 5; 0] -> rejects_cut small_parse [i] i) /\ (forall n, n < length [7] -> snd (small_unpack (firstn n [7])) = false /\ forall i b, In (i, b) (fst (small_unpack (firstn n [7]))) -> prefix b [i]).
Proof.
  split; [reflexivity|]. split; [intros i b H; apply in_map_iff in H as (j & [= <- <-] & _); reflexivity|]. split.
  - intros i _. split; [reflexivity|]. intros [|n] L; [reflexivity|cbn in L; lia].
  - intros [|n] L; [|cbn in L; lia]. split; [reflexivity|]. intros i b [].
Qed.

(** ** Bags of words *)
Section Bow.
Context {F W : Type} (vector vocab : bytes) (dense : bytes -> option F) (save : F -> bytes) (load : bytes -> option F) (sparse : bytes -> option W) (f : F) (w : W).
Notation bow := (load_uci_bow vector vocab dense save load).
Notation bow_sparse := (load_uci_bow_sparse vector vocab sparse).
Notation runs history := (forall j, In j history -> exists n, j = Job (F * list bytes) n bow \/ j = Job (W * list bytes) n bow_sparse).
Hypothesis vectors : rejects_cut dense vector f.
Hypothesis vectors_sparse : rejects_cut sparse vector w.
Hypothesis arrays : rejects_cut load (save f) f.
Let truth (p : path) : bytes := match p with Vector => vector | Vocab => vocab | Numpy => save f | _ => [] end.
Definition good_result {T} (data : T) (r : T * list bytes) : Prop := fst r = data /\ exists k, snd r = text_rows [] (firstn k vocab).
Lemma with_vocab_honest {T} (data : T) : honest truth (good_result data) (with_vocab vocab data).
Proof.
  assert (R : forall b, prefix b vocab -> good_result data (data, text_rows [] b)) by (intros b (k & ->); split; [reflexivity|now exists k]).
  unfold with_vocab, fetched. intros []; cbn; [exact R|]. split; [apply prefix_refl|exact R].
Qed.
Lemma bow_honest : honest truth (good_result f) bow.
Proof.
  unfold load_uci_bow. intros []; cbn -[with_vocab].
  - intros b P. destruct (load b) eqn:E; [|exact I]. destruct (rejects_cut_prefix _ _ _ _ _ arrays P E) as (_ & ->). apply with_vocab_honest.
  - split; [apply prefix_refl|]. intros b P. destruct (dense b) eqn:E; [|exact I]. destruct (rejects_cut_prefix _ _ _ _ _ vectors P E) as (_ & ->). split; [apply prefix_refl|]. apply with_vocab_honest.
Qed.
Lemma bow_sparse_honest : honest truth (good_result w) bow_sparse.
Proof.
  assert (R : honest truth (good_result w) (Read Vector (fun b => match sparse b with Some d => with_vocab vocab d | None => Raise end))).
  { cbn -[with_vocab]. intros b P. destruct (sparse b) eqn:E; [|exact I]. destruct (rejects_cut_prefix _ _ _ _ _ vectors_sparse P E) as (_ & ->). apply with_vocab_honest. }
  unfold load_uci_bow_sparse, fetched. intros []; [exact R|]. split; [apply prefix_refl|exact R].
Qed.
(** Both loaders share their files. After any runs of either, stopped anywhere, the counts
    returned are those of the server; the words are those of a part of the vocabulary file. *)
Lemma bow_good history : runs history -> good truth (after history nothing).
Proof.
  intros H. apply honest_after; [apply good_nothing|]. intros j Hj. destruct (H j Hj) as (n & [-> | ->]); cbn [program]; [apply (honest_weaken truth (good_result f)); [easy|apply bow_honest]|apply (honest_weaken truth (good_result w)); [easy|apply bow_sparse_honest]].
Qed.
Theorem C77_bow_safe history n counts words : runs history -> snd (run n (after history nothing) bow) = Returned (counts, words) -> counts = f /\ exists k, words = text_rows [] (firstn k vocab).
Proof. intros H. refine (proj2 (honest_run truth (good_result f) _ n _ _ _) (counts, words)); [now apply bow_good|apply bow_honest]. Qed.
Theorem C77_bow_sparse_safe history n counts words : runs history -> snd (run n (after history nothing) bow_sparse) = Returned (counts, words) -> counts = w /\ exists k, words = text_rows [] (firstn k vocab).
Proof. intros H. refine (proj2 (honest_run truth (good_result w) _ n _ _ _) (counts, words)); [now apply bow_good|apply bow_sparse_honest]. Qed.
(** While the array has not been written, a stopped run does no harm: the next one downloads
    again, whatever part of the download is there, and leaves only the array and the words. *)
Theorem C77_bow_recovers s : s Numpy = None -> s Vocab = None ->
  let s' := put (put (put (put s Vector (Some vector)) Numpy (Some (save f))) Vector None) Vocab (Some vocab) in
  ends s bow s' (Returned (f, text_rows [] vocab)) /\ s' Vector = None /\ ends s' bow s' (Returned (f, text_rows [] vocab)).
Proof.
  intros N V s'. destruct vectors as (D & _). destruct arrays as (L & _). assert (Vo : s' Vocab = Some vocab) by apply put_same. assert (Nu : s' Numpy = Some (save f)) by reflexivity.
  assert (R : ends s' (Read Vocab (fun b => Return (f, text_rows [] b))) s' (Returned (f, text_rows [] vocab))) by (apply (ends_read _ _ _ _ _ vocab Vo); apply ends_return).
  split; [|split; [reflexivity|]].
  - apply ends_isfile. rewrite N. apply ends_write. apply (ends_read _ _ _ _ _ vector); [apply put_same|]. rewrite D. apply ends_write. apply (ends_remove _ _ _ _ _ vector); [reflexivity|]. apply ends_fetched; [intros _; exact R|]. intros X. contradiction X.
  - apply ends_isfile. rewrite Nu. apply (ends_read _ _ _ _ _ (save f) Nu). rewrite L. apply ends_fetched; [congruence|intros _; exact R].
Qed.
(** Once the array has been cut short, every run of load_uci_bow fails. *)
Theorem C77_bow_stuck s k n : k < length (save f) -> s Numpy = Some (firstn k (save f)) -> run n s bow = (s, Raised) \/ run n s bow = (s, Stopped).
Proof.
  intros K E. destruct arrays as (_ & C). unfold load_uci_bow. cbn -[with_vocab]. destruct n as [|n]; [now right|]. rewrite E. cbn -[with_vocab]. destruct n as [|n]; [now right|]. rewrite E, (C k K). now left.
Qed.
(** A run stopped between writing the array and deleting the download leaves the download there
    for good. *)
Theorem C77_bow_left_over s v : s Numpy <> None -> s Vector = Some v -> forall history, (forall j, In j history -> exists n, j = Job (F * list bytes) n bow) -> after history s Vector = Some v.
Proof.
  intros N V history. revert s N V. induction history as [|j rest IH]; intros s N V H; [exact V|]. cbn [after]. destruct (H j (or_introl eq_refl)) as (n & ->). cbn [steps program result].
  assert (X : fst (run n s bow) Numpy <> None /\ fst (run n s bow) Vector = Some v); [|now apply IH; [apply X|apply X|intros; apply H; right]].
  assert (Y : forall m d, fst (run m s (with_vocab vocab d)) Numpy <> None /\ fst (run m s (@with_vocab F vocab d)) Vector = Some v).
  { intros m d. unfold with_vocab, fetched. cbn [run]. destruct m as [|m]; [now split|]. destruct (s Vocab) as [c|] eqn:E; cbn [run].
    - destruct m as [|m]; [now split|]. rewrite E. destruct m; now split.
    - destruct m as [|m]; [now split|]. destruct (Nat.ltb m (length vocab)); [cbn [fst]; now rewrite !put_other by discriminate|]. destruct (m - length vocab) as [|m']; [cbn [fst]; now rewrite !put_other by discriminate|]. rewrite put_same. destruct m'; cbn [run fst]; now rewrite !put_other by discriminate. }
  unfold load_uci_bow. cbn [run]. destruct n as [|n]; [now split|]. destruct (s Numpy) as [b|] eqn:E; [|congruence]. cbn [run]. destruct n as [|n]; [cbn [fst]; rewrite E; now split|]. rewrite E. destruct (load b); [|destruct n; cbn [run fst]; rewrite E; now split]. apply Y.
Qed.
End Bow.
Print Assumptions C77_bow_safe.
Print Assumptions C77_bow_sparse_safe.
Print Assumptions C77_bow_recovers.
Print Assumptions C77_bow_stuck.
Print Assumptions C77_bow_left_over.
(** The vocabulary has no check: cut short, every later run returns fewer words than the array
    has columns. *)
Definition bow_bytes (b : bytes) : option bytes := match b with [1; x] => Some [1; x] | _ => None end.
Theorem C77_vocab_refuted : exists n s words, let bow := load_uci_bow [1; 2] [5; 10; 6; 10] bow_bytes (fun b => b) bow_bytes in
  s = fst (run n nothing bow) /\ ends s bow s (Returned ([1; 2], words)) /\ length words < length (text_rows [] [5; 10; 6; 10]).
Proof.
  exists 12. eexists. exists [[5]]. cbv zeta. split; [reflexivity|]. split; [|cbn; lia]. exists 12. intros n L. do 12 (destruct n as [|n]; [lia|]). reflexivity.
Qed.
Print Assumptions C77_vocab_refuted.
Example C77_bow_case : rejects_cut bow_bytes [1; 2] [1; 2].
Proof. split; [reflexivity|]. intros n L. cbn in L. do 2 (destruct n as [|n]; [reflexivity|]). lia. Qed.
