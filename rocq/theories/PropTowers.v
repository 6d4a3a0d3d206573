(** C73: training on several devices and in batches. *)
From Coq Require Import List Reals Arith Bool Lra Lia.
From Verif Require Import SpecDist SpecVI ModelExamples SpecExamples ProofDiscrete ProofExamples.
Import ListNotations.
Local Open Scope R_scope.

(** Every example goes to exactly one device: the shards, in order, are the batch. Their sizes
    differ by one at most. *)
Theorem C73_shards {A} (x : list A) G : (0 < G)%nat ->
  concat (map (tower_slice G x) (seq 0 G)) = x /\
  forall id, (id < G)%nat -> length (tower_slice G x id) = (length x / G)%nat \/ length (tower_slice G x id) = (length x / G + 1)%nat.
Proof.
  intros HG. split.
  - unfold tower_slice. rewrite (pieces (fun i => i * length x / G)%nat); [|now rewrite Nat.mul_0_l, Nat.div_0_l by lia|intros; apply div_mono_mult].
    rewrite Nat.mul_comm, Nat.div_mul by lia. apply firstn_all.
  - intros id Hid. unfold tower_slice. rewrite slice_length. set (N := length x).
    assert (U : ((id + 1) * N / G <= N)%nat) by (apply Nat.div_le_upper_bound; [lia|]; nia).
    pose proof (Nat.div_mod (id * N) G ltac:(lia)) as E1. pose proof (Nat.mod_upper_bound (id * N) G ltac:(lia)) as B1.
    pose proof (Nat.div_mod ((id + 1) * N) G ltac:(lia)) as E2. pose proof (Nat.mod_upper_bound ((id + 1) * N) G ltac:(lia)) as B2.
    pose proof (Nat.div_mod N G ltac:(lia)) as E3. pose proof (Nat.mod_upper_bound N G ltac:(lia)) as B3.
    set (a := (id * N / G)%nat) in *. set (b := ((id + 1) * N / G)%nat) in *. set (q := (N / G)%nat) in *. assert (a <= b)%nat by apply div_mono_mult.
    assert (b - a = q \/ b - a = q + 1)%nat; [|lia]. assert (q <= b - a < q + 2)%nat; [|lia]. split; nia.
Qed.

Section Average.
Context {V D : Type} (dim : V -> nat) (grad : V -> D -> nat -> R) (depends : V -> bool) (vars : list V).
Notation tower := (tower dim grad depends vars).
Notation mean_gradient := (mean_gradient dim grad).
Lemma mean_gradient_length v l : length (mean_gradient v l) = dim v.
Proof. unfold SpecExamples.mean_gradient. now rewrite map_length, seq_length. Qed.
Lemma average_one_depends shards v b : (0 < b)%nat -> shards <> [] -> (forall s, In s shards -> length s = b) ->
  average_one (map (fun s => (if depends v then Some (mean_gradient v s) else None, v)) shards)
  = Some (if depends v then [(mean_gradient v (concat shards), v)] else []).
Proof.
  intros B N H. destruct (depends v) eqn:Ed; [|destruct shards; [congruence|reflexivity]].
  assert (E : stack_mean (map (mean_gradient v) shards) = Some (mean_gradient v (concat shards))).
  { destruct shards as [|s0 ss] eqn:Es; [congruence|]. rewrite <- Es in *. unfold stack_mean. destruct (map (mean_gradient v) shards) as [|g gs] eqn:Eg; [rewrite Es in Eg; discriminate|]. rewrite <- Eg.
    assert (Lg : length g = dim v) by (rewrite Es in Eg; injection Eg as <- _; apply mean_gradient_length).
    replace (forallb _ _) with true by (symmetry; apply forallb_forall; intros h Hh; apply in_map_iff in Hh as (s & <- & _); rewrite mean_gradient_length, Lg; apply Nat.eqb_refl).
    f_equal. rewrite Lg. unfold SpecExamples.mean_gradient at 3. apply map_ext_in. intros i Hi. apply in_seq in Hi.
    rewrite map_length, total_map, <- (mean_of_means (fun d => grad v d i) shards b B N H). f_equal. apply total_ext. intros s _. unfold SpecExamples.mean_gradient.
    rewrite nth_indep with (d' := (fun i => mean (map (fun d => grad v d i) s)) 0%nat) by (rewrite map_length, seq_length; lia).
    rewrite (map_nth (fun i => mean (map (fun d => grad v d i) s))), seq_nth by lia. reflexivity. }
  destruct shards as [|s0 ss] eqn:Es; [congruence|]. rewrite <- Es in *. assert (Em : exists r, map (fun s => (Some (mean_gradient v s), v)) shards = (Some (mean_gradient v s0), v) :: r) by (rewrite Es; eexists; reflexivity). destruct Em as (r & Em).
  unfold average_one. rewrite Em. rewrite <- Em. rewrite map_map. cbn [fst]. rewrite (all_present_map (mean_gradient v)), E. reflexivity.
Qed.
(** Averaging the gradients of devices with equally many examples gives, for every variable the
    loss depends on and in the order of the variables, the gradient of the mean loss over all
    examples together. *)
Theorem C73_gradients shards b : (0 < b)%nat -> shards <> [] -> (forall s, In s shards -> length s = b) ->
  average_gradients (map tower shards) = Some (map (fun v => (mean_gradient v (concat shards), v)) (filter depends vars)).
Proof.
  intros B N H. unfold average_gradients. etransitivity; [apply f_equal; exact (zip_star_map (fun s v => (if depends v then Some (mean_gradient v s) else None, v)) shards vars N)|].
  induction vars as [|v vs IH]; [reflexivity|]. cbn [map average_all filter]. rewrite (average_one_depends shards v b B N H), IH. destruct (depends v); reflexivity.
Qed.
(** In particular for a batch whose size is a multiple of the number of devices, as in dcgan.py
    and wasserstein_gan.py. *)
Corollary C73_batch (x : list D) G b : (0 < G)%nat -> (0 < b)%nat -> length x = (b * G)%nat ->
  average_gradients (map tower (map (tower_slice G x) (seq 0 G))) = Some (map (fun v => (mean_gradient v x, v)) (filter depends vars)).
Proof.
  intros HG Hb L. destruct (C73_shards x G HG) as (C & S). rewrite (C73_gradients _ b Hb); [now rewrite C|destruct G; [lia|discriminate]|].
  intros s Hs. apply in_map_iff in Hs as (i & <- & Hi). apply in_seq in Hi. unfold tower_slice. rewrite slice_length, L.
  replace (i * (b * G))%nat with (i * b * G)%nat by lia. replace ((i + 1) * (b * G))%nat with ((i + 1) * b * G)%nat by lia. rewrite !Nat.div_mul by lia. nia.
Qed.
End Average.
Print Assumptions C73_shards.
Print Assumptions C73_gradients.
Print Assumptions C73_batch.

(** Losses are averaged in the same way. *)
Theorem C73_losses {D} (losses : list (D -> R)) (shards : list (list D)) b : (0 < b)%nat -> shards <> [] -> (forall s, In s shards -> length s = b) ->
  average_losses (map (fun s => map (fun f => mean (map f s)) losses) shards) = map (fun f => mean (map f (concat shards))) losses.
Proof.
  intros B N H. unfold average_losses. rewrite (zip_star_map (fun s f => mean (map f s)) shards losses N), map_map. apply map_ext. intros f. rewrite map_length, total_map. now apply (mean_of_means f shards b).
Qed.
(** With unequal shards the average is not the gradient of the mean loss: three examples on two
    devices. *)
Theorem C73_unequal_refuted : exists (x : list nat) (grad : unit -> nat -> nat -> R) g g',
  average_gradients (map (tower (fun _ => 1%nat) grad (fun _ => true) [tt]) (map (tower_slice 2 x) (seq 0 2))) = Some [([g], tt)] /\
  mean_gradient (fun _ => 1%nat) grad tt x = [g'] /\ g <> g'.
Proof.
  exists [0%nat; 1%nat; 2%nat], (fun _ d _ => INR d). eexists. eexists. split; [|split].
  - unfold average_gradients, tower_slice, slice, tower, mean_gradient. cbn [length seq map Nat.mul Nat.add Nat.div Nat.divmod fst snd Nat.sub firstn skipn zip_star zip_cons average_all average_one all_present stack_mean forallb Nat.eqb andb app]. reflexivity.
  - reflexivity.
  - cbn. unfold mean. cbn. lra.
Qed.
(** A variable for which the first device has no gradient is left out, whatever the others
    report; one for which only a later device has none makes the call fail. *)
Theorem C73_first_none_refuted {V} (g : tensor) (v : V) : average_gradients [[(None, v)]; [(Some g, v)]] = Some [].
Proof. reflexivity. Qed.
Theorem C73_later_none {V} (g : tensor) (v : V) before after rest : average_one ((Some g, v) :: before ++ (None, v) :: after) = None /\
  (forall cols, average_all (cols ++ ((Some g, v) :: before ++ (None, v) :: after) :: rest) = None).
Proof.
  assert (H : average_one ((Some g, v) :: before ++ (None, v) :: after) = None).
  { unfold average_one. cbn [map fst all_present]. replace (all_present (map fst (before ++ (None, v) :: after))) with (@None (list tensor)); [reflexivity|].
    symmetry. induction before as [|([h|] & u) before IH]; [reflexivity| |reflexivity]. cbn [app map fst all_present]. now rewrite IH. }
  split; [exact H|]. intros cols. induction cols as [|c cols IH]; cbn [app average_all]; [now rewrite H|]. rewrite IH. now destruct (average_one c).
Qed.

(** ** Batches *)
(** Rounding the number of batches up covers the data, in order, with no empty batch. *)
Theorem C73_all_batches {A} (data : list A) size : (0 < size)%nat ->
  concat (all_batches size data) = data /\ (forall b, In b (all_batches size data) -> (1 <= length b <= size)%nat) /\
  length (all_batches size data) = (match length data with O => 0 | S n => n / size + 1 end)%nat.
Proof.
  intros HS. unfold all_batches, batch. set (N := length data). pose proof (Nat.div_mod (N + size - 1) size ltac:(lia)) as E. pose proof (Nat.mod_upper_bound (N + size - 1) size ltac:(lia)) as B. set (q := ((N + size - 1) / size)%nat) in *.
  split; [|split].
  - rewrite (pieces (fun i => i * size)%nat) by (try reflexivity; intros; nia). apply firstn_all2. fold N. nia.
  - intros b Hb. apply in_map_iff in Hb as (i & <- & Hi). apply in_seq in Hi. rewrite slice_length. fold N. nia.
  - rewrite map_length, seq_length. unfold q. destruct N as [|n]; [cbn; apply Nat.div_small; lia|]. replace (S n + size - 1)%nat with (n + 1 * size)%nat by lia. now rewrite Nat.div_add by lia.
Qed.
(** Rounding it down uses the first N // size * size entries only, in batches of equal size. *)
Theorem C73_full_batches {A} (data : list A) size : (0 < size)%nat ->
  concat (full_batches size data) = firstn (length data / size * size) data /\ (forall b, In b (full_batches size data) -> length b = size).
Proof.
  intros HS. unfold full_batches, batch. pose proof (Nat.div_mod (length data) size ltac:(lia)) as E. pose proof (Nat.mod_upper_bound (length data) size ltac:(lia)) as B. set (q := (length data / size)%nat) in *. split.
  - rewrite (pieces (fun i => i * size)%nat) by (try reflexivity; intros; nia). reflexivity.
  - intros b Hb. apply in_map_iff in Hb as (i & <- & Hi). apply in_seq in Hi. rewrite slice_length. nia.
Qed.
(** So the mean of the batch means, as the examples report it, is the mean over the data exactly
    if no data are left over; a left over example never counts. *)
Theorem C73_reported_mean {A} (data : list A) size (f : A -> R) : (0 < size <= length data)%nat ->
  mean (map (fun b => mean (map f b)) (full_batches size data)) = mean (map f (firstn (length data / size * size) data)) /\
  (length data mod size = 0%nat -> mean (map (fun b => mean (map f b)) (full_batches size data)) = mean (map f data)).
Proof.
  intros (HS & HL). destruct (C73_full_batches data size HS) as (C & L). assert (Q : (1 <= length data / size)%nat) by (apply Nat.div_le_lower_bound; lia).
  assert (M : mean (map (fun b => mean (map f b)) (full_batches size data)) = mean (map f (firstn (length data / size * size) data))).
  { unfold mean at 1. rewrite map_length, total_map, <- C. apply (mean_of_means f _ size HS); [|exact L]. unfold full_batches. destruct (length data / size)%nat; [lia|discriminate]. }
  split; [exact M|]. intros Z. rewrite M, firstn_all2; [reflexivity|]. pose proof (Nat.div_mod (length data) size ltac:(lia)). nia.
Qed.
Theorem C73_left_over_refuted : exists (data : list nat) (f : nat -> R), mean (map (fun b => mean (map f b)) (full_batches 2 data)) <> mean (map f data).
Proof. exists [0%nat; 0%nat; 1%nat], INR. unfold full_batches, batch, slice, mean. cbn. lra. Qed.
(** Padding makes the size a multiple of the batch size by less than one batch of zeros. *)
Theorem C73_padding {A} (zero : A) (data : list A) size : (0 < size)%nat ->
  exists k, (k < size)%nat /\ padded zero size data = data ++ repeat zero k /\ (length (padded zero size data) mod size = 0)%nat /\
    concat (full_batches size (padded zero size data)) = padded zero size data.
Proof.
  intros HS. pose proof (Nat.div_mod (length data) size ltac:(lia)) as E. pose proof (Nat.mod_upper_bound (length data) size ltac:(lia)) as B.
  assert (X : exists k, (k < size)%nat /\ padded zero size data = data ++ repeat zero k /\ (length (padded zero size data) mod size = 0)%nat).
  { unfold padded. set (r := (length data mod size)%nat) in *. destruct (Nat.ltb_spec (size - r) size) as [L|L].
    - exists (size - r)%nat. split; [exact L|]. split; [reflexivity|]. rewrite app_length, repeat_length, E. replace (size * (length data / size) + r + (size - r))%nat with ((length data / size + 1) * size)%nat by nia. apply Nat.mod_mul. lia.
    - exists 0%nat. split; [lia|]. split; [cbn; now rewrite app_nil_r|]. fold r. lia. }
  destruct X as (k & K1 & K2 & K3). exists k. split; [exact K1|]. split; [exact K2|]. split; [exact K3|].
  rewrite (proj1 (C73_full_batches _ size HS)). apply firstn_all2. pose proof (Nat.div_mod (length (padded zero size data)) size ltac:(lia)). nia.
Qed.
Print Assumptions C73_losses.
Print Assumptions C73_unequal_refuted.
Print Assumptions C73_first_none_refuted.
Print Assumptions C73_later_none.
Print Assumptions C73_all_batches.
Print Assumptions C73_full_batches.
Print Assumptions C73_reported_mean.
Print Assumptions C73_left_over_refuted.
Print Assumptions C73_padding.

(** Two variables, one of them unused, six examples on three devices. *)
Example C73_case : let grad := fun (v : bool) (d i : nat) => INR (d + i) in let x := [1; 2; 3; 4; 5; 6]%nat in
  average_gradients (map (tower (fun _ => 2%nat) grad (fun v => v) [false; true]) (map (tower_slice 3 x) (seq 0 3)))
  = Some [([21 / 6; 27 / 6], true)].
Proof.
  intros grad x. rewrite (C73_batch _ _ _ _ x 3 2) by (reflexivity || lia). unfold mean_gradient, mean, grad, x. cbn. repeat f_equal; lra.
Qed.
