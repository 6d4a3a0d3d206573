(** C39, C40: flows on tensors of rows, and rejected arguments. *)
From Coq Require Import Reals List Arith Bool Lia.
From Verif Require Import ModelShape SpecShape ModelTensor ProofTensor ModelDist ModelFlow.
From Verif Require PropFlow.
Import ListNotations.
Local Open Scope R_scope.

(** Rejected: n_iters not an int, samples of rank below 2, log_probs not of the shape
    of samples without its last axis. *)
Lemma check_shapes_iff s l : check_shapes s l = true <-> (2 <= length s)%nat /\ l = removelast s.
Proof.
  unfold check_shapes. rewrite !andb_true_iff, Nat.leb_le, Nat.eqb_eq.
  destruct (list_eq_dec Nat.eq_dec (removelast s) l) as [E|E].
  - split; [intros [[H _] _]; easy|]. intros [H ->]. repeat split; auto.
    destruct s as [|a s] using rev_ind; [cbn in H; lia|]. rewrite removelast_last, app_length. cbn. lia.
  - split; [intros [_ H]; easy|]. intros [_ H]. now symmetry in H.
Qed.
Theorem C39_rejects is_int ps samples log_probs r :
  planar_normalizing_flow is_int ps samples log_probs = Some r ->
  is_int = true /\ (2 <= length (t_shape samples))%nat /\ t_shape log_probs = removelast (t_shape samples).
Proof.
  unfold planar_normalizing_flow. destruct is_int; [|easy]. cbn [negb].
  destruct (check_shapes _ _) eqn:C; [|easy]. intros _. apply check_shapes_iff in C. tauto.
Qed.
Print Assumptions C39_rejects.
Theorem C40_rejects is_int u nn n samples log_probs :
  (exists r, inv_autoregressive_flow is_int u nn n samples log_probs = Some r) <->
  is_int = true /\ (2 <= length (t_shape samples))%nat /\ t_shape log_probs = removelast (t_shape samples).
Proof.
  unfold inv_autoregressive_flow. rewrite <- check_shapes_iff.
  destruct is_int, (check_shapes _ _); cbn; split; try (intros [r H]; discriminate H); try easy.
  intros _. eexists. reflexivity.
Qed.
Print Assumptions C40_rejects.

(** planar_normalizing_flow applies the row computation to every row, whatever the number
    of leading axes. *)
Theorem C39_batch ps samples log_probs batch d :
  t_shape samples = batch ++ [d] -> t_shape log_probs = batch -> batch <> [] -> (0 < d)%nat ->
  Forall (PropFlow.planar_ok d) ps ->
  exists z' l', planar_normalizing_flow true ps samples log_probs = Some (z', l') /\
    t_shape z' = batch ++ [d] /\ t_shape l' = batch /\
    forall i, valid batch i -> exists r,
      planar_row ps (row samples i, t_at log_probs i) = Some (r, t_at l' i) /\
      row z' i = r.
Proof.
  intros S L B Hd Ok. destruct (PropFlow.C39_flow d ps Ok) as [F [ld [[[LF _] _] Run]]].
  unfold planar_normalizing_flow. cbn [negb].
  replace (check_shapes _ _) with true.
  2:{ symmetry. apply check_shapes_iff. rewrite S, L, removelast_last, app_length. split; [|easy].
      destruct batch; [easy|cbn; lia]. }
  cbn [negb]. rewrite S, last_last, removelast_last.
  unfold reshape_flat. rewrite reshape_ok by (rewrite L; cbn; lia). cbn [obind].
  destruct (logits_flat_ok false samples batch d S Hd) as [z [Ez [Sz Rz]]]; [easy|].
  unfold logits_flat in Ez. rewrite S, last_last in Ez. rewrite Ez. cbn [obind].
  unfold on_rows. rewrite Sz. cbn [t_shape]. rewrite L.
  set (lt := Tensor [size batch] (fun i => t_at log_probs (unravel batch (ravel [size batch] i)))).
  assert (Rl : forall r, length (row z [r]) = d).
  { intros r. unfold row. rewrite Sz, map_length, seq_length. reflexivity. }
  replace (forallb _ _) with true.
  2:{ symmetry. apply forallb_forall. intros r _. now rewrite Run. }
  cbn [obind fst snd].
  rewrite reshape_ok by (cbn [t_shape]; rewrite size_snoc; cbn; lia). cbn [obind].
  rewrite reshape_ok by (cbn; lia). cbn [obind].
  do 2 eexists. split; [reflexivity|]. cbn [t_shape t_at]. do 2 (split; [reflexivity|]).
  intros i V. exists (F (row samples i)).
  assert (Li : length i = length batch) by apply V.
  assert (Rs : length (row samples i) = d) by (unfold row; now rewrite S, last_last, map_length, seq_length).
  assert (U : unravel [size batch] (ravel batch i) = [ravel batch i]).
  { change (unravel [size batch] (ravel batch i)) with [(ravel batch i / 1)%nat]. now rewrite Nat.div_1_r. }
  rewrite U, Rz by easy.
  assert (El : t_at lt [ravel batch i] = t_at log_probs i).
  { cbn. rewrite Nat.mul_1_r, Nat.add_0_r. now rewrite unravel_ravel. }
  rewrite El, !Run by easy. cbn [fst snd]. split; [reflexivity|].
  unfold row at 1. cbn [t_shape t_at]. rewrite last_last.
  apply (nth_ext _ _ 0 0); [rewrite map_length, seq_length; symmetry; now apply LF|].
  rewrite map_length, seq_length. intros k Hk.
  rewrite (nth_indep _ 0 (t_at (Tensor [] (fun _ => 0)) [])) by now rewrite map_length, seq_length.
  erewrite nth_indep by now rewrite map_length, seq_length.
  rewrite map_nth, seq_nth by easy. cbn [Nat.add].
  rewrite ravel_snoc by easy. rewrite unravel2 by easy. cbn [removelast last].
  rewrite Rz by easy. now rewrite El, Run by easy.
  Unshelve. exact 0%nat.
Qed.
Print Assumptions C39_batch.

(** inv_autoregressive_flow likewise. *)
Theorem C40_batch u nn n samples log_probs batch d :
  t_shape samples = batch ++ [d] -> t_shape log_probs = batch -> batch <> [] ->
  u <> OtherName -> (forall k, PropFlow.network_ok d u (nn k)) ->
  exists z' l', inv_autoregressive_flow true u nn n samples log_probs = Some (z', l') /\
    t_shape z' = batch ++ [d] /\ t_shape l' = batch /\
    forall i, valid batch i -> iaf_row u nn 0 n (row samples i, t_at log_probs i) = (row z' i, t_at l' i).
Proof.
  intros S L B Nu Ok. destruct (PropFlow.C40_flow d u nn n 0 Nu Ok) as [F [ld [[[LF _] _] Run]]].
  unfold inv_autoregressive_flow. cbn [negb].
  replace (check_shapes _ _) with true.
  2:{ symmetry. apply check_shapes_iff. rewrite S, L, removelast_last, app_length. split; [|easy].
      destruct batch; [easy|cbn; lia]. }
  cbn [negb]. rewrite S, L. do 2 eexists. split; [reflexivity|]. do 2 (split; [reflexivity|]).
  intros i V. cbn [t_at].
  assert (Rs : length (row samples i) = d) by (unfold row; now rewrite S, last_last, map_length, seq_length).
  rewrite !Run by easy. cbn [fst snd]. f_equal.
  unfold row at 2. cbn [t_shape t_at]. rewrite last_last.
  apply (nth_ext _ _ 0 0); [rewrite map_length, seq_length; now apply LF|].
  rewrite LF by easy. intros k Hk.
  erewrite (nth_indep (map _ _)) by now rewrite map_length, seq_length.
  rewrite map_nth, seq_nth by easy. cbn [Nat.add].
  rewrite removelast_last, last_last. now rewrite Run by easy.
  Unshelve. exact 0%nat.
Qed.
Print Assumptions C40_batch.

Example C40_batch_case : exists z' l',
  inv_autoregressive_flow true Gru (fun k => linear_ar 2 (fun _ _ => 1) (fun _ _ => 2)) 3
    (Tensor [4; 5; 2]%nat (fun i => INR (last i 0%nat))) (Tensor [4; 5]%nat (fun _ => 0)) = Some (z', l') /\
  t_shape z' = [4; 5; 2]%nat.
Proof.
  destruct (C40_batch Gru (fun k => linear_ar 2 (fun _ _ => 1) (fun _ _ => 2)) 3
    (Tensor [4; 5; 2]%nat (fun i => INR (last i 0%nat))) (Tensor [4; 5]%nat (fun _ => 0)) [4; 5]%nat 2)
    as [z' [l' [E [S _]]]]; try easy; [|now exists z', l'].
  intros k. now apply PropFlow.C40_linear_admissible.
Qed.
