(** Lists cut into pieces, and zip. *)
From Coq Require Import List Reals Arith Bool Lra Lia.
From Verif Require Import SpecDist SpecVI ModelExamples SpecExamples ProofDiscrete.
Import ListNotations.
Local Open Scope R_scope.

Lemma slice_length {A} a b (l : list A) : length (slice a b l) = Nat.min (b - a) (length l - a).
Proof. unfold slice. now rewrite firstn_length, skipn_length. Qed.
Lemma firstn_slice {A} a b (l : list A) : (a <= b)%nat -> firstn a l ++ slice a b l = firstn b l.
Proof.
  unfold slice. revert b l. induction a as [|a IH]; intros b l H; [cbn [firstn skipn app]; now rewrite Nat.sub_0_r|].
  destruct b as [|b]; [lia|]. destruct l as [|x l]; [now rewrite skipn_nil, !firstn_nil|]. cbn [firstn skipn app Nat.sub]. f_equal. apply IH. lia.
Qed.
(** Pieces between increasing cuts. *)
Lemma pieces {A} (c : nat -> nat) (l : list A) n : c 0%nat = 0%nat -> (forall i, (i < n)%nat -> (c i <= c (i + 1))%nat) ->
  concat (map (fun i => slice (c i) (c (i + 1)%nat) l) (seq 0 n)) = firstn (c n) l.
Proof.
  intros C0 M. induction n as [|n IH]; [cbn; now rewrite C0|]. rewrite seq_S, map_app, concat_app. cbn [map concat]. rewrite app_nil_r, Nat.add_0_l, IH by (intros; apply M; lia).
  rewrite firstn_slice by (apply M; lia). now rewrite Nat.add_1_r.
Qed.
Lemma div_mono_mult i N G : (i * N / G <= (i + 1) * N / G)%nat.
Proof. destruct G as [|G]; [cbn; lia|]. apply Nat.div_le_mono; lia. Qed.
Lemma zip_cons_map {A B} (f : B -> A) (g : B -> list A) l : zip_cons (map f l) (map g l) = map (fun b => f b :: g b) l.
Proof. induction l as [|b l IH]; [reflexivity|]. cbn. now rewrite IH. Qed.
Lemma zip_star_map {A B C} (f : C -> B -> A) (cs : list C) (l : list B) : cs <> [] -> zip_star (map (fun c => map (f c) l) cs) = map (fun b => map (fun c => f c b) cs) l.
Proof.
  induction cs as [|c cs IH]; intros N; [congruence|]. destruct cs as [|c' cs]; [cbn; rewrite map_map; reflexivity|].
  rewrite map_cons. change (zip_star (map (f c) l :: map (fun c0 => map (f c0) l) (c' :: cs))) with (zip_cons (map (f c) l) (zip_star (map (fun c0 => map (f c0) l) (c' :: cs)))).
  rewrite IH by discriminate. apply (zip_cons_map (f c)).
Qed.
Lemma all_present_map {A B} (f : B -> A) l : all_present (map (fun b => Some (f b)) l) = Some (map f l).
Proof. induction l as [|b l IH]; [reflexivity|]. cbn. now rewrite IH. Qed.
Lemma total_concat {A} (f : A -> R) ls : total f (concat ls) = total (total f) ls.
Proof. induction ls as [|l ls IH]; [reflexivity|]. cbn. now rewrite total_app, IH. Qed.
Lemma concat_length {A} (ls : list (list A)) b : (forall l, In l ls -> length l = b) -> length (concat ls) = (length ls * b)%nat.
Proof. induction ls as [|l ls IH]; intros H; [reflexivity|]. cbn. rewrite app_length, IH by (intros; apply H; now right). rewrite (H l) by now left. reflexivity. Qed.
(** The mean of the means of parts of equal size. *)
Lemma mean_of_means {A} (f : A -> R) (ls : list (list A)) b : (0 < b)%nat -> ls <> [] -> (forall l, In l ls -> length l = b) ->
  total (fun l => mean (map f l)) ls / INR (length ls) = mean (map f (concat ls)).
Proof.
  intros B N H. unfold mean at 2. rewrite map_length, total_map, total_concat, (concat_length ls b H), mult_INR. change (fun x : A => f x) with f.
  assert (PB : 0 < INR b) by now apply lt_0_INR. assert (PL : 0 < INR (length ls)) by (apply lt_0_INR; destruct ls; [congruence|cbn; lia]).
  rewrite (total_ext _ (fun l => / INR b * total f l)).
  - rewrite total_scal. field. lra.
  - intros l Hl. unfold mean. rewrite map_length, total_map, (H l Hl). unfold Rdiv. apply Rmult_comm.
Qed.
