(** Means over independent draws from a continuous law. *)
From Coq Require Import List Arith Reals Lra Lia Permutation FunctionalExtensionality.
From Coquelicot Require Import Coquelicot.
From Verif Require Import SpecDist SpecVI SpecVolume SpecRun SpecExpect ProofVolume ProofChange ProofBimove ProofPart ProofRun ProofRatio ProofExpect.
Import ListNotations.
Local Open Scope R_scope.
Notation sum_over := SpecDist.total.

Section Samples.
Context {I : Type} (dec : forall i j : I, {i = j} + {i <> j}) (L : list I).
Hypothesis L_once : NoDup L.
Hypothesis L_all : forall i, In i L.
Notation vdec := (vectors_dec dec).
Notation coords := (all_of L).
Notation point := (I -> R).

Lemma coords_once K : NoDup (coords K).
Proof. induction K as [|K IH]; [constructor|]. now apply sum_once. Qed.
Lemma coords_all K j : In j (coords K).
Proof. revert j. induction K as [|K IH]; [intros []|]. now apply sum_all. Qed.
Lemma as_list_length K (y : vectors (I := I) K -> R) : length (as_list K y) = K.
Proof. revert y. induction K as [|K IH]; intros y; [reflexivity|]. cbn [as_list length]. now rewrite IH. Qed.

Variable q : point -> R.
Hypothesis q_density : probability_density dec L q.
Notation mean1 := (mean_over_sample dec L q).
Notation means := (mean_over_samples dec L q).
Notation rho := (fun K (y : vectors K -> R) => sample_density q (as_list K y)).

Lemma rho_pos K y : 0 < rho K y.
Proof.
  revert y. induction K as [|K IH]; intros y; [exact Rlt_0_1|]. cbn [as_list]. unfold sample_density. cbn [map fold_right].
  apply Rmult_lt_0_compat; [apply q_density|apply IH].
Qed.
Lemma rho_total K : has_integral (vdec K) (coords K) (rho K) 1.
Proof.
  destruct q_density as (Pq & Cq & Pq' & Tq). induction K as [|K (C & P & T)].
  - split; [|split].
    + apply (cont_ext (fun _ => 1)); [reflexivity|]. exact (cont_const 1).
    + intros y. apply Rle_0_1.
    + split; [intros m (B & _ & ->); apply Rle_refl|]. intros b Hb. apply Hb. exists 0. split; [lra|reflexivity].
  - split; [|split].
    + apply (cont_mult (fun y : vectors (S K) -> R => q (fun i => y (inl i))) (fun y => rho K (fun j => y (inr j)))).
      * apply (cont_part inl q Cq).
      * apply (cont_part inr (rho K) C).
    + intros y. apply Rlt_le, rho_pos.
    + replace 1 with (1 * 1) by ring.
      apply (total_groups (vdec (S K)) dec (vdec K) (coords (S K)) L (coords K) inl inr) with (f := q) (g := rho K); auto.
      * intros i j E. now injection E. * intros i j E. now injection E. * intros i j E. discriminate. * apply coords_all.
Qed.

Lemma means_ext K f g v : (forall zs, length zs = K -> f zs = g zs) -> means K f v -> means K g v.
Proof.
  intros E. unfold mean_over_samples. apply integral_ext. intros y. rewrite E; [reflexivity|apply as_list_length].
Qed.
Lemma mean1_ext f g v : (forall z, f z = g z) -> mean1 f v -> mean1 g v.
Proof. intros E. apply integral_ext. intros z. now rewrite E. Qed.
Lemma means_unique K f v w : means K f v -> means K f w -> v = w.
Proof. apply integral_unique. Qed.
Lemma means_plus K f g v w : means K f v -> means K g w -> means K (fun zs => f zs + g zs) (v + w).
Proof. intros A B. eapply integral_ext; [|exact (integral_plus _ _ _ _ _ _ A B)]. intros y. cbv beta. ring. Qed.
Lemma means_scal K f c v : means K f v -> means K (fun zs => c * f zs) (c * v).
Proof. intros A. eapply integral_ext; [|exact (integral_scal _ _ _ c _ A)]. intros y. cbv beta. ring. Qed.
Lemma means_const K c : means K (fun _ => c) c.
Proof.
  pose proof (integral_scal _ _ _ c _ (integral_of_total _ _ _ _ (rho_total K))) as H. rewrite Rmult_1_r in H.
  eapply integral_ext; [|exact H]. intros y. cbv beta. ring.
Qed.
Lemma means_le K f g v w : (forall zs, length zs = K -> f zs <= g zs) -> means K f v -> means K g w -> v <= w.
Proof.
  intros H. apply integral_le. intros y. apply Rmult_le_compat_l; [apply Rlt_le, rho_pos|]. apply H, as_list_length.
Qed.
Lemma means_dominated K f g w : cont (fun y => f (as_list K y)) -> (forall zs, length zs = K -> Rabs (f zs) <= g zs) -> means K g w -> exists v, means K f v.
Proof.
  intros C H G. apply (integral_dominated _ _ _ (fun y => rho K y * g (as_list K y)) w); [|intros y|exact G].
  - apply cont_mult; [apply (rho_total K)|exact C].
  - rewrite Rabs_mult, Rabs_pos_eq by apply Rlt_le, rho_pos. apply Rmult_le_compat_l; [apply Rlt_le, rho_pos|]. apply H, as_list_length.
Qed.

Lemma means_head K f F v : (forall z zs, F (z :: zs) = f z) -> mean1 f v -> means (S K) F v.
Proof.
  intros E H. replace v with (v * 1) by ring.
  pose proof (integral_groups (vdec (S K)) dec (vdec K) (coords (S K)) L (coords K) inl inr
     ltac:(intros i j X; now injection X) ltac:(intros i j X; now injection X) ltac:(discriminate) (coords_all K) ltac:(reflexivity)
     (fun z => q z * f z) (rho K) v 1 H (rho_total K)) as G.
  eapply integral_ext; [|exact G]. intros y. cbn [as_list]. rewrite E. unfold sample_density. cbn [map fold_right]. ring.
Qed.
Lemma means_tail K f F v : (forall z zs, F (z :: zs) = f zs) -> means K f v -> means (S K) F v.
Proof.
  intros E H. replace v with (v * 1) by ring.
  pose proof (integral_groups (vdec (S K)) (vdec K) dec (coords (S K)) (coords K) L inr inl
     ltac:(intros i j X; now injection X) ltac:(intros i j X; now injection X) ltac:(discriminate) L_all
     ltac:(cbn [all_of]; apply Permutation_app_comm) _ q v 1 H ltac:(apply q_density)) as G.
  eapply integral_ext; [|exact G]. intros y. cbn [as_list]. rewrite E. unfold sample_density. cbn [map fold_right]. ring.
Qed.
Lemma means_nth K f v j d : (j < K)%nat -> mean1 f v -> means K (fun zs => f (nth j zs d)) v.
Proof.
  revert j. induction K as [|K IH]; intros j Hj H; [lia|]. destruct j as [|j].
  - now apply (means_head K f).
  - apply (means_tail K (fun zs => f (nth j zs d))); [reflexivity|]. apply IH; [lia|exact H].
Qed.
Lemma means_sum K f v : mean1 f v -> means K (sum_over f) (INR K * v).
Proof.
  intros H. induction K as [|K IH].
  - replace (INR 0 * v) with 0 by (cbn; ring). apply (means_ext 0 (fun _ => 0)); [|apply means_const]. intros [|z zs] E; [reflexivity|discriminate].
  - replace (INR (S K) * v) with (v + INR K * v) by (rewrite S_INR; ring).
    apply (means_ext (S K) (fun zs => match zs with z :: _ => f z | [] => 0 end + match zs with _ :: zs' => sum_over f zs' | [] => 0 end)).
    + intros [|z zs] E; [discriminate|reflexivity].
    + apply means_plus.
      * now apply (means_head K f).
      * now apply (means_tail K (sum_over f)).
Qed.
Lemma means_sum_family {A} K (js : list A) (f : A -> list point -> R) (v : A -> R) : (forall j, In j js -> means K (f j) (v j)) ->
  means K (fun zs => sum_over (fun j => f j zs) js) (sum_over v js).
Proof.
  induction js as [|j js IH]; intros H; [apply (means_const K 0)|]. cbn [SpecDist.total].
  apply (means_plus K (f j) (fun zs => sum_over (fun j => f j zs) js)); [apply H; now left|]. apply IH. intros i Hi. apply H. now right.
Qed.
Lemma cont_list_sum K (f : point -> R) : cont f -> cont (fun y => sum_over f (as_list K y)).
Proof.
  intros C. induction K as [|K IH]; [exact (cont_const 0)|]. cbn [as_list SpecDist.total].
  apply (cont_plus (fun y : vectors (S K) -> R => f (fun i => y (inl i))) (fun y => sum_over f (as_list K (fun j => y (inr j))))).
  - apply (cont_part inl f C).
  - apply (cont_part inr (fun y => sum_over f (as_list K y)) IH).
Qed.

(** The draws are exchangeable. *)
Definition realizes (K : nat) (s t : vectors (I := I) K -> vectors K) (sigma : list point -> list point) : Prop :=
  (forall j, s (t j) = j) /\ (forall j, t (s j) = j) /\ forall y, as_list K (fun j => y (s j)) = sigma (as_list K y).
Lemma means_rename K s t sigma f v : realizes K s t sigma -> (forall zs, Permutation zs (sigma zs)) ->
  means K f v -> means K (fun zs => f (sigma zs)) v.
Proof.
  intros (st & ts & E) Pm H.
  pose proof (integral_rename (vdec K) (coords K) s t _ v (coords_once K) (coords_all K) st ts H) as G.
  eapply integral_ext; [|exact G]. intros y. cbv beta. rewrite E. f_equal. unfold sample_density.
  generalize (Pm (as_list K y)). generalize (as_list K y) (sigma (as_list K y)). intros l l' P. clear - P.
  induction P; cbn; [reflexivity|now rewrite IHP|ring|congruence].
Qed.
(** Move the [j]-th draw to the front. *)
Fixpoint to_front (j : nat) (zs : list point) : list point :=
  match j, zs with
  | S j', z :: zs' => match to_front j' zs' with w :: ws => w :: z :: ws | [] => z :: zs' end
  | _, _ => zs
  end.
Lemma to_front_perm j : forall zs, Permutation zs (to_front j zs).
Proof.
  induction j as [|j IH]; intros [|z zs]; cbn [to_front]; try apply Permutation_refl.
  specialize (IH zs). destruct (to_front j zs) as [|w ws] eqn:E.
  - apply Permutation_refl.
  - apply perm_trans with (z :: w :: ws); [now apply perm_skip|apply perm_swap].
Qed.
Lemma to_front_tail j d : forall zs, (j < length zs)%nat -> to_front j zs = nth j zs d :: remove_nth j zs.
Proof.
  induction j as [|j IH]; intros [|z zs] H; cbn in H; try lia; [reflexivity|].
  cbn [to_front]. rewrite IH by lia. reflexivity.
Qed.
Lemma realize_front j : forall K, (j < K)%nat -> exists s t, realizes K s t (to_front j).
Proof.
  induction j as [|j IH]; intros K H.
  - exists (fun x => x), (fun x => x). split; [reflexivity|]. split; [reflexivity|]. intros y. now destruct (as_list K y).
  - destruct K as [|K]; [lia|]. destruct (IH K ltac:(lia)) as (s & t & st & ts & E).
    destruct K as [|K]; [lia|].
    pose (lift := fun (u : vectors (I := I) (S K) -> vectors (S K)) (x : vectors (I := I) (S (S K))) => match x with inl i => inl i | inr x' => inr (u x') end : vectors (S (S K))).
    pose (swap := fun x : vectors (I := I) (S (S K)) => match x with inl i => inr (inl i) | inr (inl i) => inl i | inr (inr x') => inr (inr x') end : vectors (S (S K))).
    exists (fun x => lift s (swap x)), (fun x => swap (lift t x)).
    split; [|split].
    + intros [i|x]; cbn.
      * reflexivity.
      * unfold lift, swap. pose proof (st x) as Sx. destruct (t x) as [i|x']; exact (f_equal inr Sx).
    + intros [i|[i|x]]; unfold lift, swap; [now rewrite ts|reflexivity|now rewrite ts].
    + intros y. specialize (E (fun x => y (inr x))). cbn [as_list] in E |- *. cbn [to_front].
      rewrite <- E. unfold lift, swap. reflexivity.
Qed.
Lemma means_remove K f v j : (j < S K)%nat -> means K f v -> means (S K) (fun zs => f (remove_nth j zs)) v.
Proof.
  intros Hj H. destruct (realize_front j (S K) Hj) as (s & t & Re).
  apply (means_ext (S K) (fun zs => (fun l => f (tl l)) (to_front j zs))).
  - intros zs E. rewrite (to_front_tail j (fun _ => 0)) by lia. reflexivity.
  - apply (means_rename (S K) s t (to_front j) (fun l => f (tl l)) v Re (to_front_perm j)). now apply (means_tail K f).
Qed.
(** A function of one draw and a function of the others are independent. *)
Lemma means_product K f g F v w : (forall z zs, F (z :: zs) = f z * g zs) -> mean1 f v -> means K g w -> means (S K) F (v * w).
Proof.
  intros E H H'.
  pose proof (integral_groups_signed (vdec (S K)) dec (vdec K) (coords (S K)) L (coords K) inl inr
     ltac:(intros i j X; now injection X) ltac:(intros i j X; now injection X) ltac:(discriminate) (coords_all K) ltac:(reflexivity)
     (fun z => q z * f z) (fun y => rho K y * g (as_list K y)) v w H H') as G.
  eapply integral_ext; [|exact G]. intros y. cbn [as_list]. rewrite E. unfold sample_density. cbn [map fold_right]. ring.
Qed.
Lemma means_indep K f g v w j d : (j < S K)%nat -> mean1 f v -> means K g w -> means (S K) (fun zs => f (nth j zs d) * g (remove_nth j zs)) (v * w).
Proof.
  intros Hj H H'. destruct (realize_front j (S K) Hj) as (s & t & Re).
  apply (means_ext (S K) (fun zs => (fun l => f (nth 0 l d) * g (tl l)) (to_front j zs))).
  - intros zs E. rewrite (to_front_tail j d) by lia. reflexivity.
  - apply (means_rename (S K) s t (to_front j) (fun l => f (nth 0 l d) * g (tl l)) (v * w) Re (to_front_perm j)). now apply (means_product K f g).
Qed.
End Samples.
