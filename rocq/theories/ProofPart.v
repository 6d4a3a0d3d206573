(** Integrals and changes of variables that touch only some of the coordinates. *)
From Coq Require Import List Reals Lra Lia Permutation FunctionalExtensionality.
From Coquelicot Require Import Coquelicot.
From Verif Require Import SpecVolume ProofVolume ProofChange.
Import ListNotations.
Local Open Scope R_scope.

(** ** Two groups of coordinates *)
Section Groups.
Context {J A B : Type} (dec : forall i j : J, {i = j} + {i <> j}) (decA : forall i j : A, {i = j} + {i <> j}) (decB : forall i j : B, {i = j} + {i <> j}).
Context (L : list J) (LA : list A) (LB : list B) (a : A -> J) (b : B -> J).
Hypothesis a_inj : forall i j, a i = a j -> i = j.
Hypothesis b_inj : forall i j, b i = b j -> i = j.
Hypothesis apart : forall i j, a i <> b j.
Hypothesis LA_all : forall i, In i LA.
Hypothesis LB_all : forall i, In i LB.
Hypothesis groups : Permutation L (map a LA ++ map b LB).

Lemma cont_part {C K} (e : C -> K) (f : (C -> R) -> R) : cont f -> cont (fun x : K -> R => f (fun i => x (e i))).
Proof. intros H x eps E. destruct (H (fun i => x (e i)) eps E) as (d & D & Q). exists d. split; [exact D|]. intros y Y. apply Q. intros j. apply Y. Qed.
Lemma upd_part {C} (decC : forall i j : C, {i = j} + {i <> j}) (e : C -> J) : (forall i j, e i = e j -> i = j) ->
  forall x i t, (fun j => upd dec x (e i) t (e j)) = upd decC (fun j => x (e j)) i t.
Proof.
  intros Inj x i t. extensionality j. unfold upd. destruct (dec (e i) (e j)) as [E|E], (decC i j) as [E'|E']; try reflexivity.
  - destruct E'. now apply Inj.
  - subst j. now destruct E.
Qed.
Lemma cube_part {C} (decC : forall i j : C, {i = j} + {i <> j}) (e : C -> J) : (forall i j, e i = e j -> i = j) ->
  forall B l f x, cube_integral dec B (map e l) (fun x => f (fun i => x (e i))) x = cube_integral decC B l f (fun i => x (e i)).
Proof.
  intros Inj B0 l f. induction l as [|i l IH]; intros x; [reflexivity|]. cbn [map cube_integral]. apply RInt_ext. intros t _. rewrite IH.
  now rewrite (upd_part decC e Inj).
Qed.
Lemma cube_const_all {C} (decC : forall i j : C, {i = j} + {i <> j}) (l : list C) : (forall i, In i l) ->
  forall B0 f q, cube_integral decC B0 l f q = cube_integral decC B0 l f (fun _ => 0).
Proof.
  intros All B0 f q.
  assert (H : forall l' q', (forall i, ~ In i l' -> q' i = q i) -> cube_integral decC B0 l f q' = cube_integral decC B0 l f q).
  { induction l' as [|i l' IH]; intros q' E; [f_equal; extensionality i; apply E; intros []|].
    rewrite <- (cube_indep decC B0 l f q' i (q i) (All i)). apply IH.
    intros j Hj. destruct (decC i j) as [<-|N]; [now rewrite upd_same|]. rewrite upd_other by exact N. apply E. intros [Q|Q]; contradiction. }
  symmetry. apply (H l). intros i Hi. destruct (Hi (All i)).
Qed.
Lemma cube_groups B0 (f : (A -> R) -> R) (g : (B -> R) -> R) : 0 <= B0 -> cont f -> cont g ->
  cube_integral dec B0 L (fun x => f (fun i => x (a i)) * g (fun i => x (b i))) (fun _ => 0) =
  cube_integral decA B0 LA f (fun _ => 0) * cube_integral decB B0 LB g (fun _ => 0).
Proof.
  intros Hb Cf Cg.
  assert (C : cont (fun x : J -> R => f (fun i => x (a i)) * g (fun i => x (b i)))) by (apply cont_mult; now apply cont_part).
  rewrite (cube_perm dec B0 L _ _ groups Hb C), cube_app.
  assert (E : forall x, cube_integral dec B0 (map b LB) (fun x => f (fun i => x (a i)) * g (fun i => x (b i))) x =
    cube_integral decB B0 LB g (fun _ => 0) * f (fun i => x (a i))).
  { intros x. rewrite <- (cube_const_all decB LB LB_all B0 g (fun i => x (b i))), <- (cube_part decB b b_inj), Rmult_comm.
    rewrite <- (cube_scal dec B0 (map b LB) (fun x => g (fun i => x (b i))) (f (fun i => x (a i))) Hb (cont_part b g Cg)).
    apply cube_ext; [exact Hb|]. intros y _ Y. do 2 f_equal. extensionality i. apply Y. intros H. apply in_map_iff in H. destruct H as (k & D & _). exact (apart _ _ (eq_sym D)). }
  rewrite (cube_ext dec B0 (map a LA) _ _ Hb _ (fun y _ _ => E y)).
  rewrite cube_scal by (auto using cont_part). rewrite (cube_part decA a a_inj). apply Rmult_comm.
Qed.
Lemma total_groups (f : (A -> R) -> R) (g : (B -> R) -> R) v w : cont f -> cont g -> (forall q, 0 <= f q) -> (forall q, 0 <= g q) ->
  total decA LA f v -> total decB LB g w -> total dec L (fun x => f (fun i => x (a i)) * g (fun i => x (b i))) (v * w).
Proof.
  intros Cf Cg Pf Pg (Uf & Lf) (Ug & Lg).
  assert (Nf : forall B, 0 <= B -> 0 <= cube_integral decA B LA f (fun _ => 0)) by (intros; now apply cube_pos).
  assert (Ng : forall B, 0 <= B -> 0 <= cube_integral decB B LB g (fun _ => 0)) by (intros; now apply cube_pos).
  assert (V : 0 <= v) by (eapply Rle_trans; [apply (Nf 0); lra|apply Uf; exists 0; split; [lra|reflexivity]]).
  split.
  - intros m (B0 & Hb & ->). rewrite cube_groups by assumption. apply Rmult_le_compat; auto; [apply Uf|apply Ug]; eauto.
  - intros c Ub.
    assert (Q : forall B B', 0 <= B -> 0 <= B' -> cube_integral decA B LA f (fun _ => 0) * cube_integral decB B' LB g (fun _ => 0) <= c).
    { intros B0 B' Hb Hb'. assert (Hm : 0 <= Rmax B0 B') by (apply Rle_trans with B0; [exact Hb|apply Rmax_l]).
      apply Rle_trans with (cube_integral dec (Rmax B0 B') L (fun x => f (fun i => x (a i)) * g (fun i => x (b i))) (fun _ => 0)); [|apply Ub; eauto].
      rewrite cube_groups by assumption. apply Rmult_le_compat; auto; apply cube_grow; auto; [apply Rmax_l|apply Rmax_r]. }
    assert (Hb0 : 0 <= c) by (eapply Rle_trans; [|apply (Q 0 0); lra]; apply Rmult_le_pos; auto with real).
    assert (P : forall B', 0 <= B' -> v * cube_integral decB B' LB g (fun _ => 0) <= c).
    { intros B' Hb'. destruct (Ng B' Hb') as [N|N]; [|rewrite <- N; lra].
      apply Rmult_le_reg_r with (/ cube_integral decB B' LB g (fun _ => 0)); [now apply Rinv_0_lt_compat|].
      rewrite Rmult_assoc, Rinv_r, Rmult_1_r by lra. apply Lf. intros m (B0 & Hb & ->).
      apply Rmult_le_reg_r with (cube_integral decB B' LB g (fun _ => 0)); [exact N|]. rewrite (Rmult_assoc c), Rinv_l, Rmult_1_r by lra. auto. }
    destruct V as [V|V]; [|rewrite <- V; lra].
    apply Rmult_le_reg_l with (/ v); [now apply Rinv_0_lt_compat|]. rewrite <- Rmult_assoc, Rinv_l, Rmult_1_l by lra.
    apply Lg. intros m (B' & Hb' & ->). apply Rmult_le_reg_l with v; [exact V|]. rewrite <- Rmult_assoc, Rinv_r, Rmult_1_l by lra. auto.
Qed.
End Groups.

(** ** A change of variables in one group *)
Section Part.
Context {J A : Type} (dec : forall i j : J, {i = j} + {i <> j}) (decA : forall i j : A, {i = j} + {i <> j}).
Context (L : list J) (LA : list A) (rest : list J) (e : A -> J) (p : J -> option A).
Hypothesis L_once : NoDup L.
Hypothesis L_all : forall j, In j L.
Hypothesis LA_once : NoDup LA.
Hypothesis LA_all : forall j, In j LA.
Hypothesis pe : forall i, p (e i) = Some i.
Hypothesis ep : forall j i, p j = Some i -> j = e i.
Hypothesis rest_out : forall j, In j rest -> p j = None.
Hypothesis parts : Permutation L (rest ++ map e LA).

Definition paste (x : J -> R) (q : A -> R) : J -> R := fun j => match p j with Some i => q i | None => x j end.
Definition part (T : (A -> R) -> A -> R) (x : J -> R) : J -> R := paste x (T (fun i => x (e i))).

Lemma e_inj i j : e i = e j -> i = j.
Proof. intros E. pose proof (pe i) as H. rewrite E, pe in H. now injection H. Qed.
Lemma paste_same x : paste x (fun i => x (e i)) = x.
Proof. extensionality j. unfold paste. destruct (p j) as [i|] eqn:E; [|reflexivity]. now rewrite (ep _ _ E). Qed.
Lemma paste_in x q : (fun i => paste x q (e i)) = q.
Proof. extensionality i. unfold paste. now rewrite pe. Qed.
Lemma part_in T x : (fun i => part T x (e i)) = T (fun i => x (e i)).
Proof. apply paste_in. Qed.
Lemma part_comp T T' x : part T' (part T x) = part (fun q => T' (T q)) x.
Proof.
  unfold part at 1. rewrite part_in. extensionality j. unfold paste, part, paste. destruct (p j); reflexivity.
Qed.
Lemma cube_paste B0 l F : forall x, cube_integral dec B0 (map e l) F x = cube_integral decA B0 l (fun q => F (paste x q)) (fun i => x (e i)).
Proof.
  intros x. enough (H : forall y, (forall j, p j = None -> y j = x j) -> cube_integral dec B0 (map e l) F y = cube_integral decA B0 l (fun q => F (paste x q)) (fun i => y (e i))) by now apply H.
  induction l as [|i l IH]; intros y Y; cbn [map cube_integral].
  - f_equal. extensionality j. unfold paste. destruct (p j) as [i|] eqn:E; [now rewrite (ep _ _ E)|now apply Y].
  - apply RInt_ext. intros t _. rewrite IH.
    + now rewrite (upd_part dec decA e e_inj).
    + intros j Hj. rewrite upd_other; [now apply Y|]. intros <-. rewrite pe in Hj. discriminate.
Qed.
Lemma cont_paste x F : cont F -> cont (fun q => F (paste x q)).
Proof.
  intros C q eps E. destruct (C (paste x q) eps E) as (d & D & H). exists d. split; [exact D|]. intros q' Q. apply H.
  intros j. unfold paste. destruct (p j); [apply Q|]. rewrite Rminus_eq_0, Rabs_R0. exact D.
Qed.

Lemma moves_part T w : moves decA LA T w -> moves dec L (part T) (fun x => w (fun i => x (e i))).
Proof.
  intros M. pose proof M as (CT & Cw & Wp & Ch).
  assert (CT' : forall j, cont (fun x => part T x j)).
  { intros j. unfold part, paste. destruct (p j) as [i|]; [|apply cont_coord]. apply (cont_part e (fun q => T q i)), CT. }
  split; [exact CT'|]. split; [now apply (cont_part e)|]. split; [intros x; apply Wp|].
  intros F (CF & B & Hb & S).
  assert (C' : cont (fun x => w (fun i => x (e i)) * F (part T x))).
  { apply cont_mult; [now apply (cont_part e)|]. now apply (cont_comp L L_all F (part T)). }
  destruct (cutoff LA B Hb) as (chi & Cc & _ & One).
  destruct (Ch chi Cc) as ((_ & B1 & Hb1 & S1) & _). set (B' := Rmax B B1).
  assert (Hb' : 0 <= B') by (apply Rle_trans with B; [exact Hb|apply Rmax_l]).
  assert (S' : supported B' L (fun x => w (fun i => x (e i)) * F (part T x))).
  { intros x (j & _ & Hj). destruct (p j) as [i|] eqn:E.
    - assert (Z : w (fun i => x (e i)) * chi (T (fun i => x (e i))) = 0).
      { apply S1. exists i. split; [apply LA_all|]. rewrite (ep _ _ E) in Hj. eapply Rle_trans; [apply Rmax_r|exact Hj]. }
      assert (Z' : chi (T (fun i => x (e i))) = 0).
      { apply Rmult_integral in Z. destruct Z as [Z|Z]; [|exact Z]. specialize (Wp (fun i => x (e i))). rewrite Z in Wp. lra. }
      assert (Out : exists k, B <= Rabs (T (fun i => x (e i)) k)).
      { assert (D : forall l, (exists k, In k l /\ B <= Rabs (T (fun i => x (e i)) k)) \/ (forall k, In k l -> Rabs (T (fun i => x (e i)) k) <= B)).
        { induction l as [|k l [(k' & Hk & H)|H]]; [right; intros k []|left; exists k'; split; [now right|exact H]|].
          destruct (Rle_dec B (Rabs (T (fun i => x (e i)) k))) as [Y|N]; [left; exists k; split; [now left|exact Y]|].
          right. intros k' [<-|Hk']; [lra|now apply H]. }
        destruct (D LA) as [(k & _ & H)|H]; [eauto|]. exfalso. rewrite One in Z'; [lra|]. intros k. apply H, LA_all. }
      destruct Out as (k & Hk). rewrite S; [ring|]. exists (e k). split; [apply L_all|].
      change (part T x (e k)) with ((fun i => part T x (e i)) k). now rewrite part_in.
    - rewrite S; [ring|]. exists j. split; [apply L_all|]. unfold part, paste. rewrite E. eapply Rle_trans; [apply Rmax_l|exact Hj]. }
  split; [split; [exact C'|exists B'; split; assumption]|]. intros v V. exists B'. split; [exact Hb'|]. split; [exact S'|].
  rewrite (vol_at dec L L_once F v B' CF V Hb' (supported_grow B B' L F (Rmax_l _ _) S)).
  rewrite (cube_perm dec B' L _ F parts Hb' CF), (cube_perm dec B' L _ _ parts Hb' C'), !cube_app.
  apply cube_ext; [exact Hb'|]. intros x _ _. rewrite !cube_paste, !(cube_const_all decA LA LA_all B' _ (fun i => x (e i))).
  set (Fx := fun q => F (paste x q)).
  assert (CFx : cc LA Fx).
  { split; [now apply cont_paste|]. exists B. split; [exact Hb|]. intros q (i & _ & Hi). apply S. exists (e i). split; [apply L_all|].
    change (paste x q (e i)) with ((fun i => paste x q (e i)) i). now rewrite paste_in. }
  destruct (Ch Fx CFx) as (_ & Vx). destruct (vol_ex decA LA Fx CFx) as (vx & Hvx). pose proof (Vx vx Hvx) as Hvx'.
  transitivity vx; [symmetry; apply (vol_at decA LA LA_once Fx vx B'); [apply CFx|exact Hvx|exact Hb'|]|].
  - intros q (i & _ & Hi). apply S. exists (e i). split; [apply L_all|].
    change (paste x q (e i)) with ((fun i => paste x q (e i)) i). rewrite paste_in. eapply Rle_trans; [apply Rmax_l|exact Hi].
  - assert (E : forall q, w (fun i => paste x q (e i)) * F (part T (paste x q)) = w q * Fx (T q)).
    { intros q. unfold part. rewrite paste_in. f_equal. unfold Fx. f_equal. extensionality j. unfold paste. destruct (p j); reflexivity. }
    replace (fun q => w (fun i => paste x q (e i)) * F (part T (paste x q))) with (fun q => w q * Fx (T q)) by (extensionality q; now rewrite E).
    apply (vol_at decA LA LA_once _ vx B'); [|exact Hvx'|exact Hb'|].
    + apply cont_mult; [exact Cw|]. apply (cont_comp LA LA_all Fx T); [apply CFx|exact CT].
    + intros q (i & _ & Hi). rewrite <- E. apply S'. exists (e i). split; [apply L_all|].
      change (paste x q (e i)) with ((fun i => paste x q (e i)) i). now rewrite paste_in.
Qed.
End Part.

(** ** A step that is balanced *)
Section Step.
Context {J : Type} (dec : forall i j : J, {i = j} + {i <> j}) (L : list J).
Hypothesis L_once : NoDup L.
Hypothesis L_all : forall j, In j L.
Lemma total_step (D rate f : (J -> R) -> R) (P : (J -> R) -> J -> R) v :
  cont D -> cont rate -> cont f -> (forall x, 0 <= D x) -> (forall x, 0 <= rate x <= 1) -> (forall x, 0 <= f x) ->
  moves dec L P (fun _ => 1) -> (forall x, P (P x) = x) -> (forall x, D (P x) * rate (P x) = D x * rate x) ->
  total dec L (fun x => D x * f x) v -> total dec L (fun x => D x * (rate x * f (P x) + (1 - rate x) * f x)) v.
Proof.
  intros CD Ca Cf PD Ra Pf MP PP Bal V.
  set (F := fun x => D x * f x) in *. set (G := fun x => rate x * F x).
  assert (CF : cont F) by now apply cont_mult.
  assert (CG : cont G) by now apply cont_mult.
  assert (PF : forall x, 0 <= F x) by (intros x; now apply Rmult_le_pos).
  assert (PG : forall x, 0 <= G x <= F x).
  { intros x. unfold G. specialize (Ra x). specialize (PF x). nra. }
  destruct (total_dominated dec L F G v CF CG PG V) as (w & W).
  assert (W' : total dec L (fun x => 1 * G (P x)) w).
  { apply (total_moves dec L L_once L_all P (fun _ => 1) P (fun _ => 1)); auto; [intros; ring|]. intros x; apply PG. }
  apply (total_ext dec L (fun x => (F x - G x) + 1 * G (P x))).
  - intros x. unfold G, F. replace (rate (P x) * (D (P x) * f (P x))) with (D (P x) * rate (P x) * f (P x)) by ring. rewrite Bal. ring.
  - replace v with (v - w + w) by ring. apply total_plus; auto.
    + now apply cont_minus.
    + apply cont_mult; [apply cont_const|]. apply (cont_comp L L_all G P); [exact CG|apply MP].
    + intros x. specialize (PG x). lra.
    + intros x. specialize (PG (P x)). lra.
    + apply total_minus; auto.
Qed.
End Step.
