(** The layers of the normalizing flows as invertible changes of variables. *)
From Coq Require Import List Reals Lra Lia Permutation FunctionalExtensionality.
From Coquelicot Require Import Coquelicot.
From Verif Require Import ModelShape ModelTensor ModelDist ModelFlow.
From Verif Require SpecFlow ProofFlow.
From Verif Require Import SpecVolume ProofVolume ProofChange ProofBimove SpecFlowDensity.
Import ListNotations.
Local Open Scope R_scope.

Lemma no_overlap {A} (a b : list A) j : NoDup (a ++ b) -> In j a -> In j b -> False.
Proof.
  induction a as [|i a IH]; [intros _ []|]. cbn. intros N [<-|H] Hb; inversion N; subst; [|now apply IH].
  match goal with H : ~ In _ _ |- _ => apply H end. apply in_or_app. now right.
Qed.

Section Flows.
Context {J : Type} (dec : forall i j : J, {i = j} + {i <> j}).
Notation upd := (upd dec).
Notation cont := (@cont J).
Implicit Types (x y : J -> R) (F G : (J -> R) -> R) (l : list J).
Context (L : list J) (L_once : NoDup L) (L_all : forall j, In j L).
Notation bimoves := (bimoves dec L).

(** ** From changes of variables to densities *)
Lemma carries_bimoves T w S lp : bimoves T w S -> cont lp -> carries dec L lp T (fun y => lp (S y) - ln (w (S y))).
Proof.
  intros M Cl f v Cf. pose proof M as ((CT & Cw & Wp & _) & CS & E & E').
  assert (Cln : cont (fun x => ln (w x))).
  { intros x e He.
    assert (Q : continuous (T := R_UniformSpace) (U := R_UniformSpace) ln (w x)) by (apply (ex_derive_continuous (V := R_NormedModule)); exists (/ w x); now apply is_derive_ln).
    destruct (proj1 (filterlim_locally ln (ln (w x))) Q (mkposreal e He)) as (d & Hd).
    destruct (Cw x d (cond_pos d)) as (d' & Hd' & K). exists d'. split; [exact Hd'|]. intros y Hy. apply (Hd (w y)), (K y Hy). }
  assert (Cq : cont (fun y => exp (lp (S y) - ln (w (S y))))).
  { apply (cont_fun exp); [intros t; apply continuous_exp|]. apply cont_minus; [now apply (cont_comp L L_all lp S)|now apply (cont_comp L L_all (fun x => ln (w x)) S)]. }
  assert (CL : cont (fun x => exp (lp x) * f (T x))) by (apply cont_mult; [apply (cont_fun exp); [intros t; apply continuous_exp|exact Cl]|now apply (cont_comp L L_all f T)]).
  assert (CR : cont (fun y => exp (lp (S y) - ln (w (S y))) * f y)) by now apply cont_mult.
  assert (Eq : (fun x => w x * (exp (lp (S (T x)) - ln (w (S (T x)))) * f (T x))) = (fun x => exp (lp x) * f (T x))).
  { extensionality x. rewrite E'. unfold Rminus. rewrite exp_plus, exp_Ropp, exp_ln by apply Wp. field. specialize (Wp x). lra. }
  assert (Key : forall v, (forall y, 0 <= f y) -> total dec L (fun y => exp (lp (S y) - ln (w (S y))) * f y) v <-> total dec L (fun x => exp (lp x) * f (T x)) v).
  { intros v' P. rewrite <- Eq. apply (total_bimoves dec L L_once L_all T w S); [exact M|exact CR|].
    intros y. apply Rmult_le_pos; [left; apply exp_pos|apply P]. }
  split; intros (_ & P & V).
  - assert (Pf : forall y, 0 <= f y).
    { intros y. specialize (P (S y)). rewrite E in P. pose proof (exp_pos (lp (S y))). apply (Rmult_le_reg_l (exp (lp (S y)))); lra. }
    split; [exact CR|]. split; [intros y; apply Rmult_le_pos; [left; apply exp_pos|apply Pf]|]. now apply Key.
  - assert (Pf : forall y, 0 <= f y).
    { intros y. specialize (P y). cbv beta in P. pose proof (exp_pos (lp (S y) - ln (w (S y)))). apply (Rmult_le_reg_l (exp (lp (S y) - ln (w (S y))))); lra. }
    split; [exact CL|]. split; [intros x; apply Rmult_le_pos; [left; apply exp_pos|apply Pf]|]. now apply Key.
Qed.

(** ** Positions *)
Fixpoint index_in (j : J) l : nat := match l with [] => 0 | i :: l' => if dec i j then 0 else S (index_in j l') end.
Definition pos j := index_in j L.
Lemma index_in_nth l j (d0 : J) : In j l -> (index_in j l < length l)%nat /\ nth (index_in j l) l d0 = j.
Proof.
  induction l as [|i l IH]; [intros []|]. cbn [index_in length nth In]. intros H. destruct (dec i j) as [E|N]; [split; [lia|exact E]|].
  destruct H as [E|H]; [contradiction|]. destruct (IH H). split; [lia|assumption].
Qed.
Lemma index_in_unique l k (d0 : J) : NoDup l -> (k < length l)%nat -> index_in (nth k l d0) l = k.
Proof.
  intros Nd Hk. destruct (index_in_nth l (nth k l d0) d0) as (H1 & H2); [now apply nth_In|].
  apply (proj1 (NoDup_nth l d0) Nd); assumption.
Qed.
Lemma pos_lt j : (pos j < length L)%nat.
Proof. apply (index_in_nth L j j), L_all. Qed.
Lemma nth_pos j (d0 : J) : nth (pos j) L d0 = j.
Proof. apply index_in_nth, L_all. Qed.
Lemma pos_nth k d0 : (k < length L)%nat -> pos (nth k L d0) = k.
Proof. intros H. now apply index_in_unique. Qed.
Lemma row_nth x j : nth (pos j) (map x L) 0 = x j.
Proof. rewrite (nth_indep _ 0 (x j)) by (rewrite map_length; apply pos_lt). rewrite map_nth. now rewrite nth_pos. Qed.
Definition from_row (r : list R) : J -> R := fun j => nth (pos j) r 0.
Lemma row_of r : length r = length L -> map (from_row r) L = r.
Proof.
  intros E. apply (nth_ext _ _ 0 0); [now rewrite map_length|]. rewrite map_length. intros k Hk.
  destruct L as [|j0 L'] eqn:EL; [cbn in Hk; lia|]. rewrite <- EL in *. rewrite (nth_indep _ 0 (from_row r j0)) by now rewrite map_length.
  rewrite map_nth. unfold from_row. now rewrite pos_nth.
Qed.
Lemma from_row_map x : from_row (map x L) = x.
Proof. extensionality j. apply row_nth. Qed.

(** Coefficients that depend on the components before one's own. *)
Lemma earlier_rows (f : list R -> list R) (h : R -> R) : SpecFlow.autoregressive (length L) f ->
  earlier_only (fun j x => h (nth (pos j) (f (map x L)) 0)) L.
Proof.
  intros (_ & A).
  assert (G : forall l1 l2, L = l1 ++ l2 -> earlier_only (fun j x => h (nth (pos j) (f (map x L)) 0)) l2); [|now apply (G [])].
  intros l1 l2. revert l1. induction l2 as [|i l2 IH]; intros l1 E; [exact Logic.I|]. split.
  - intros x y H. f_equal. apply A; [apply map_length|apply map_length|apply pos_lt|].
    intros k Hk. assert (Pi : pos i = length l1).
    { assert (Ei : i = nth (length l1) L i) by now rewrite E, app_nth2, Nat.sub_diag by lia. rewrite Ei at 1. apply pos_nth. rewrite E, app_length. cbn. lia. }
    assert (Hk' : (k < length L)%nat) by (pose proof (pos_lt i); lia).
    rewrite (nth_indep (map x L) 0 (x i)), (nth_indep (map y L) 0 (y i)) by now rewrite map_length. rewrite !map_nth.
    apply H. intros Q. assert (In (nth k L i) l1) by (rewrite E, app_nth1 by lia; apply nth_In; lia).
    rewrite E in L_once. now apply (no_overlap l1 (i :: l2) (nth k L i)).
  - apply (IH (l1 ++ [i])). now rewrite <- app_assoc.
Qed.

(** ** Reversing a row *)
Definition mirror j : J := nth (length L - 1 - pos j) L j.
Lemma pos_mirror j : pos (mirror j) = (length L - 1 - pos j)%nat.
Proof. unfold mirror. pose proof (pos_lt j). apply pos_nth. lia. Qed.
Lemma mirror_mirror j : mirror (mirror j) = j.
Proof.
  unfold mirror at 1. rewrite pos_mirror. pose proof (pos_lt j). replace (length L - 1 - (length L - 1 - pos j))%nat with (pos j) by lia.
  apply nth_pos.
Qed.
Lemma rev_row x : rev (map x L) = map (fun j => x (mirror j)) L.
Proof.
  apply (nth_ext _ _ 0 0); [now rewrite rev_length, !map_length|]. rewrite rev_length, map_length. intros k Hk.
  destruct L as [|j0 L'] eqn:EL; [cbn in Hk; lia|]. rewrite <- EL in *.
  rewrite rev_nth by now rewrite map_length. rewrite map_length.
  rewrite (nth_indep _ 0 (x j0)) by (rewrite map_length; lia). rewrite map_nth.
  rewrite (nth_indep (map _ L) 0 (x (mirror j0))) by now rewrite map_length. rewrite (map_nth (fun j => x (mirror j))).
  f_equal. unfold mirror. rewrite pos_nth by exact Hk. replace (length L - S k)%nat with (length L - 1 - k)%nat by lia. apply nth_indep. lia.
Qed.

(** ** One inverse autoregressive layer *)
Lemma ln_prod {A} (l : list A) (f : A -> R) : (forall a, 0 < f a) -> 0 < prodf l f /\ ln (prodf l f) = sumR (map (fun a => ln (f a)) l).
Proof.
  intros P. unfold prodf, sumR. induction l as [|a l (IH1 & IH2)]; cbn [map fold_right]; [split; [lra|apply ln_1]|].
  split; [now apply Rmult_lt_0_compat|]. rewrite ln_mult by auto. now rewrite IH2.
Qed.
Lemma sum_row (h : R -> R) (r : list R) : length r = length L -> sumR (map (fun j => h (nth (pos j) r 0)) L) = sumR (map h r).
Proof. intros E. transitivity (sumR (map h (map (from_row r) L))); [now rewrite map_map|]. now rewrite row_of. Qed.

Lemma bimoves_rows (a c : list R -> list R) (h : R -> R) :
  SpecFlow.autoregressive (length L) a -> SpecFlow.autoregressive (length L) c ->
  (forall k, cont (fun x => h (nth k (a (map x L)) 0))) -> continuous_rows L c ->
  (forall x j, 0 < h (nth (pos j) (a (map x L)) 0)) ->
  exists T w S, bimoves T w S /\ forall x,
    map (T x) L = rev (map (fun k => h (nth k (a (map x L)) 0) * nth k (map x L) 0 + nth k (c (map x L)) 0) (seq 0 (length L))) /\
    ln (w x) = sumR (map (fun s => ln (h s)) (a (map x L))).
Proof.
  intros Aa Ac Ca Cc P.
  destruct (bimoves_triangular dec L L_once L_all (fun j x => h (nth (pos j) (a (map x L)) 0)) (fun j x => nth (pos j) (c (map x L)) 0) L L_once) as (S & M).
  - intros j _. apply Ca.
  - intros j _. apply Cc.
  - intros j x _. specialize (P x j). lra.
  - now apply earlier_rows.
  - now apply (earlier_rows c (fun s => s)).
  - pose proof (bimoves_comp dec L L_all _ _ _ _ _ _ M (bimoves_rename dec L L_once L_all mirror mirror mirror_mirror mirror_mirror)) as B.
    do 3 eexists. split; [exact B|]. intros x. cbv beta. split.
    + rewrite <- (rev_row (triangular dec _ _ L x)). f_equal.
      apply (nth_ext _ _ 0 0); [now rewrite !map_length, seq_length|]. rewrite map_length. intros k Hk.
      destruct L as [|j0 L'] eqn:EL; [cbn in Hk; lia|]. rewrite <- EL in *.
      rewrite (nth_indep (map (triangular _ _ _ _ _) L) 0 (triangular dec (fun j x => h (nth (pos j) (a (map x L)) 0)) (fun j x => nth (pos j) (c (map x L)) 0) L x j0)) by now rewrite map_length.
      rewrite map_nth. set (g := fun k => h (nth k (a (map x L)) 0) * nth k (map x L) 0 + nth k (c (map x L)) 0).
      rewrite (nth_indep (map g _) 0 (g 0%nat)) by now rewrite map_length, seq_length. rewrite map_nth, seq_nth by exact Hk. rewrite Nat.add_0_l.
      unfold triangular. destruct (in_dec dec _ L) as [_|N]; [|destruct N; apply L_all].
      rewrite pos_nth by exact Hk. unfold g. f_equal. f_equal. rewrite (nth_indep _ 0 (x j0)) by now rewrite map_length. now rewrite map_nth.
    + assert (Q : prodf L (fun j => Rabs (h (nth (pos j) (a (map x L)) 0))) = prodf L (fun j => h (nth (pos j) (a (map x L)) 0))).
      { unfold prodf. f_equal. apply map_ext. intros j. apply Rabs_pos_eq. left. apply P. }
      rewrite Q, Rmult_1_r. destruct (ln_prod L (fun j => h (nth (pos j) (a (map x L)) 0)) (P x)) as (_ & E). rewrite E.
      apply (sum_row (fun s => ln (h s))). apply Aa, map_length.
Qed.

(** ** One planar layer *)
Definition along x (W : J -> R) : R := sumR (map (fun j => x j * W j) L).
Lemma along_upd W x k t : along (upd x k t) W = along x W + W k * (t - x k).
Proof.
  unfold along. assert (H : In k L) by apply L_all. revert H L_once. clear. induction L as [|i l IH]; [intros []|].
  cbn [map In]. intros H N. inversion N; subst. unfold sumR in *. cbn [fold_right].
  destruct H as [->|H].
  - rewrite upd_same. replace (map (fun j => upd x k t j * W j) l) with (map (fun j => x j * W j) l); [ring|].
    apply map_ext_in. intros j Hj. rewrite upd_other; [reflexivity|]. intros ->. contradiction.
  - rewrite IH by assumption. rewrite upd_other; [ring|]. intros ->. contradiction.
Qed.
Lemma along_axpy W U x s : along (fun j => x j + s * U j) W = along x W + s * along U W.
Proof.
  unfold along. clear. induction L as [|i l IH]; unfold sumR in *; cbn [map fold_right]; [ring|]. rewrite IH. ring.
Qed.
Lemma cont_along W : cont (fun x => along x W).
Proof.
  unfold along. clear. induction L as [|i l IH]; unfold sumR in *; cbn [map fold_right]; [exact (cont_const 0)|].
  apply cont_plus; [|exact IH]. apply cont_mult; [apply cont_coord|exact (cont_const (W i))].
Qed.
Lemma continuous_tanh t : continuous tanh t.
Proof. apply (ex_derive_continuous (V := R_NormedModule)). eexists. apply ProofFlow.derive_tanh. Qed.

Lemma bimoves_plane (W U : J -> R) (b : R) k : W k <> 0 -> -1 < along U W ->
  exists S, bimoves (fun x j => x j + tanh (along x W + b) * U j)
                    (fun x => along U W * (1 - tanh (along x W + b) * tanh (along x W + b)) + 1) S.
Proof.
  intros Wk Hs. set (s := along U W) in *. set (rest := fun x => along (upd x k 0) W).
  assert (Cu : forall j, cont (fun x => upd x k 0 j)) by (apply (cont_upd dec k (fun _ => 0)), cont_const).
  assert (Cr : cont rest) by (apply (cont_comp L L_all (fun x => along x W) (fun x => upd x k 0)); [apply cont_along|exact Cu]).
  assert (Ir : forall x t, rest (upd x k t) = rest x) by (intros x t; unfold rest; now rewrite upd_twice).
  assert (Er : forall x, rest x = along x W - W k * x k) by (intros x; unfold rest; rewrite along_upd; ring).
  pose proof (bimoves_affine dec L L_once L_all k (fun _ => W k) rest (cont_const _) Cr (fun _ => Wk) (fun _ _ => eq_refl) Ir) as M1.
  assert (Wi : / W k <> 0) by now apply Rinv_neq_0_compat.
  assert (Cr' : cont (fun x => - (rest x) * / W k)) by (apply cont_mult; [now apply cont_opp|apply cont_const]).
  pose proof (bimoves_affine dec L L_once L_all k (fun _ => / W k) (fun x => - (rest x) * / W k) (cont_const _) Cr' (fun _ => Wi) (fun _ _ => eq_refl)
    (fun x t => f_equal (fun r => - r * / W k) (Ir x t))) as M4.
  set (others := remove dec k L).
  assert (Nk : ~ In k others) by apply remove_In.
  assert (Ot : forall j, j <> k -> In j others) by (intros j H; apply in_in_remove; [exact H|apply L_all]).
  destruct (bimoves_triangular dec L L_once L_all (fun _ _ => 1) (fun j x => U j * tanh (x k + b)) others) as (S2 & M2).
  { clear - L_once. unfold others. clear others. revert L_once. induction L as [|i l IH]; intros N; [constructor|]. inversion N; subst. cbn [remove].
    destruct (dec k i); [auto|]. constructor; [|auto]. intros Q. apply in_remove in Q. tauto. }
  { intros j _. apply cont_const. }
  { intros j _. apply cont_mult; [apply cont_const|]. apply (cont_fun tanh); [apply continuous_tanh|]. apply cont_plus; [apply cont_coord|apply cont_const]. }
  { intros; lra. }
  { clear. generalize others. intros l. induction l; [exact Logic.I|]. split; [reflexivity|assumption]. }
  { assert (Q : forall l, ~ In k l -> earlier_only (fun j x => U j * tanh (x k + b)) l); [|now apply Q].
    induction l as [|i l IH]; intros H; [exact Logic.I|]. split; [|apply IH; intros Q; apply H; now right]. intros x y E. now rewrite (E k H). }
  set (g := fun t => t + s * tanh (t + b)). set (dg := fun t => 1 + s * (1 - tanh (t + b) * tanh (t + b))).
  destruct (inverse_function g (ProofFlow.g_incr b s Hs) (ProofFlow.g_surj b s)) as (h & Hh).
  assert (Cd : forall t, continuous dg t).
  { intros t. apply (ex_derive_continuous (V := R_NormedModule)). unfold dg. eexists.
    apply (is_derive_plus (K := R_AbsRing) (V := R_NormedModule)); [apply is_derive_const|].
    apply is_derive_scal, (is_derive_minus (K := R_AbsRing) (V := R_NormedModule)); [apply is_derive_const|].
    assert (D : is_derive (fun u => tanh (u + b)) t (1 * (1 - tanh (t + b) * tanh (t + b)))).
    { apply (is_derive_comp tanh (fun u => u + b)); [apply ProofFlow.derive_tanh|]. auto_derive; [easy|ring]. }
    apply (is_derive_mult _ _ _ _ _ D D). intros; apply Rmult_comm. }
  pose proof (bimoves_stretch dec L L_once L_all k g dg h (ProofFlow.g_derive b s) Cd (ProofFlow.g_slope b s Hs) Hh) as M3.
  pose proof (bimoves_comp dec L L_all _ _ _ _ _ _ (bimoves_comp dec L L_all _ _ _ _ _ _ (bimoves_comp dec L L_all _ _ _ _ _ _ M1 M2) M3) M4) as M.
  eexists. eapply bimoves_ext; [| | |exact M]; [| |reflexivity].
  - assert (E1 : forall x, affine dec k (fun _ => W k) rest x = upd x k (along x W)).
    { intros x. unfold affine. f_equal. rewrite Er. ring. }
    assert (E2 : forall x, triangular dec (fun _ _ => 1) (fun j x => U j * tanh (x k + b)) others (upd x k (along x W)) =
                           upd (fun j => x j + tanh (along x W + b) * U j) k (along x W)).
    { intros x. extensionality j. unfold triangular. destruct (dec k j) as [<-|N].
      - destruct (in_dec dec k others); [contradiction|]. now rewrite !upd_same.
      - destruct (in_dec dec j others) as [_|Q]; [|destruct Q; apply Ot; congruence]. rewrite upd_same, !(upd_other dec _ k j) by exact N. ring. }
    intros x. cbv beta. rewrite E1, E2. unfold stretch. rewrite upd_same, upd_twice. unfold affine. rewrite upd_same, Ir, upd_twice.
    set (z := fun j => x j + tanh (along x W + b) * U j).
    transitivity (upd z k (z k)); [|apply upd_id]. f_equal. rewrite Er. unfold z at 1. rewrite along_axpy. fold s. unfold g, z. field. exact Wk.
  - intros x. cbv beta. assert (P1 : forall y, prodf others (fun _ => Rabs 1) = 1) by (intros; apply prodf_one; intros; apply Rabs_R1).
    rewrite (P1 x). unfold triangular at 1. destruct (in_dec dec k others); [contradiction|].
    unfold affine at 1. rewrite upd_same. replace (W k * x k + rest x) with (along x W) by (rewrite Er; ring).
    unfold dg. rewrite Rabs_inv. field. now apply Rabs_no_R0.
Qed.
End Flows.
