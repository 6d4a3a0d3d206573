(** Lemmas for PropNum.v. *)
From Coq Require Import List Reals ZArith Lra Lia.
From Verif Require Import ModelExt ModelSpecial ModelNum SpecNum.
Import ListNotations.
Local Open Scope R_scope.

Lemma Int_part_exact z : Int_part (IZR z) = z.
Proof.
  destruct (base_Int_part (IZR z)) as [A B]. apply le_IZR in A.
  assert (C : IZR z - 1 < IZR (Int_part (IZR z))) by lra. rewrite <- minus_IZR in C. apply lt_IZR in C. lia.
Qed.
Lemma at_pole_iff x : at_pole x = true <-> exists k : nat, x = - INR k.
Proof.
  unfold at_pole. split.
  - destruct (Rle_dec x 0) as [H|H]; [|discriminate]. destruct (Req_EM_T (IZR (Int_part x)) x) as [E|E]; [|discriminate].
    intros _. exists (Z.to_nat (- Int_part x)). rewrite INR_IZR_INZ, Z2Nat.id, opp_IZR; [lra|].
    rewrite <- E in H. apply (le_IZR _ 0) in H. lia.
  - intros (k & ->). pose proof (pos_INR k). destruct (Rle_dec (- INR k) 0); [|lra].
    rewrite INR_IZR_INZ, <- opp_IZR, Int_part_exact. destruct Req_EM_T; [reflexivity|congruence].
Qed.
Lemma at_pole_false x : at_pole x = false <-> forall k : nat, x <> - INR k.
Proof.
  split.
  - intros H k E. assert (T : at_pole x = true) by (apply at_pole_iff; now exists k). congruence.
  - intros H. destruct (at_pole x) eqn:E; [|reflexivity]. apply at_pole_iff in E as (k & E). now destruct (H k).
Qed.
Lemma at_pole_pos x : 0 < x -> at_pole x = false.
Proof. intros H. apply at_pole_false. intros k ->. pose proof (pos_INR k). lra. Qed.

Lemma finite_iff a : is_finite a = true <-> number a.
Proof. destruct a; cbn; split; try discriminate; try (intros (r0 & E); discriminate); intros _; [now exists r|reflexivity]. Qed.
Lemma elog_finite a : is_finite (elog a) = true <-> positive a.
Proof.
  destruct a; cbn; split; try discriminate; try (intros (r0 & E & _); discriminate).
  - destruct (Rlt_dec 0 r) as [H|H]; [intros _; now exists r|]. destruct Req_EM_T; discriminate.
  - intros (r0 & [= ->] & H). destruct Rlt_dec; [reflexivity|contradiction].
Qed.
Lemma elog_pos x : 0 < x -> elog (Fi x) = Fi (ln x).
Proof. intros H. cbn. destruct Rlt_dec; [reflexivity|contradiction]. Qed.
Lemma elog_0 : elog (Fi 0) = MInf.
Proof. cbn. destruct Rlt_dec; [lra|]. destruct Req_EM_T; [reflexivity|lra]. Qed.
Lemma elog_neg x : x < 0 -> elog (Fi x) = NaN.
Proof. intros H. cbn. destruct Rlt_dec; [lra|]. destruct Req_EM_T; [lra|reflexivity]. Qed.
Lemma elgamma_finite lg a : is_finite (elgamma lg a) = true <-> regular a.
Proof.
  destruct a; cbn; split; try discriminate; try (intros (r0 & E & _); discriminate).
  - destruct (at_pole r) eqn:E; [discriminate|]. intros _. exists r. split; [reflexivity|]. now apply at_pole_false.
  - intros (r0 & [= ->] & H). apply at_pole_false in H. now rewrite H.
Qed.
Lemma elgamma_pos lg x : 0 < x -> elgamma lg (Fi x) = Fi (lg x).
Proof. intros H. cbn. now rewrite at_pole_pos. Qed.
Lemma elgamma_pole lg (k : nat) x : x = - INR k -> elgamma lg (Fi x) = PInf.
Proof. intros ->. cbn. now rewrite (proj2 (at_pole_iff (- INR k)) (ex_intro _ k eq_refl)). Qed.

(** Runs. *)
Lemma bind_checked {B} a (f : ext -> run B) v : bind (checked true a) f = Returns v <-> is_finite a = true /\ f a = Returns v.
Proof. cbn. destruct (is_finite a); cbn; split; intros H; [auto|now destruct H|discriminate|now destruct H]. Qed.
Lemma check_same {B} check a (f g : ext -> run B) v :
  (f a = Returns v -> g a = Returns v) -> bind (checked check a) f = Returns v -> bind (checked false a) g = Returns v.
Proof. intros H. destruct check; cbn; [destruct (is_finite a); cbn|]; auto. discriminate. Qed.
Lemma checked_iff {B} a (f : ext -> run B) : (exists v, bind (checked true a) f = Returns v) <-> is_finite a = true /\ exists v, f a = Returns v.
Proof.
  split; [intros (v & H); apply bind_checked in H as (A & B'); eauto|]. intros (A & v & H). exists v. now apply bind_checked.
Qed.
Lemma returns_iff {A} (a : A) : (exists v, Returns a = Returns v) <-> True.
Proof. split; eauto. Qed.
Lemma all_finite check l r : checked_all check l = Returns r -> r = l /\ (check = true -> Forall number l).
Proof.
  revert r. induction l as [|a l IH]; intros r; cbn.
  - intros [= <-]. split; [reflexivity|constructor].
  - destruct check; cbn.
    + destruct (is_finite a) eqn:F; cbn; [|discriminate]. destruct (checked_all true l) as [l'|]; cbn; [|discriminate]. intros [= <-].
      destruct (IH l' eq_refl) as (-> & N). split; [reflexivity|]. intros _. constructor; [now apply finite_iff|auto].
    + destruct (checked_all false l) as [l'|]; cbn; [|discriminate]. intros [= <-]. destruct (IH l' eq_refl) as (-> & _). split; [reflexivity|discriminate].
Qed.
Lemma all_checked l : Forall number l -> checked_all true l = Returns l.
Proof. induction 1 as [|a l (r & ->) _ IH]; cbn; [reflexivity|]. now rewrite IH. Qed.
Lemma all_unchecked l : checked_all false l = Returns l.
Proof. induction l as [|a l IH]; cbn; [reflexivity|]. now rewrite IH. Qed.

(** Sums. *)
Lemma eadd_finite a b : number (eadd a b) <-> number a /\ number b.
Proof.
  split.
  - intros (r & E). destruct a, b; cbn in E; try discriminate; split; eexists; reflexivity.
  - intros ((x & ->) & (y & ->)). now exists (x + y).
Qed.
Lemma esub_finite a b : number (esub a b) <-> number a /\ number b.
Proof.
  unfold esub. rewrite eadd_finite. split; intros (A & B); split; auto; destruct B as (r & E); destruct b; cbn in *; try discriminate; eexists; reflexivity.
Qed.
Lemma emul_finite a b : number a -> number b -> number (emul a b).
Proof. intros (x & ->) (y & ->). now exists (x * y). Qed.
Lemma sum_finite l : number (reduce_sum l) <-> Forall number l.
Proof.
  induction l as [|a l IH]; cbn; [split; [constructor|now exists 0]|]. rewrite eadd_finite, IH.
  split; [intros (A & B); now constructor|intros H; inversion H; auto].
Qed.
Lemma sum_nan l : In NaN l -> reduce_sum l = NaN.
Proof.
  induction l as [|a l IH]; [contradiction|]. intros [->|H]; cbn; [destruct (reduce_sum l); reflexivity|].
  change (fold_right eadd (Fi 0) l) with (reduce_sum l). rewrite IH by exact H. now destruct a.
Qed.
Lemma eadd_nan_r a : eadd a NaN = NaN. Proof. now destruct a. Qed.
Lemma esub_nan_r a : esub a NaN = NaN. Proof. now destruct a. Qed.
Lemma emul_nan_r a : emul a NaN = NaN. Proof. now destruct a. Qed.
Lemma ediv2_nan_r a : ediv2 a NaN = NaN. Proof. now destruct a. Qed.
