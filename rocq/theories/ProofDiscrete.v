(** Finite sums, the multinomial theorem and factorial identities. *)
From Coq Require Import List Reals Arith Lia Lra Permutation.
From Verif Require Import ModelDist SpecDist.
Import ListNotations.
Local Open Scope R_scope.

Lemma sumR_total l : sumR l = total (fun x => x) l.
Proof. induction l; simpl; congruence. Qed.
Lemma total_map {X Y} (f : Y -> R) (g : X -> Y) l : total f (map g l) = total (fun x => f (g x)) l.
Proof. induction l; simpl; congruence. Qed.
Lemma total_ext {X} (f g : X -> R) l : (forall x, In x l -> f x = g x) -> total f l = total g l.
Proof. induction l; simpl; intros H; auto. rewrite H, IHl; auto. Qed.
Lemma total_app {X} (f : X -> R) a b : total f (a ++ b) = total f a + total f b.
Proof. induction a; simpl; [ring|rewrite IHa; ring]. Qed.
Lemma total_scal {X} (f : X -> R) c l : total (fun x => c * f x) l = c * total f l.
Proof. induction l; simpl; [ring|rewrite IHl; ring]. Qed.
Lemma total_plus {X} (f g : X -> R) l : total (fun x => f x + g x) l = total f l + total g l.
Proof. induction l; simpl; [ring|rewrite IHl; ring]. Qed.
Lemma total_flat_map {X Y} (f : Y -> R) (g : X -> list Y) l :
  total f (flat_map g l) = total (fun x => total f (g x)) l.
Proof. induction l; simpl; auto. rewrite total_app, IHl. reflexivity. Qed.
Lemma total_pos {X} (f : X -> R) l : l <> [] -> (forall x, In x l -> 0 < f x) -> 0 < total f l.
Proof.
  intros N H. destruct l as [|a l]; [congruence|]. clear N. revert a H. induction l as [|b l IH]; intros a H; simpl.
  - specialize (H a). simpl in H. assert (0 < f a) by auto. lra.
  - assert (0 < f a) by (apply H; simpl; auto). assert (0 < total f (b :: l)) by (apply IH; intros; apply H; simpl in *; tauto).
    simpl in *. lra.
Qed.
Lemma total_nonneg {X} (f : X -> R) l : (forall x, In x l -> 0 <= f x) -> 0 <= total f l.
Proof. induction l; simpl; intros H; [lra|]. assert (0 <= f a) by auto. assert (0 <= total f l) by auto. lra. Qed.
Lemma total_sumR {X} (f : X -> R) l : total f l = sumR (map f l).
Proof. induction l; simpl; congruence. Qed.
Lemma total_perm {X} (f : X -> R) l l' : Permutation l l' -> total f l = total f l'.
Proof. induction 1; simpl; lra. Qed.
Lemma total_seq_f f n : total f (seq 0 (S n)) = sum_f_R0 f n.
Proof. induction n; [simpl; ring|]. rewrite seq_S, total_app, IHn. simpl. ring. Qed.

Lemma sumexp_pos l : l <> [] -> 0 < sumR (map exp l).
Proof. intros H. rewrite <- total_sumR. apply total_pos; auto. intros; apply exp_pos. Qed.
Lemma exp_lse l : l <> [] -> exp (logsumexp l) = sumR (map exp l).
Proof. intros H. unfold logsumexp. apply exp_ln. now apply sumexp_pos. Qed.
Lemma exp_minus a b : exp (a - b) = exp a / exp b.
Proof. unfold Rminus, Rdiv. now rewrite exp_plus, exp_Ropp. Qed.
Lemma normalized_sum l : l <> [] -> total (fun x => exp (x - logsumexp l)) l = 1.
Proof.
  intros H. rewrite (total_ext _ (fun x => / sumR (map exp l) * exp x)).
  - rewrite total_scal, total_sumR. field. apply Rgt_not_eq. now apply sumexp_pos.
  - intros. rewrite exp_minus, exp_lse by assumption. unfold Rdiv. ring.
Qed.

(** ** Factorials and binomial coefficients *)
Lemma fact_pos n : 0 < INR (fact n).
Proof. apply lt_0_INR, lt_O_fact. Qed.
Lemma choose_fact n : forall k, (k <= n)%nat -> (choose n k * (fact k * fact (n - k)) = fact n)%nat.
Proof.
  induction n as [|n IH]; intros k Hk.
  - assert (k = 0)%nat by lia. subst. reflexivity.
  - destruct k as [|k].
    + change (choose (S n) 0) with 1%nat. rewrite Nat.sub_0_r. change (fact 0) with 1%nat. lia.
    + change (choose (S n) (S k)) with (choose n k + choose n (S k))%nat. rewrite Nat.sub_succ.
      destruct (Nat.eq_dec k n) as [->|Nk].
      * assert (E0 : choose n (S n) = 0%nat).
        { clear. assert (G : forall m k, (m < k)%nat -> choose m k = 0%nat).
          { induction m as [|m IH]; intros [|k] H; try lia; simpl; auto. rewrite !IH by lia. reflexivity. }
          apply G. lia. }
        rewrite E0, Nat.sub_diag. specialize (IH n (le_n n)). rewrite Nat.sub_diag in IH.
        change (fact (S n)) with (S n * fact n)%nat. simpl (fact 0) in *.
        rewrite <- IH at 2. change (fact 0) with 1%nat in *. nia.
      * assert (H1 := IH k ltac:(lia)). assert (H2 := IH (S k) ltac:(lia)).
        replace (n - k)%nat with (S (n - S k)) in * by lia.
        change (fact (S (n - S k))) with (S (n - S k) * fact (n - S k))%nat in *.
        change (fact (S k)) with (S k * fact k)%nat in *. change (fact (S n)) with (S n * fact n)%nat.
        set (m := (n - S k)%nat) in *. set (a := fact k) in *. set (b := fact m) in *.
        transitivity (S k * (choose n k * (a * (S m * b))) + S m * (choose n (S k) * (S k * a * b)))%nat; [ring|].
        rewrite H1, H2. replace n with (m + S k)%nat at 3 by lia. ring.
Qed.
Lemma choose_R n k : (k <= n)%nat -> INR (choose n k) = C n k.
Proof.
  intros H. unfold C. pose proof (choose_fact n k H) as E. apply (f_equal INR) in E. rewrite !mult_INR in E.
  pose proof (fact_pos k). pose proof (fact_pos (n - k)). field_simplify_eq; [lra|]. split; lra.
Qed.
Lemma arrangements_fact ks : (arrangements ks * fold_right Nat.mul 1 (map fact ks) = fact (list_sum ks))%nat.
Proof.
  induction ks as [|k ks IH]; [reflexivity|].
  change (arrangements (k :: ks)) with (choose (k + list_sum ks) k * arrangements ks)%nat.
  change (fold_right Nat.mul 1%nat (map fact (k :: ks))) with (fact k * fold_right Nat.mul 1 (map fact ks))%nat.
  change (list_sum (k :: ks)) with (k + list_sum ks)%nat.
  rewrite <- (choose_fact (k + list_sum ks) k) by lia.
  replace (k + list_sum ks - k)%nat with (list_sum ks) by lia. rewrite <- IH. ring.
Qed.
Lemma arrangements_pos ks : (1 <= arrangements ks)%nat.
Proof.
  pose proof (arrangements_fact ks) as E. pose proof (lt_O_fact (list_sum ks)). destruct (arrangements ks); lia.
Qed.

Lemma ln_prod_fact ks : sumR (map (fun k => ln (INR (fact k))) ks) = ln (INR (fold_right Nat.mul 1%nat (map fact ks))).
Proof.
  induction ks as [|k ks IH].
  - simpl. now rewrite ln_1.
  - change (sumR (map (fun k => ln (INR (fact k))) (k :: ks))) with
      (ln (INR (fact k)) + sumR (map (fun k => ln (INR (fact k))) ks)).
    change (fold_right Nat.mul 1%nat (map fact (k :: ks))) with (fact k * fold_right Nat.mul 1 (map fact ks))%nat.
    rewrite mult_INR, IH, ln_mult; auto using fact_pos.
    apply lt_0_INR. clear. induction ks; simpl; [lia|]. pose proof (lt_O_fact a). nia.
Qed.
Lemma log_combination_arrangements lgamma ks : lgamma_factorial lgamma ->
  exp (log_combination lgamma (INR (list_sum ks)) (map INR ks)) = INR (arrangements ks).
Proof.
  intros L. unfold log_combination. rewrite L, map_map.
  rewrite (map_ext _ (fun k => ln (INR (fact k)))) by (intros; apply L).
  rewrite ln_prod_fact, exp_minus, !exp_ln; auto using fact_pos.
  - rewrite <- (arrangements_fact ks), mult_INR. field. apply not_0_INR. clear.
    induction ks; simpl; [lia|]. pose proof (lt_O_fact a). nia.
  - apply lt_0_INR. clear. induction ks; simpl; [lia|]. pose proof (lt_O_fact a). nia.
Qed.

(** ** Count vectors *)
Fixpoint compositions (k n : nat) : list (list nat) :=
  match k with
  | O => if Nat.eqb n 0 then [[]] else []
  | S k' => flat_map (fun j => map (cons j) (compositions k' (n - j))) (seq 0 (S n))
  end.
Lemma compositions_in k : forall n l, In l (compositions k n) <-> counts k n l.
Proof.
  unfold counts. induction k as [|k IH]; intros n l.
  - simpl. destruct (Nat.eqb_spec n 0) as [->|N]; simpl.
    + split; [intros [<-|[]]; auto|]. intros [L _]. destruct l; [auto|discriminate].
    + split; [contradiction|]. intros [L S]. destruct l; [simpl in S; congruence|discriminate].
  - cbn [compositions]. rewrite in_flat_map. split.
    + intros [j [Hj Hl]]. apply in_map_iff in Hl. destruct Hl as [l' [<- Hl']]. apply IH in Hl'.
      apply in_seq in Hj. simpl. destruct Hl' as [L S]. split; lia.
    + destruct l as [|j l]; intros [L S]; [discriminate|]. simpl in L, S. exists j. split; [apply in_seq; lia|].
      apply in_map. apply IH. split; lia.
Qed.
Lemma NoDup_app_intro {X} (a b : list X) : NoDup a -> NoDup b -> (forall x, In x a -> ~ In x b) -> NoDup (a ++ b).
Proof.
  intros Na Nb D. induction Na as [|x a Hx Na IH]; simpl; auto. constructor.
  - rewrite in_app_iff. intros [H|H]; auto. apply (D x); simpl; auto.
  - apply IH. intros y Hy. apply D. simpl; auto.
Qed.
Lemma NoDup_flat {X Y} (g : X -> list Y) l : NoDup l -> (forall x, NoDup (g x)) ->
  (forall x y z, In z (g x) -> In z (g y) -> x = y) -> NoDup (flat_map g l).
Proof.
  intros N H D. induction N as [|x l Hx N IH]; simpl; [constructor|]. apply NoDup_app_intro; auto.
  intros z Hz Hl. apply in_flat_map in Hl. destruct Hl as [y [Hy Hzy]]. assert (x = y) by eauto. congruence.
Qed.
Lemma compositions_NoDup k : forall n, NoDup (compositions k n).
Proof.
  induction k as [|k IH]; intros n.
  - simpl. destruct (Nat.eqb n 0); repeat constructor; auto.
  - cbn [compositions]. apply NoDup_flat.
    + apply seq_NoDup.
    + intros j. apply FinFun.Injective_map_NoDup; auto. intros a b E. congruence.
    + intros x y z Hx Hy. apply in_map_iff in Hx, Hy. destruct Hx as [? [<- _]], Hy as [? [E _]]. congruence.
Qed.

(** The multinomial theorem. *)
Fixpoint powprod (ps : list R) (ks : list nat) : R :=
  match ps, ks with
  | p :: ps', k :: ks' => p ^ k * powprod ps' ks'
  | _, _ => 1
  end.
Lemma multinomial_theorem ps : forall n,
  total (fun ks => INR (arrangements ks) * powprod ps ks) (compositions (length ps) n) = sumR ps ^ n.
Proof.
  induction ps as [|p ps IH]; intros n.
  - simpl length. cbn [compositions]. destruct (Nat.eqb_spec n 0) as [->|N]; simpl; [ring|].
    destruct n; [congruence|]. simpl. ring.
  - simpl length. cbn [compositions]. rewrite total_flat_map.
    rewrite (total_ext _ (fun j => C n j * p ^ j * sumR ps ^ (n - j))).
    + rewrite total_seq_f. change (sumR (p :: ps)) with (p + sumR ps). symmetry. apply binomial.
    + intros j Hj. apply in_seq in Hj. rewrite total_map, <- IH.
      rewrite (total_ext _ (fun ks => C n j * p ^ j * (INR (arrangements ks) * powprod ps ks))).
      * apply total_scal.
      * intros ks Hks. apply compositions_in in Hks. destruct Hks as [_ S].
        change (arrangements (j :: ks)) with (choose (j + list_sum ks) j * arrangements ks)%nat.
        rewrite mult_INR. replace (j + list_sum ks)%nat with n by lia. rewrite choose_R by lia.
        simpl. ring.
Qed.
