(** Lemmas about expectations over a run of AIS. *)
From Coq Require Import Reals Lra List Arith Lia.
From Verif Require Import ModelDist ModelAIS SpecDist SpecVI SpecAIS ProofDiscrete ProofVI.
Import ListNotations.
Local Open Scope R_scope.

(** A normalized expectation over values satisfying [P]. *)
Definition expectation {A} (P : A -> Prop) (m : E A) : Prop :=
  (forall f g, (forall a, P a -> f a <= g a) -> m f <= m g) /\
  (forall c d f, m (fun a => c + d * f a) = c + d * m f).

Lemma expectation_ret {A} (P : A -> Prop) a : P a -> expectation P (e_ret A a).
Proof. intros H. split; unfold e_ret; intros; [now apply H0|ring]. Qed.
Lemma expectation_ext {A} (P : A -> Prop) m f g : expectation P m -> (forall a, P a -> f a = g a) -> m f = m g.
Proof. intros [M _] H. apply Rle_antisym; apply M; intros a Pa; rewrite H by easy; lra. Qed.
Lemma expectation_const {A} (P : A -> Prop) m c : expectation P m -> m (fun _ => c) = c.
Proof.
  intros Em. transitivity (m (fun a => c + 0 * (fun _ => 0) a)).
  - apply (expectation_ext P); [easy|]. intros; ring.
  - destruct Em as [_ A0]. rewrite A0. ring.
Qed.
Lemma expectation_bind {A B} (P : A -> Prop) (Q : B -> Prop) m k :
  expectation P m -> (forall a, P a -> expectation Q (k a)) -> expectation Q (e_bind A B m k).
Proof.
  intros Em Ek. split; unfold e_bind.
  - intros f g H. apply (proj1 Em). intros a Pa. now apply (Ek a Pa).
  - intros c d f. rewrite <- (proj2 Em). apply (expectation_ext P); [easy|].
    intros a Pa. now apply (Ek a Pa).
Qed.

Section Chains.
Context {X : Type} (Xs : list X).
Definition sized (K : nat) (xs : list X) : Prop := length xs = K /\ forall x, In x xs -> In x Xs.

Lemma expectation_expect q : distribution q Xs -> expectation (fun x => In x Xs) (expect q Xs).
Proof.
  intros D. split.
  - intros f g H. apply expect_le; [easy|]. intros z Hz _. now apply H.
  - intros c d f. rewrite expect_plus, expect_scal. now rewrite expect_const.
Qed.
Lemma expectation_independent qs : Forall (fun q => distribution q Xs) qs ->
  expectation (sized (length qs)) (independent Xs qs).
Proof.
  induction 1 as [|q qs D Ds IH]; cbn [independent].
  - apply (expectation_ret (sized 0)). split; [easy|]. intros x [].
  - apply (expectation_bind (fun x => In x Xs) (sized (length (q :: qs))) (expect q Xs)
      (fun x f => independent Xs qs (fun xs => f (x :: xs)))); [now apply expectation_expect|].
    intros x Hx. apply (expectation_bind (sized (length qs)) (sized (length (q :: qs))) (independent Xs qs)
      (fun xs f => f (x :: xs))); [easy|].
    intros xs [L I]. apply (expectation_ret (sized (length (q :: qs))) (x :: xs)).
    split; [cbn; now rewrite L|]. intros y [<-|Hy]; auto.
Qed.

(** A sum with one term per chain. *)
Lemma independent_sum gs : forall qs, Forall (fun q => distribution q Xs) qs -> length gs = length qs ->
  independent Xs qs (fun xs => total (fun p => fst p (snd p)) (combine gs xs))
  = total (fun p => expect (snd p) Xs (fst p)) (combine gs qs).
Proof.
  induction gs as [|g gs IH]; intros [|q qs] F L; try discriminate; [easy|].
  inversion F as [|? ? D Ds]; subst. cbn [independent combine total fst snd].
  rewrite <- (IH qs Ds) by now injection L.
  rewrite (expect_ext q Xs _ (fun x => g x + independent Xs qs (fun xs => total (fun p => fst p (snd p)) (combine gs xs)))).
  - rewrite expect_plus. f_equal. now apply expect_const.
  - intros x Hx. transitivity (g x + 1 * independent Xs qs (fun xs => total (fun p => fst p (snd p)) (combine gs xs))); [|ring].
    rewrite <- (proj2 (expectation_independent qs Ds)). apply (expectation_ext _ _ _ _ (expectation_independent qs Ds)).
    intros xs _. cbn. ring.
Qed.

Context (log_prior log_joint : X -> R) (kernel : R -> X -> X -> R) (K n : nat).
Notation lf := (log_fn log_prior log_joint).
Notation f T x := (exp (log_fn log_prior log_joint T x)).
Notation temp k := (schedule_t n (INR k)).
Hypothesis trans : forall k, (1 <= k <= n)%nat -> transition Xs (kernel (temp k)).
Hypothesis inv : forall k, (1 <= k < n)%nat -> invariant Xs log_prior log_joint (temp k) (kernel (temp k)).
Notation move := (move Xs log_prior log_joint kernel).

Lemma kernels_ok k xs : (1 <= k <= n)%nat -> (forall x, In x xs -> In x Xs) ->
  Forall (fun q => distribution q Xs) (map (kernel (temp k)) xs).
Proof. intros Hk I. apply Forall_forall. intros q Hq. apply in_map_iff in Hq as [x [<- Hx]]. apply trans; auto. Qed.

Definition moved (r : list X * (list R * list R)) : Prop :=
  sized K (fst r) /\ length (fst (snd r)) = K /\ length (snd (snd r)) = K.
Lemma expectation_move k xs : (1 <= k <= n)%nat -> sized K xs -> expectation moved (move (temp k) xs).
Proof.
  intros Hk [L I].
  pose proof (expectation_independent _ (kernels_ok k xs Hk I)) as EI. rewrite map_length, L in EI.
  apply (expectation_bind (sized K) moved (independent Xs (map (kernel (temp k)) xs))
    (fun xs' f => f (xs', (map (lf (temp k)) xs, map (lf (temp k)) xs')))); [easy|].
  intros xs' S'. apply (expectation_ret moved). split; [easy|]. cbn. rewrite !map_length. split; [easy|apply S'].
Qed.
Lemma expectation_adapt k j : (1 <= k <= n)%nat -> forall xs, sized K xs ->
  expectation (sized K) (adapt e_ret e_bind move j (temp k) xs).
Proof.
  intros Hk. induction j as [|j IH]; intros xs Sx; cbn [adapt]; [now apply expectation_ret|].
  apply (expectation_bind moved); [now apply expectation_move|]. intros r [Sr _]. now apply IH.
Qed.
Lemma add_len a b : length a = K -> length b = K -> length (add_arrays a b) = K.
Proof. intros L M. unfold add_arrays. rewrite map_length, combine_length. lia. Qed.
Lemma sub_len a b : length a = K -> length b = K -> length (sub_arrays a b) = K.
Proof. intros L M. unfold sub_arrays. rewrite map_length, combine_length. lia. Qed.
Lemma expectation_anneal fuel : forall num xs lw, (num + fuel = n)%nat -> sized K xs -> length lw = K ->
  expectation (fun l => length l = K) (anneal e_ret e_bind move n fuel num xs lw).
Proof.
  induction fuel as [|fuel IH]; intros num xs lw N Sx L; cbn [anneal]; [now apply expectation_ret|].
  apply (expectation_bind moved); [apply expectation_move; [lia|easy]|].
  intros r (Sr & L1 & L2). apply IH; [lia|easy|].
  destruct (_ <? _)%nat; apply add_len; auto. now apply sub_len.
Qed.

(** The expected final weights are a sum over chains of a function of its state. *)
Definition per_chain (T : R) (h : X -> R) (p : R * X) (x' : X) : R := exp (fst p) * f T (snd p) * h x'.
Lemma weights_step T h lw : forall xs xs', length lw = length xs -> length xs' = length xs ->
  total (fun p => exp (fst p) * h (snd p))
    (combine (add_arrays lw (sub_arrays (map (lf T) xs) (map (lf T) xs'))) xs')
  = total (fun p => fst p (snd p))
    (combine (map (per_chain T (fun x => / f T x * h x)) (combine lw xs)) xs').
Proof.
  induction lw as [|w lw IH]; intros [|x xs] [|x' xs'] L L'; try discriminate; [easy|].
  unfold add_arrays, sub_arrays. cbn [map combine total fst snd]. unfold add_arrays, sub_arrays in IH.
  rewrite IH by (cbn in L, L'; lia). f_equal.
  unfold per_chain. cbn [fst snd]. replace (w + (lf T x - lf T x')) with (w + lf T x + - lf T x') by ring.
  rewrite !exp_plus, exp_Ropp. ring.
Qed.
Lemma weights_last T lw : forall xs, length lw = length xs ->
  total exp (add_arrays lw (map (lf T) xs)) = total (fun p => exp (fst p) * f T (snd p)) (combine lw xs).
Proof.
  induction lw as [|w lw IH]; intros [|x xs] L; try discriminate; [easy|].
  unfold add_arrays. cbn [map combine total fst snd]. unfold add_arrays in IH.
  rewrite IH by now injection L. now rewrite exp_plus.
Qed.
Lemma expect_chains (g : R * X -> X -> R) (k : X -> X -> R) lw : forall xs, length lw = length xs ->
  total (fun p => expect (snd p) Xs (fst p)) (combine (map g (combine lw xs)) (map k xs))
  = total (fun p => expect (k (snd p)) Xs (g p)) (combine lw xs).
Proof.
  induction lw as [|w lw IH]; intros [|x xs] L; try discriminate; [easy|].
  cbn [map combine total fst snd]. now rewrite IH by now injection L.
Qed.

Hypothesis last_temp : temp n = 1.
Lemma anneal_total fuel : forall num, (num + S fuel = n)%nat ->
  exists h, total h Xs = total (fun x => f 1 x) Xs /\
  forall xs lw, sized K xs -> length lw = K ->
    anneal e_ret e_bind move n (S fuel) num xs lw (fun l => total exp l)
    = total (fun p => exp (fst p) * h (snd p)) (combine lw xs).
Proof.
  induction fuel as [|fuel IH]; intros num N.
  - exists (fun x => f 1 x). split; [easy|]. intros xs lw Sx L. cbn [anneal].
    replace (num + 1)%nat with n by lia. replace (Nat.ltb n n) with false by (symmetry; apply Nat.ltb_irrefl).
    unfold e_bind, e_ret, SpecAIS.move. cbn [fst snd]. rewrite last_temp.
    rewrite weights_last by (destruct Sx; lia).
    destruct Sx as [Lx Ix].
    pose proof (kernels_ok n xs ltac:(lia) Ix) as Ok. rewrite last_temp in Ok.
    exact (expectation_const _ _ _ (expectation_independent _ Ok)).
  - destruct (IH (S num) ltac:(lia)) as [h [Th Ah]]. set (T := temp (num + 1)).
    exists (fun x => f T x * expect (kernel T x) Xs (fun x' => / f T x' * h x')). split.
    + rewrite <- Th. unfold expect.
      transitivity (total (fun x => total (fun y => / f T y * h y * (f T x * kernel T x y)) Xs) Xs).
      { apply total_ext. intros x Hx. rewrite <- total_scal. apply total_ext. intros; ring. }
      rewrite total_swap. apply total_ext. intros y Hy. rewrite total_scal.
      unfold T. rewrite inv by (easy || lia). fold T. pose proof (exp_pos (lf T y)). field. lra.
    + intros xs lw Sx L.
      change (anneal e_ret e_bind move n (S (S fuel)) num xs lw) with
        (e_bind _ _ (move T xs) (fun r => anneal e_ret e_bind move n (S fuel) (S num) (fst r)
          (if Nat.ltb (num + 1) n then add_arrays lw (sub_arrays (fst (snd r)) (snd (snd r)))
           else add_arrays lw (fst (snd r))))).
      replace (Nat.ltb (num + 1) n) with true by (symmetry; apply Nat.ltb_lt; lia).
      unfold e_bind at 1. unfold SpecAIS.move at 1. cbn [fst snd].
      destruct Sx as [Lx Ix].
      pose proof (kernels_ok (num + 1) xs ltac:(lia) Ix) as Ok. fold T in Ok.
      rewrite (expectation_ext _ _ _ (fun xs' => total (fun p => fst p (snd p))
        (combine (map (per_chain T (fun x => / f T x * h x)) (combine lw xs)) xs')) (expectation_independent _ Ok)).
      * rewrite independent_sum by (easy || (rewrite !map_length, combine_length; lia)).
        rewrite expect_chains by lia. apply total_ext. intros p _. unfold per_chain. rewrite expect_scal. ring.
      * intros xs' [Lx' Ix']. rewrite map_length in Lx'. rewrite Ah.
        -- apply weights_step; lia.
        -- split; [lia|easy].
        -- apply add_len; [easy|]. apply sub_len; rewrite map_length; lia.
Qed.
End Chains.
