(** Supporting lemmas about the HMC integrator. *)
From Coq Require Import List Arith Lia Bool Reals Lra ZArith FunctionalExtensionality FinFun.
From Verif Require Import ModelShape SpecShape ProofShape ModelTensor SpecTensor ProofTensor ModelExt ModelHMC SpecHMC.
Import ListNotations.
Local Open Scope R_scope.

Section Integrator.
Context {I : Type}.
Variables (grad : (I -> R) -> I -> R) (mass : I -> R).
Notation vec := (I -> R).

Definition kick (c : R) (x : vec * vec) : vec * vec := (fst x, fun i => snd x i + c * grad (fst x) i).
Definition drift (c : R) (x : vec * vec) : vec * vec := (fun i => fst x i + c * (snd x i / mass i), snd x).

Lemma integrator_kick_drift a b q p : leapfrog_integrator grad mass a b q p = kick b (drift a (q, p)).
Proof. reflexivity. Qed.
Lemma kdk_kick_drift eps x : kick_drift_kick grad mass eps x = kick (eps/2) (drift eps (kick (eps/2) x)).
Proof. destruct x. reflexivity. Qed.
Lemma kick_kick a b x : kick a (kick b x) = kick (b + a) x.
Proof. unfold kick. simpl. f_equal. extensionality i. ring. Qed.
Lemma drift_0 x : drift 0 x = x.
Proof. destruct x. unfold drift. simpl. f_equal. extensionality i. ring. Qed.

Lemma iter_comm {T} (f : T -> T) n x : Nat.iter n f (f x) = f (Nat.iter n f x).
Proof.
  induction n; [reflexivity|]. change (f (Nat.iter n f (f x)) = f (f (Nat.iter n f x))). now rewrite IHn.
Qed.
Lemma loop_S fuel n eps i x : leapfrog_loop grad mass (S fuel) n eps i x =
  if (i <? n + 1)%Z then leapfrog_loop grad mass fuel n eps (i + 1) (leapfrog_body grad mass n eps i (fst x) (snd x)) else x.
Proof. reflexivity. Qed.
Lemma loop_verlet n eps : (1 <= n)%Z -> forall k i fuel x, (1 <= i)%Z -> (i + Z.of_nat k = n)%Z -> fuel = S k ->
  leapfrog_loop grad mass fuel n eps i (kick (eps/2) x) = Nat.iter (S k) (kick_drift_kick grad mass eps) x.
Proof.
  intros Hn. induction k; intros i fuel x Hi Hk ->; rewrite loop_S.
  - destruct (Z.ltb_spec i (n + 1)); [|lia]. unfold leapfrog_body.
    destruct (Z.ltb_spec 0 i); [|lia]. destruct (Z.ltb_spec i n); [lia|]. cbn [andb].
    rewrite integrator_kick_drift, <- surjective_pairing. cbn. now rewrite kdk_kick_drift.
  - destruct (Z.ltb_spec i (n + 1)); [|lia]. unfold leapfrog_body.
    destruct (Z.ltb_spec 0 i); [|lia]. destruct (Z.ltb_spec i n); [|lia]. cbn [andb].
    rewrite integrator_kick_drift, <- surjective_pairing.
    replace (kick eps (drift eps (kick (eps / 2) x))) with (kick (eps/2) (kick_drift_kick grad mass eps x)).
    + rewrite (IHk (i + 1)%Z (S k)) by lia. 
      change (Nat.iter (S (S k)) (kick_drift_kick grad mass eps) x)
        with (kick_drift_kick grad mass eps (Nat.iter (S k) (kick_drift_kick grad mass eps) x)).
      apply iter_comm.
    + rewrite kdk_kick_drift, kick_kick. f_equal. lra.
Qed.

Lemma flip_flip (x : vec * vec) : flip (flip x) = x.
Proof. destruct x as [q p]. unfold flip. simpl. f_equal. extensionality i. ring. Qed.
Lemma kick_flip c x : kick c (flip (kick c x)) = flip x.
Proof. destruct x as [q p]. unfold kick, flip. simpl. f_equal. extensionality i. ring. Qed.
Lemma drift_flip c x : drift c (flip (drift c x)) = flip x.
Proof. destruct x as [q p]. unfold drift, flip. simpl. f_equal. extensionality i. unfold Rdiv. ring. Qed.
Lemma kdk_flip eps x : kick_drift_kick grad mass eps (flip (kick_drift_kick grad mass eps x)) = flip x.
Proof.
  rewrite !kdk_kick_drift, kick_flip.
  set (y := kick (eps/2) x). rewrite drift_flip. apply kick_flip.
Qed.
Lemma iter_flip eps n x :
  Nat.iter n (kick_drift_kick grad mass eps) (flip (Nat.iter n (kick_drift_kick grad mass eps) x)) = flip x.
Proof.
  revert x. induction n; intros x; [reflexivity|].
  change (Nat.iter (S n) (kick_drift_kick grad mass eps) x) with
    (kick_drift_kick grad mass eps (Nat.iter n (kick_drift_kick grad mass eps) x)).
  change (Nat.iter (S n) (kick_drift_kick grad mass eps) (flip (kick_drift_kick grad mass eps (Nat.iter n (kick_drift_kick grad mass eps) x))))
    with (kick_drift_kick grad mass eps (Nat.iter n (kick_drift_kick grad mass eps) (flip (kick_drift_kick grad mass eps (Nat.iter n (kick_drift_kick grad mass eps) x))))).
  rewrite <- iter_comm, kdk_flip. apply IHn.
Qed.
Lemma leapfrog_0 eps q p : leapfrog grad mass 0 eps q p = kick (eps/2) (q, p).
Proof.
  unfold leapfrog. change (Z.to_nat (0 + 1)) with 1%nat. rewrite loop_S. unfold leapfrog_body.
  cbn [Z.ltb Z.compare Z.add andb leapfrog_loop]. rewrite integrator_kick_drift, <- surjective_pairing.
  now rewrite drift_0.
Qed.
Lemma leapfrog_neg n eps q p : (n < 0)%Z -> leapfrog grad mass n eps q p = (q, p).
Proof. intros H. unfold leapfrog. replace (Z.to_nat (n + 1)) with 0%nat by lia. reflexivity. Qed.
Lemma leapfrog_S n eps q p :
  leapfrog grad mass (Z.of_nat (S n)) eps q p = Nat.iter (S n) (kick_drift_kick grad mass eps) (q, p).
Proof.
  unfold leapfrog. replace (Z.to_nat (Z.of_nat (S n) + 1)) with (S (S n)) by lia.
  rewrite loop_S. destruct (Z.ltb_spec 0 (Z.of_nat (S n) + 1)); [|lia].
  unfold leapfrog_body. cbn [Z.ltb Z.compare]. rewrite andb_false_r.
  rewrite integrator_kick_drift. cbn [fst snd]. rewrite drift_0.
  apply loop_verlet; lia.
Qed.
End Integrator.

(** ** Selecting samples per chain *)
Lemma expand_n_shape {A} n : forall t : tensor A, t_shape (expand_n n t) = t_shape t ++ repeat 1%nat n.
Proof.
  induction n; intros t; cbn [expand_n repeat]; [now rewrite app_nil_r|].
  rewrite IHn. cbn [t_shape]. now rewrite <- app_assoc.
Qed.
Lemma expand_n_at {A} d : forall (t : tensor A) c, t_at (expand_n (length d) t) (c ++ d) = t_at t c.
Proof.
  induction d as [|a d IH] using rev_ind; intros t c; [cbn; now rewrite app_nil_r|].
  rewrite app_length, Nat.add_1_r. cbn [expand_n].
  assert (G : forall n (t : tensor A) c, t_at (expand_n n (Tensor (t_shape t ++ [1%nat]) (fun i => t_at t (removelast i)))) c
             = t_at (expand_n n t) (removelast c)).
  { clear. induction n; intros t c; [reflexivity|]. cbn [expand_n]. rewrite IHn.
    rewrite IHn. reflexivity. }
  rewrite G, app_assoc, removelast_last. apply IH.
Qed.
Lemma fits_ones (s ds : shape) : fits (s ++ repeat 1%nat (length ds)) (s ++ ds).
Proof.
  apply fits_intro; [rewrite !app_length, repeat_length; lia|]. intros k. unfold dim.
  rewrite !rev_app_distr. destruct (Nat.lt_ge_cases k (length ds)) as [L|L].
  - left. rewrite app_nth1 by (rewrite rev_length, repeat_length; lia).
    assert (N : nth k (rev (repeat 1%nat (length ds))) 1%nat = 1%nat).
    { destruct (nth_in_or_default k (rev (repeat 1%nat (length ds))) 1%nat) as [H|H]; [|assumption].
      apply in_rev, repeat_spec in H. exact H. }
    exact N.
  - right. rewrite !app_nth2 by (rewrite rev_length, ?repeat_length; lia). now rewrite !rev_length, repeat_length.
Qed.
Lemma bindex_ones (s ds c d : list nat) : valid s c -> length d = length ds ->
  exists z, bindex (s ++ repeat 1%nat (length ds)) (c ++ d) = c ++ z /\ length z = length ds.
Proof.
  intros V L. unfold bindex. rewrite !app_length, repeat_length.
  replace (length c + length d - (length s + length ds))%nat with 0%nat by (destruct V; lia). cbn [skipn].
  assert (E : map (fun p => if Nat.eqb (fst p) 1 then 0%nat else snd p) (combine s c) = c).
  { pose proof (bindex_self s c V) as B. unfold bindex in B. destruct V as [V _]. rewrite V, Nat.sub_diag in B. exact B. }
  exists (map (fun p => if Nat.eqb (fst p) 1 then 0%nat else snd p) (combine (repeat 1%nat (length ds)) d)).
  split; [|rewrite map_length, combine_length, repeat_length; lia].
  transitivity (map (fun p => if Nat.eqb (fst p) 1 then 0%nat else snd p) (combine s c) ++ map (fun p => if Nat.eqb (fst p) 1 then 0%nat else snd p) (combine (repeat 1%nat (length ds)) d)); [|now rewrite E].
  rewrite <- map_app. f_equal. destruct V as [V _]. clear - V.
  revert c V. induction s as [|a s IH]; intros [|b c] V; try discriminate; cbn; [reflexivity|].
  f_equal. apply IH. now injection V.
Qed.
Lemma valid_app (s ds c d : list nat) : valid s c -> valid ds d -> valid (s ++ ds) (c ++ d).
Proof.
  rewrite !valid_Forall2. apply Forall2_app.
Qed.
Lemma select_latent_at acc chain ds nq oq : t_shape acc = chain -> t_shape nq = chain ++ ds ->
  exists t, select_latent acc ds nq oq = Some t /\ t_shape t = chain ++ ds /\
    forall c d, valid chain c -> valid ds d -> t_at t (c ++ d) = if t_at acc c then t_at nq (c ++ d) else t_at oq (c ++ d).
Proof.
  intros Sa Sn. unfold select_latent, elementwise. rewrite expand_n_shape, Sa. cbn [t_shape ones_like]. rewrite Sn.
  pose proof (fits_ones chain ds) as F. unfold fits in F. rewrite F. eexists. split; [reflexivity|].
  split; [reflexivity|]. intros c d Vc Vd. cbn [t_at].
  destruct (bindex_ones chain ds c d Vc) as [z [E Lz]]; [apply Vd|]. rewrite E, andb_true_r.
  rewrite <- Lz, expand_n_at. reflexivity.
Qed.
Lemma nodup_app {X} (a b : list X) : NoDup a -> NoDup b -> (forall x, In x a -> ~ In x b) -> NoDup (a ++ b).
Proof.
  intros Na Nb D. induction Na as [|x a Hx Na IH]; simpl; auto. constructor.
  - rewrite in_app_iff. intros [H|H]; auto. apply (D x); simpl; auto.
  - apply IH. intros y Hy. apply D. simpl; auto.
Qed.
Lemma nodup_indices s : NoDup (indices s).
Proof.
  induction s as [|a s IH]; [repeat constructor; intros []|]. cbn [indices]. generalize 0%nat as b.
  induction a as [|a IHa]; intros b; [constructor|]. cbn [seq flat_map]. apply nodup_app.
  - apply FinFun.Injective_map_NoDup; [intros x y E; now injection E|exact IH].
  - apply IHa.
  - intros x I1 I2. apply in_map_iff in I1. destruct I1 as [y [<- _]]. apply in_flat_map in I2.
    destruct I2 as [j [J I2]]. apply in_map_iff in I2. destruct I2 as [z [E _]]. injection E as -> _. apply in_seq in J. lia.
Qed.
Lemma indices_valid s c : In c (indices s) <-> valid s c.
Proof.
  revert c. induction s as [|n s IH]; intros c; cbn [indices].
  - split.
    + intros [<-|[]]. split; [reflexivity|]. cbn. intros; lia.
    + intros [L _]. destruct c; [left; reflexivity|discriminate].
  - rewrite in_flat_map. split.
    + intros [k [Hk H]]. apply in_map_iff in H. destruct H as [c' [<- H]]. apply in_seq in Hk.
      apply valid_cons. split; [lia|]. now apply IH.
    + destruct c as [|k c]; [intros [L _]; discriminate|]. intros V. apply valid_cons in V. destruct V as [Hk V].
      exists k. split; [apply in_seq; lia|]. apply in_map, IH, V.
Qed.

