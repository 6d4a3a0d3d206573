(** The HMC proposal preserves volume in phase space. *)
From Coq Require Import List Reals Lra Lia ZArith Permutation FunctionalExtensionality.
From Coquelicot Require Import Coquelicot.
From Verif Require Import ModelHMC SpecHMC ProofHMC SpecDensity SpecVolume ProofVolume ProofChange SpecInvariance ProofMassChol.
Import ListNotations.
Local Open Scope R_scope.

Section Phase.
Context {I : Type} (dec : forall i j : I, {i = j} + {i <> j}).
Context (L : list I) (L_once : NoDup L) (L_all : forall i, In i L).
Notation J := (I + I)%type.
Notation decJ := (dec2 dec).
Notation LJ := (both L).
Implicit Types (x y : J -> R).

Lemma inl_once : NoDup (map (@inl I I) L).
Proof. apply FinFun.Injective_map_NoDup; [intros a b E; now injection E|exact L_once]. Qed.
Lemma inr_once : NoDup (map (@inr I I) L).
Proof. apply FinFun.Injective_map_NoDup; [intros a b E; now injection E|exact L_once]. Qed.
Lemma both_once : NoDup LJ.
Proof.
  unfold both. pose proof inl_once as A. pose proof inr_once as B.
  assert (D : forall a, In a (map (@inl I I) L) -> ~ In a (map (@inr I I) L)).
  { intros a Ha Hb. apply in_map_iff in Ha, Hb. destruct Ha as (i & <- & _). destruct Hb as (j & E & _). discriminate. }
  revert A D. generalize (map (@inl I I) L). intros l. induction l as [|a l IH]; intros A D; [exact B|]. inversion A; subst. cbn. constructor.
  - rewrite in_app_iff. intros [H|H]; [contradiction|]. apply (D a); [now left|exact H].
  - apply IH; [assumption|]. intros b Hb. apply D. now right.
Qed.
Lemma both_all j : In j LJ.
Proof. unfold both. apply in_or_app. destruct j as [i|i]; [left|right]; now apply in_map. Qed.
Hint Resolve both_once both_all inl_once inr_once : core.

Definition pair_of x : (I -> R) * (I -> R) := (first_half x, second_half x).
Definition join (s : (I -> R) * (I -> R)) : J -> R := fun j => match j with inl i => fst s i | inr i => snd s i end.
Definition lift (S : (I -> R) * (I -> R) -> (I -> R) * (I -> R)) x : J -> R := join (S (pair_of x)).
Lemma join_pair x : join (pair_of x) = x.
Proof. extensionality j. now destruct j. Qed.
Lemma pair_join s : pair_of (join s) = s.
Proof. now destruct s. Qed.
Lemma lift_comp S S' x : lift S' (lift S x) = lift (fun s => S' (S s)) x.
Proof. unfold lift. now rewrite pair_join. Qed.

Lemma cont_first (f : (I -> R) -> R) : cont f -> cont (fun x => f (first_half x)).
Proof. intros C x e E. destruct (C (first_half x) e E) as (d & D & H). exists d. split; [exact D|]. intros y Y. apply H. intros j. apply Y. Qed.
Lemma cont_second (f : (I -> R) -> R) : cont f -> cont (fun x => f (second_half x)).
Proof. intros C x e E. destruct (C (second_half x) e E) as (d & D & H). exists d. split; [exact D|]. intros y Y. apply H. intros j. apply Y. Qed.

Notation moves := (moves decJ LJ).
Lemma moves_comp_one T1 T2 : moves T1 (fun _ => 1) -> moves T2 (fun _ => 1) -> moves (fun x => T2 (T1 x)) (fun _ => 1).
Proof.
  intros M1 M2. eapply moves_ext; [| |apply (moves_comp decJ LJ both_all _ _ _ _ M1 M2)]; [reflexivity|]. intros x. cbv beta. ring.
Qed.

Lemma earlier_outside {K : Type} (deck : forall i j : K, {i = j} + {i <> j}) (a : K -> (K -> R) -> R) (l : list K) :
  (forall i (x y : K -> R), In i l -> (forall j, ~ In j l -> x j = y j) -> a i x = a i y) -> earlier_only a l.
Proof.
  intros H. assert (G : forall l', incl l' l -> earlier_only a l').
  { induction l' as [|i l' IH]; intros Inc; [exact Logic.I|]. split; [|apply IH; intros j Hj; apply Inc; now right].
    intros x y E. apply H; [apply Inc; now left|]. intros j Hj. apply E. intros Q. apply Hj. now apply Inc. }
  apply G, incl_refl.
Qed.
(** Change every second-half coordinate, with coefficients that depend on the first
    half only, and conversely. *)
Lemma moves_second (a : I -> R) (c : (I -> R) -> I -> R) : (forall i, a i <> 0) -> (forall i, cont (fun q => c q i)) ->
  moves (lift (fun s => (fst s, fun i => a i * snd s i + c (fst s) i))) (fun _ => prodf L (fun i => Rabs (a i))).
Proof.
  intros Na Cc.
  pose (A := fun (j : J) (_ : J -> R) => match j with inr i => a i | inl _ => 1 end).
  pose (C := fun (j : J) (x : J -> R) => match j with inr i => c (first_half x) i | inl _ => 0 end).
  eapply moves_ext; [| |apply (moves_triangular decJ LJ both_once both_all A C (map inr L))]; auto.
  - intros x. extensionality j. unfold triangular. destruct (in_dec decJ j (map inr L)) as [H|H].
    + apply in_map_iff in H. destruct H as (i & <- & _). reflexivity.
    + destruct j as [i|i]; [reflexivity|]. destruct H. now apply in_map.
  - intros x. unfold prodf. now rewrite map_map.
  - intros j _. destruct j; apply cont_const.
  - intros j H. apply in_map_iff in H. destruct H as (i & <- & _). apply (cont_first (fun q => c q i)), Cc.
  - intros j x _. destruct j as [i|i]; cbn; [lra|apply Na].
  - apply (earlier_outside decJ). reflexivity.
  - apply (earlier_outside decJ). intros j x y H E. apply in_map_iff in H. destruct H as (i & <- & _). cbn.
    replace (first_half y) with (first_half x); [reflexivity|]. extensionality k. apply E. intros Q. apply in_map_iff in Q. destruct Q as (k' & D & _). discriminate.
Qed.
Lemma moves_first (a : I -> R) (c : (I -> R) -> I -> R) : (forall i, a i <> 0) -> (forall i, cont (fun q => c q i)) ->
  moves (lift (fun s => (fun i => a i * fst s i + c (snd s) i, snd s))) (fun _ => prodf L (fun i => Rabs (a i))).
Proof.
  intros Na Cc.
  pose (A := fun (j : J) (_ : J -> R) => match j with inl i => a i | inr _ => 1 end).
  pose (C := fun (j : J) (x : J -> R) => match j with inl i => c (second_half x) i | inr _ => 0 end).
  eapply moves_ext; [| |apply (moves_triangular decJ LJ both_once both_all A C (map inl L))]; auto.
  - intros x. extensionality j. unfold triangular. destruct (in_dec decJ j (map inl L)) as [H|H].
    + apply in_map_iff in H. destruct H as (i & <- & _). reflexivity.
    + destruct j as [i|i]; [|reflexivity]. destruct H. now apply in_map.
  - intros x. unfold prodf. now rewrite map_map.
  - intros j _. destruct j; apply cont_const.
  - intros j H. apply in_map_iff in H. destruct H as (i & <- & _). apply (cont_second (fun q => c q i)), Cc.
  - intros j x _. destruct j as [i|i]; cbn; [apply Na|lra].
  - apply (earlier_outside decJ). reflexivity.
  - apply (earlier_outside decJ). intros j x y H E. apply in_map_iff in H. destruct H as (i & <- & _). cbn.
    replace (second_half y) with (second_half x); [reflexivity|]. extensionality k. apply E. intros Q. apply in_map_iff in Q. destruct Q as (k' & D & _). discriminate.
Qed.
Lemma prodf_abs_one (a : I -> R) : (forall i, Rabs (a i) = 1) -> prodf L (fun i => Rabs (a i)) = 1.
Proof. intros H. apply prodf_one. auto. Qed.

Context (mass : I -> R) (grad : (I -> R) -> I -> R).
Hypothesis mass_pos : forall i, 0 < mass i.
Hypothesis grad_cont : forall i, cont (fun q => grad q i).

Lemma moves_kick s : moves (lift (kick grad s)) (fun _ => 1).
Proof.
  eapply moves_ext; [| |apply (moves_second (fun _ => 1) (fun q i => s * grad q i))]; [|intros x; apply prodf_abs_one; intros; apply Rabs_R1|intros; lra|].
  - intros x. unfold lift, kick. extensionality j. destruct j as [i|i]; cbn; ring.
  - intros i. apply cont_mult; [apply cont_const|apply grad_cont].
Qed.
Lemma moves_drift s : moves (lift (drift mass s)) (fun _ => 1).
Proof.
  eapply moves_ext; [| |apply (moves_first (fun _ => 1) (fun p i => s * (p i / mass i)))]; [|intros x; apply prodf_abs_one; intros; apply Rabs_R1|intros; lra|].
  - intros x. unfold lift, drift. extensionality j. destruct j as [i|i]; cbn; ring.
  - intros i. unfold Rdiv. apply cont_mult; [apply cont_const|]. apply cont_mult; [apply cont_coord|apply cont_const].
Qed.
Lemma moves_flip : moves (lift flip) (fun _ => 1).
Proof.
  eapply moves_ext; [| |apply (moves_second (fun _ => -1) (fun _ _ => 0))]; [|intros x; apply prodf_abs_one; intros; rewrite Rabs_left; lra|intros; lra|intros; apply cont_const].
  intros x. unfold lift, flip. extensionality j. destruct j as [i|i]; cbn; ring.
Qed.
Lemma moves_kdk eps : moves (lift (kick_drift_kick grad mass eps)) (fun _ => 1).
Proof.
  eapply moves_ext; [| |apply (moves_comp_one _ _ (moves_comp_one _ _ (moves_kick (eps/2)) (moves_drift eps)) (moves_kick (eps/2)))]; [|reflexivity].
  intros x. cbv beta. rewrite !lift_comp. unfold lift. now rewrite kdk_kick_drift.
Qed.
Lemma moves_iter eps n : moves (lift (Nat.iter n (kick_drift_kick grad mass eps))) (fun _ => 1).
Proof.
  induction n as [|n IH].
  - eapply moves_ext; [| |apply (moves_id decJ LJ)]; [|reflexivity]. intros x. symmetry. apply join_pair.
  - eapply moves_ext; [| |apply (moves_comp_one _ _ IH (moves_kdk eps))]; [|reflexivity]. intros x. cbv beta. now rewrite lift_comp.
Qed.
Lemma moves_leapfrog eps n : (0 <= n)%Z -> moves (lift (fun s => leapfrog grad mass n eps (fst s) (snd s))) (fun _ => 1).
Proof.
  intros Hn. destruct (Z.to_nat n) as [|k] eqn:K.
  - eapply moves_ext; [| |apply (moves_kick (eps/2))]; [|reflexivity]. intros x. unfold lift. replace n with 0%Z by lia. now rewrite leapfrog_0.
  - eapply moves_ext; [| |apply (moves_iter eps (S k))]; [|reflexivity]. intros x. unfold lift. replace n with (Z.of_nat (S k)) by lia. now rewrite leapfrog_S.
Qed.

(** Integrals of products over the two halves. *)
Lemma cube_inl B (l : list I) (f : (I -> R) -> R) : forall x, cube_integral decJ B (map inl l) (fun x => f (first_half x)) x = cube_integral dec B l f (first_half x).
Proof.
  induction l as [|i l IH]; intros x; [reflexivity|]. cbn [map cube_integral]. apply RInt_ext. intros t _. rewrite IH. f_equal.
  extensionality k. unfold first_half, upd. destruct (decJ (inl i) (inl k)) as [E|E], (dec i k) as [E'|E']; congruence.
Qed.
Lemma cube_inr B (l : list I) (f : (I -> R) -> R) : forall x, cube_integral decJ B (map inr l) (fun x => f (second_half x)) x = cube_integral dec B l f (second_half x).
Proof.
  induction l as [|i l IH]; intros x; [reflexivity|]. cbn [map cube_integral]. apply RInt_ext. intros t _. rewrite IH. f_equal.
  extensionality k. unfold second_half, upd. destruct (decJ (inr i) (inr k)) as [E|E], (dec i k) as [E'|E']; congruence.
Qed.
Lemma cube_const B (f : (I -> R) -> R) q : 0 <= B -> cont f -> cube_integral dec B L f q = cube_integral dec B L f (fun _ => 0).
Proof.
  intros Hb C.
  assert (H : forall l q', (forall i, ~ In i l -> q' i = q i) -> incl l L -> cube_integral dec B L f q' = cube_integral dec B L f q).
  { induction l as [|i l IH]; intros q' E Inc; [f_equal; extensionality i; apply E; intros []|].
    rewrite <- (cube_indep dec B L f q' i (q i) (L_all i)). apply IH; [|intros j Hj; apply Inc; now right].
    intros j Hj. destruct (dec i j) as [<-|N]; [now rewrite upd_same|]. rewrite upd_other by exact N. apply E. intros [Q|Q]; contradiction. }
  symmetry. apply (H L); [|apply incl_refl]. intros i Hi. destruct (Hi (L_all i)).
Qed.
Lemma cube_product B (f g : (I -> R) -> R) : 0 <= B -> cont f -> cont g ->
  cube_integral decJ B LJ (fun x => f (first_half x) * g (second_half x)) (fun _ => 0) =
  cube_integral dec B L f (fun _ => 0) * cube_integral dec B L g (fun _ => 0).
Proof.
  intros Hb Cf Cg. unfold both. rewrite cube_app.
  assert (E : forall x, cube_integral decJ B (map inr L) (fun x => f (first_half x) * g (second_half x)) x =
    cube_integral dec B L g (fun _ => 0) * f (first_half x)).
  { intros x. rewrite <- (cube_const B g (second_half x) Hb Cg), <- cube_inr, Rmult_comm.
    rewrite <- (cube_scal decJ B (map inr L) (fun x => g (second_half x)) (f (first_half x)) Hb (cont_second g Cg)).
    apply cube_ext; [exact Hb|]. intros y _ Y. do 2 f_equal. extensionality i. apply Y. intros H. apply in_map_iff in H. destruct H as (k & D & _). discriminate. }
  rewrite (cube_ext decJ B (map inl L) _ _ Hb _ (fun y _ _ => E y)).
  rewrite cube_scal by (auto using cont_first). rewrite (cube_inl B L f). apply Rmult_comm.
Qed.
Lemma total_product (f g : (I -> R) -> R) v w : cont f -> cont g -> (forall q, 0 <= f q) -> (forall q, 0 <= g q) ->
  total dec L f v -> total dec L g w -> total decJ LJ (fun x => f (first_half x) * g (second_half x)) (v * w).
Proof.
  intros Cf Cg Pf Pg (Uf & Lf) (Ug & Lg).
  assert (Nf : forall B, 0 <= B -> 0 <= cube_integral dec B L f (fun _ => 0)) by (intros; now apply cube_pos).
  assert (Ng : forall B, 0 <= B -> 0 <= cube_integral dec B L g (fun _ => 0)) by (intros; now apply cube_pos).
  assert (V : 0 <= v) by (eapply Rle_trans; [apply (Nf 0); lra|apply Uf; exists 0; split; [lra|reflexivity]]).
  split.
  - intros m (B & Hb & ->). rewrite cube_product by assumption. apply Rmult_le_compat; auto; [apply Uf|apply Ug]; eauto.
  - intros b Ub.
    assert (Q : forall B B', 0 <= B -> 0 <= B' -> cube_integral dec B L f (fun _ => 0) * cube_integral dec B' L g (fun _ => 0) <= b).
    { intros B B' Hb Hb'. assert (Hm : 0 <= Rmax B B') by (apply Rle_trans with B; [exact Hb|apply Rmax_l]).
      apply Rle_trans with (cube_integral decJ (Rmax B B') LJ (fun x => f (first_half x) * g (second_half x)) (fun _ => 0)); [|apply Ub; eauto].
      rewrite cube_product by assumption. apply Rmult_le_compat; auto; apply cube_grow; auto; [apply Rmax_l|apply Rmax_r]. }
    assert (Hb0 : 0 <= b) by (eapply Rle_trans; [|apply (Q 0 0); lra]; apply Rmult_le_pos; auto with real).
    assert (P : forall B', 0 <= B' -> v * cube_integral dec B' L g (fun _ => 0) <= b).
    { intros B' Hb'. destruct (Ng B' Hb') as [N|N]; [|rewrite <- N; lra].
      apply Rmult_le_reg_r with (/ cube_integral dec B' L g (fun _ => 0)); [now apply Rinv_0_lt_compat|].
      rewrite Rmult_assoc, Rinv_r, Rmult_1_r by lra. apply Lf. intros m (B & Hb & ->).
      apply Rmult_le_reg_r with (cube_integral dec B' L g (fun _ => 0)); [exact N|]. rewrite (Rmult_assoc b), Rinv_l, Rmult_1_r by lra. auto. }
    destruct V as [V|V]; [|rewrite <- V; lra].
    apply Rmult_le_reg_l with (/ v); [now apply Rinv_0_lt_compat|]. rewrite <- Rmult_assoc, Rinv_l, Rmult_1_l by lra.
    apply Lg. intros m (B' & Hb' & ->). apply Rmult_le_reg_l with v; [exact V|]. rewrite <- Rmult_assoc, Rinv_r, Rmult_1_l by lra. auto.
Qed.

(** Standard normal noise. *)
Lemma cont_standard_normal t : continuous standard_normal t.
Proof.
  unfold standard_normal. apply (ex_derive_continuous (V := R_NormedModule)). auto_derive. exact Logic.I.
Qed.
Lemma cont_noise (l : list I) : cont (noise_density l).
Proof. apply (cont_prod l (fun i z => standard_normal (z i))). intros i _. apply (cont_fun standard_normal (fun z => z i)); [apply cont_standard_normal|apply cont_coord]. Qed.
Lemma standard_normal_pos t : 0 < standard_normal t.
Proof. unfold standard_normal. apply Rmult_lt_0_compat; [|apply exp_pos]. apply Rinv_0_lt_compat, sqrt_lt_R0. pose proof PI_RGT_0. lra. Qed.
Lemma noise_pos (l : list I) z : 0 < noise_density l z.
Proof. unfold noise_density. induction l; cbn [map fold_right]; [lra|]. apply Rmult_lt_0_compat; [apply standard_normal_pos|assumption]. Qed.
Definition normal_within (B : R) : R := RInt standard_normal (- B) B.
Lemma normal_int a b : ex_RInt standard_normal a b.
Proof. apply (ex_RInt_continuous (V := R_CompleteNormedModule)). intros; apply cont_standard_normal. Qed.
Lemma normal_within_pos B : 0 <= B -> 0 <= normal_within B.
Proof. intros Hb. apply RInt_ge_0; [lra|apply normal_int|]. intros t _. left. apply standard_normal_pos. Qed.
Lemma normal_within_grow B B' : 0 <= B -> B <= B' -> normal_within B <= normal_within B'.
Proof.
  intros Hb Le. unfold normal_within. rewrite <- (RInt_Chasles standard_normal (- B') (- B) B'), <- (RInt_Chasles standard_normal (- B) B B') by apply normal_int.
  change (RInt standard_normal (- B) B <= RInt standard_normal (- B') (- B) + (RInt standard_normal (- B) B + RInt standard_normal B B')).
  assert (0 <= RInt standard_normal (- B') (- B)) by (apply RInt_ge_0; [lra|apply normal_int|intros t _; left; apply standard_normal_pos]).
  assert (0 <= RInt standard_normal B B') by (apply RInt_ge_0; [lra|apply normal_int|intros t _; left; apply standard_normal_pos]). lra.
Qed.
Lemma normal_within_lim e : 0 < e -> exists B0, 0 <= B0 /\ forall B, B0 <= B -> Rabs (normal_within B - 1) < e.
Proof.
  intros E. pose proof standard_normal_total as T. unfold SpecDensity.mass, is_RInt_gen in T.
  destruct (T _ (locally_ball 1 (mkposreal e E))) as [P Q HP HQ H]. destruct HP as (M & HM). destruct HQ as (N & HN).
  assert (0 <= Rmax 0 (Rmax (- M) N)) by apply Rmax_l.
  assert (Rmax (- M) N <= Rmax 0 (Rmax (- M) N)) by apply Rmax_r.
  assert (- M <= Rmax (- M) N) by apply Rmax_l. assert (N <= Rmax (- M) N) by apply Rmax_r.
  exists (Rmax 0 (Rmax (- M) N) + 1). split; [lra|]. intros B Hb.
  destruct (H (- B) B) as (y & Hy & Yb); [apply HM; lra|apply HN; lra|].
  unfold normal_within. cbn [fst snd] in Hy. rewrite (is_RInt_unique _ _ _ _ Hy). exact Yb.
Qed.
Lemma cube_noise B (l : list I) : NoDup l -> 0 <= B -> forall z, cube_integral dec B l (noise_density l) z = normal_within B ^ length l.
Proof.
  intros Nd Hb. induction l as [|i l IH]; intros z; [reflexivity|]. inversion Nd; subst. cbn [cube_integral length pow].
  transitivity (RInt (fun t => normal_within B ^ length l * standard_normal t) (- B) B).
  - apply RInt_ext. intros t _. rewrite Rmult_comm, <- (IH H2 (upd dec z i t)), <- (cube_scal dec B l (noise_density l) (standard_normal t) Hb (cont_noise l)).
    apply cube_ext; [exact Hb|]. intros y _ Y. unfold noise_density at 1. cbn [map fold_right]. rewrite Y by assumption. now rewrite upd_same.
  - rewrite (RInt_scal (V := R_CompleteNormedModule)) by apply normal_int. apply Rmult_comm.
Qed.
Lemma normal_within_le B : 0 <= B -> normal_within B <= 1.
Proof.
  intros Hb. destruct (Rle_dec (normal_within B) 1) as [?|N]; [assumption|]. exfalso.
  destruct (normal_within_lim (normal_within B - 1)) as (B0 & Hb0 & C); [lra|].
  pose proof (normal_within_grow B (Rmax B B0) Hb (Rmax_l _ _)) as G. specialize (C (Rmax B B0) (Rmax_r _ _)).
  pose proof (Rle_abs (normal_within (Rmax B B0) - 1)). lra.
Qed.
Lemma bernoulli e n : 0 <= e <= 1 -> 1 - INR n * e <= (1 - e) ^ n.
Proof.
  intros E. induction n as [|n IH]; [cbn; lra|]. rewrite S_INR. cbn [pow].
  assert (0 <= INR n) by apply pos_INR. apply Rle_trans with ((1 - e) * (1 - INR n * e)); [nra|]. apply Rmult_le_compat_l; lra.
Qed.
Lemma total_noise : total dec L (noise_density L) 1.
Proof.
  split.
  - intros m (B & Hb & ->). rewrite cube_noise by auto. replace 1 with (1 ^ length L) by apply pow1. apply pow_incr. split; [now apply normal_within_pos|now apply normal_within_le].
  - intros b Ub. destruct (Rle_dec 1 b) as [?|N]; [assumption|]. exfalso.
    set (n := length L) in *. assert (0 <= INR n) by apply pos_INR.
    assert (Ub' : forall B, 0 <= B -> normal_within B ^ n <= b).
    { intros B Hb. pose proof (cube_noise B L L_once Hb (fun _ => 0)) as Q. fold n in Q. rewrite <- Q. apply Ub. eauto. }
    assert (0 <= b) by (eapply Rle_trans; [|apply (Ub' 0); lra]; apply pow_le, normal_within_pos; lra).
    set (e := (1 - b) / (INR n + 1)). assert (0 < INR n + 1) by lra.
    assert (E : (INR n + 1) * e = 1 - b) by (unfold e; field; lra).
    assert (0 < e) by (unfold e; apply Rdiv_lt_0_compat; lra).
    destruct (normal_within_lim e) as (B0 & Hb0 & C); [assumption|]. specialize (C B0 (Rle_refl _)).
    pose proof (bernoulli e n) as Bn. specialize (Ub' B0 Hb0).
    assert (K : 1 - e <= normal_within B0) by (apply Rabs_def2 in C; lra).
    assert ((1 - e) ^ n <= normal_within B0 ^ n) by (apply pow_incr; nra). nra.
Qed.
End Phase.
