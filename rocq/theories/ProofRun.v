(** One HMC transition keeps integrals over the position and over other coordinates. *)
From Coq Require Import List Reals Lra Lia ZArith Permutation FunctionalExtensionality.
From Coquelicot Require Import Coquelicot.
From Verif Require Import ModelHMC SpecHMC ProofHMC PropMetropolis SpecDensity SpecVolume ProofVolume ProofChange SpecInvariance ProofPhase PropInvariance SpecRun ProofPart.
Import ListNotations.
Local Open Scope R_scope.

Lemma sum_once {A B} (l : list A) (l' : list B) : NoDup l -> NoDup l' -> NoDup (map inl l ++ map inr l').
Proof.
  intros Nl Nl'. induction l as [|a l IH].
  - cbn. apply FinFun.Injective_map_NoDup; [intros b c E; now injection E|exact Nl'].
  - inversion Nl; subst. cbn. constructor; [|now apply IH]. rewrite in_app_iff. intros [H|H].
    + apply in_map_iff in H. destruct H as (a' & E & H). injection E as ->. contradiction.
    + apply in_map_iff in H. destruct H as (b & E & _). discriminate.
Qed.
Lemma sum_all {A B} (l : list A) (l' : list B) : (forall a, In a l) -> (forall b, In b l') -> forall c, In c (map inl l ++ map inr l').
Proof. intros Hl Hl' [a|b]; apply in_or_app; [left|right]; now apply in_map. Qed.
Lemma noise_app {A} (l l' : list A) z : noise_density (l ++ l') z = noise_density l z * noise_density l' z.
Proof. unfold noise_density. induction l as [|a l IH]; cbn [app map fold_right]; [ring|]. rewrite IH. ring. Qed.
Lemma noise_map {A B} (e : A -> B) l z : noise_density (map e l) z = noise_density l (fun i => z (e i)).
Proof. unfold noise_density. now rewrite map_map. Qed.

Lemma swap_factors a b c d : a * b * d * c = a * c * b * d.
Proof. ring. Qed.
Lemma with_factor a b c a' b' c' d : a * b * c = a' * b' * c' -> a * b * d * c = a' * b' * d * c'.
Proof. intros E. rewrite (swap_factors a b c d), (swap_factors a' b' c' d). replace (a * c * b * d) with (a * b * c * d) by ring. rewrite E. ring. Qed.

Section Transition.
Context {I K : Type} (dec : forall i j : I, {i = j} + {i <> j}) (decK : forall i j : K, {i = j} + {i <> j}).
Context (L : list I) (LK : list K) (mass : I -> R) (log_density : (I -> R) -> R) (grad : (I -> R) -> I -> R) (n : Z) (eps : R).
Hypothesis L_once : NoDup L.
Hypothesis L_all : forall i, In i L.
Hypothesis LK_once : NoDup LK.
Hypothesis LK_all : forall i, In i LK.
Hypothesis mass_pos : forall i, 0 < mass i.
Hypothesis n_nonneg : (0 <= n)%Z.
Hypothesis density_cont : cont log_density.
Hypothesis grad_cont : forall i, cont (fun q => grad q i).

(** The rate and the proposal, as functions of the position and the noise. *)
Definition rate_of (q z : I -> R) : R := step_rate L mass log_density grad n eps (q, fun i => z i * sqrt (mass i)).
Definition proposed (q z : I -> R) : I -> R := fst (leapfrog grad mass n eps q (fun i => z i * sqrt (mass i))).
Lemma rate_of_range q z : 0 <= rate_of q z <= 1.
Proof. exact (rate_range L mass log_density grad n eps mass_pos (join (q, fun i => z i * sqrt (mass i)))). Qed.
Lemma next_mean (h : (I -> R) -> R) q z : is_RInt (fun u => h (next L mass log_density grad n eps q z u)) 0 1
  (rate_of q z * h (proposed q z) + (1 - rate_of q z) * h q).
Proof.
  apply (is_RInt_ext (fun u => if Rlt_dec u (rate_of q z) then h (proposed q z) else h q)); [|apply choice_mean, rate_of_range].
  intros u _. unfold next. cbv zeta. fold (rate_of q z). destruct (Rlt_dec u (rate_of q z)); reflexivity.
Qed.

Notation J1 := (I + I)%type.
Notation dec1 := (dec2 dec).
Notation L1 := (both L).
Notation joint := (fun x => joint_density L mass log_density (pair_of x)).
Notation rate := (fun x => step_rate L mass log_density grad n eps (pair_of x)).
Notation prop := (lift (proposal mass grad n eps)).
Let scale : (J1 -> R) -> J1 -> R := lift (fun s => (fst s, fun i => sqrt (mass i) * snd s i + 0)).
Let unscale : (J1 -> R) -> J1 -> R := lift (fun s => (fst s, fun i => / sqrt (mass i) * snd s i + 0)).
(** The proposal on positions and noise. *)
Definition noise_prop (x : J1 -> R) : J1 -> R := unscale (prop (scale x)).
Let k := prodf L (fun _ => / sqrt (2 * PI)).

Lemma noise_prop_moves : moves dec1 L1 noise_prop (fun _ => 1).
Proof.
  pose proof (both_all L L_all) as All.
  eapply moves_ext; [| |apply (moves_comp dec1 L1 All _ _ _ _ (moves_comp dec1 L1 All _ _ _ _ (scale_moves dec L mass L_once L_all mass_pos)
     (prop_moves dec L mass grad n eps L_once L_all n_nonneg grad_cont)) (unscale_moves dec L mass L_once L_all mass_pos))].
  - intros x. reflexivity.
  - intros x. cbv beta. pose proof (weights L mass mass_pos). lra.
Qed.
Lemma noise_prop_twice x : noise_prop (noise_prop x) = x.
Proof.
  unfold noise_prop. unfold scale at 1, unscale at 2. rewrite (scale_unscale mass mass_pos). rewrite (prop_twice mass grad n eps n_nonneg).
  apply (unscale_scale mass mass_pos).
Qed.
Lemma scale_pair x : pair_of (scale x) = (first_half x, fun i => second_half x i * sqrt (mass i)).
Proof. unfold scale, lift. rewrite pair_join. unfold pair_of. cbn [fst snd]. f_equal. extensionality i. ring. Qed.
Lemma rate_scale x : rate (scale x) = rate_of (first_half x) (second_half x).
Proof. cbv beta. now rewrite scale_pair. Qed.
Lemma noise_prop_first x : first_half (noise_prop x) = proposed (first_half x) (second_half x).
Proof.
  unfold noise_prop. change (first_half (unscale (prop (scale x)))) with (fst (proposal mass grad n eps (pair_of (scale x)))).
  rewrite scale_pair. reflexivity.
Qed.
Lemma noise_prop_balanced x :
  exp (log_density (first_half (noise_prop x))) * noise_density L (second_half (noise_prop x)) * rate_of (first_half (noise_prop x)) (second_half (noise_prop x)) =
  exp (log_density (first_half x)) * noise_density L (second_half x) * rate_of (first_half x) (second_half x).
Proof.
  rewrite <- !(joint_scale L mass log_density mass_pos), <- !rate_scale. fold scale. unfold noise_prop.
  unfold scale at 1 3, unscale. rewrite (scale_unscale mass mass_pos).
  pose proof (balanced L mass log_density grad n eps mass_pos n_nonneg (pair_of (scale x))) as B.
  unfold lift. fold (lift (fun s => (fst s, fun i => sqrt (mass i) * snd s i + 0)) x). fold scale. rewrite pair_join. rewrite !Rmult_assoc. f_equal. exact B.
Qed.
Lemma cont_rate_of : cont (fun x : J1 -> R => rate_of (first_half x) (second_half x)).
Proof.
  apply (cont_ext (fun x => rate (scale x))); [intros x; apply rate_scale|].
  apply (cont_comp L1 (both_all L L_all) rate scale).
  - now apply (cont_rate dec L mass log_density grad n eps).
  - apply (scale_moves dec L mass L_once L_all mass_pos).
Qed.
Lemma cont_proposed i : cont (fun x : J1 -> R => proposed (first_half x) (second_half x) i).
Proof.
  apply (cont_ext (fun x => noise_prop x (inl i))); [|apply noise_prop_moves].
  intros x. exact (f_equal (fun f => f i) (noise_prop_first x)).
Qed.

Notation J := (I + (I + K))%type.
Notation decJ := (sum_dec dec (sum_dec dec decK)).
Notation LJ := (map inl L ++ map inr (map inl L ++ map inr LK)).
Let e (c : J1) : J := match c with inl i => inl i | inr i => inr (inl i) end.
Let p (c : J) : option J1 := match c with inl i => Some (inl i) | inr (inl i) => Some (inr i) | inr (inr _) => None end.

Lemma transition_keeps (G : (I -> R) -> (K -> R) -> R) v :
  has_integral (sum_dec dec decK) (map inl L ++ map inr LK)
    (fun x => exp (log_density (fun i => x (inl i))) * noise_density LK (fun j => x (inr j)) * G (fun i => x (inl i)) (fun j => x (inr j))) v ->
  has_integral decJ LJ
    (fun x => exp (log_density (fun i => x (inl i))) * noise_density (map inl L ++ map inr LK) (fun j => x (inr j)) *
      (rate_of (fun i => x (inl i)) (fun i => x (inr (inl i))) * G (proposed (fun i => x (inl i)) (fun i => x (inr (inl i)))) (fun j => x (inr (inr j))) +
       (1 - rate_of (fun i => x (inl i)) (fun i => x (inr (inl i)))) * G (fun i => x (inl i)) (fun j => x (inr (inr j))))) v.
Proof.
  intros (CH & PH & TH).
  set (H := fun x : I + K -> R => _) in CH, PH, TH.
  assert (Wp : forall x : I + K -> R, 0 < exp (log_density (fun i => x (inl i))) * noise_density LK (fun j => x (inr j))).
  { intros x. apply Rmult_lt_0_compat; [apply exp_pos|apply noise_pos]. }
  assert (Ce : forall (C : Type) (e : I -> C), cont (fun x : C -> R => exp (log_density (fun i => x (e i))))).
  { intros C e'. apply (cont_fun exp (fun x => log_density (fun i => x (e' i)))); [intros; apply continuous_exp|]. now apply (cont_part e'). }
  assert (Cn : forall (C D : Type) (l : list D) (e : D -> C), cont (fun x : C -> R => noise_density l (fun i => x (e i)))).
  { intros C D l e'. apply (cont_part e' (noise_density l)), cont_noise. }
  assert (CG : cont (fun x : I + K -> R => G (fun i => x (inl i)) (fun j => x (inr j)))).
  { apply (cont_ext (fun x => H x * / (exp (log_density (fun i => x (inl i))) * noise_density LK (fun j => x (inr j))))).
    - intros x. unfold H. specialize (Wp x). field. split; [apply Rgt_not_eq, noise_pos|apply Rgt_not_eq, exp_pos].
    - apply cont_mult; [exact CH|]. apply cont_inv; [|intros x; apply Rgt_not_eq, Wp]. now apply cont_mult. }
  assert (PG : forall q y, 0 <= G q y).
  { intros q y. specialize (Wp (fun c => match c with inl i => q i | inr j => y j end)). specialize (PH (fun c => match c with inl i => q i | inr j => y j end)).
    unfold H in PH. cbv beta iota in PH, Wp. change (fun i : I => q i) with q in *. change (fun j : K => y j) with y in *.
    destruct (Rle_dec 0 (G q y)) as [?|N]; [assumption|]. nra. }
  pose (D := fun x : J -> R => exp (log_density (fun i => x (inl i))) * noise_density L (fun i => x (inr (inl i))) * noise_density LK (fun j => x (inr (inr j)))).
  pose (f := fun x : J -> R => G (fun i => x (inl i)) (fun j => x (inr (inr j)))).
  pose (a := fun x : J -> R => rate_of (fun i => x (inl i)) (fun i => x (inr (inl i)))).
  pose (P := part e p noise_prop).
  assert (Once : NoDup LJ) by auto using sum_once.
  assert (All : forall j, In j LJ) by auto using sum_all.
  assert (Parts : Permutation LJ (map (fun j => inr (inr j)) LK ++ map e L1)).
  { unfold both. rewrite !map_app, !map_map. cbn. eapply perm_trans; [|apply Permutation_app_comm]. now rewrite <- app_assoc. }
  assert (pe : forall i, p (e i) = Some i) by (intros [i|i]; reflexivity).
  assert (ep : forall j i, p j = Some i -> j = e i).
  { intros [i|[i|j]] c Ec; cbn in Ec; try discriminate; injection Ec as <-; reflexivity. }
  assert (MP : moves decJ LJ P (fun _ => 1)).
  { exact (moves_part decJ dec1 LJ L1 (map (fun j => inr (inr j)) LK) e p Once All (both_once L L_once) (both_all L L_all) pe ep Parts noise_prop (fun _ => 1) noise_prop_moves). }
  assert (PP : forall x, P (P x) = x).
  { intros x. unfold P. rewrite (part_comp e p pe). transitivity (paste p x (fun i => x (e i))); [|now apply paste_same].
    unfold part. now rewrite noise_prop_twice. }
  assert (P1 : forall x, (fun i => P x (inl i)) = proposed (fun i => x (inl i)) (fun i => x (inr (inl i)))).
  { intros x. exact (noise_prop_first (fun i => x (e i))). }
  assert (CD : cont D) by (unfold D; auto using cont_mult).
  assert (Ca : cont a) by exact (cont_part e _ cont_rate_of).
  assert (Cf : cont f).
  { exact (cont_part (fun c : I + K => match c with inl i => inl i | inr j => inr (inr j) end : J) _ CG). }
  assert (Dp : forall x, 0 < D x) by (intros x; unfold D; repeat apply Rmult_lt_0_compat; first [apply exp_pos|apply noise_pos]).
  assert (Ra : forall x, 0 <= a x <= 1) by (intros x; exact (rate_of_range (fun i => x (inl i)) (fun i => x (inr (inl i))))).
  assert (T0 : total decJ LJ (fun x => D x * f x) v).
  { pose (g1 := fun c : I + K => match c with inl i => inl i | inr j => inr (inr j) end : J).
    assert (Q1 : forall i j, g1 i = g1 j -> i = j) by (intros [i|i] [j|j] E; cbn in E; congruence).
    assert (Q2 : forall i j : I, inr (inl i) = inr (inl j) :> J -> i = j) by (intros i j E; congruence).
    assert (Q3 : forall i j, g1 i <> inr (inl j)) by (intros [i|i] j; discriminate).
    assert (Q4 : Permutation LJ (map g1 (map inl L ++ map inr LK) ++ map (fun i => inr (inl i)) L)).
    { rewrite !map_app, !map_map, <- app_assoc. apply Permutation_app_head. apply Permutation_app_comm. }
    pose proof (total_groups decJ (sum_dec dec decK) dec LJ (map inl L ++ map inr LK) L g1 (fun i => inr (inl i)) Q1 Q2 Q3 L_all Q4 H (noise_density L) v 1
      CH (cont_noise L) PH (fun q => Rlt_le _ _ (noise_pos L q)) TH (total_noise dec L L_once)) as T.
    rewrite Rmult_1_r in T. refine (total_ext decJ LJ _ _ v _ T). intros x. exact (swap_factors _ _ _ _). }
  assert (E : forall x, D x * (a x * f (P x) + (1 - a x) * f x) =
     exp (log_density (fun i => x (inl i))) * noise_density (map inl L ++ map inr LK) (fun j => x (inr j)) *
      (rate_of (fun i => x (inl i)) (fun i => x (inr (inl i))) * G (proposed (fun i => x (inl i)) (fun i => x (inr (inl i)))) (fun j => x (inr (inr j))) +
       (1 - rate_of (fun i => x (inl i)) (fun i => x (inr (inl i)))) * G (fun i => x (inl i)) (fun j => x (inr (inr j))))).
  { intros x. rewrite noise_app, !noise_map. unfold f at 1. rewrite P1. change (fun j => P x (inr (inr j))) with (fun j => x (inr (inr j))).
    unfold D. rewrite (Rmult_assoc (exp _)). reflexivity. }
  split; [|split].
  - eapply cont_ext; [exact E|]. apply cont_mult; [exact CD|]. apply cont_plus; apply cont_mult; auto.
    + apply (cont_comp LJ All f P); [exact Cf|apply MP].
    + apply cont_minus; [apply cont_const|exact Ca].
  - intros x. rewrite <- E. apply Rmult_le_pos; [left; apply Dp|]. specialize (Ra x).
    apply Rplus_le_le_0_compat; apply Rmult_le_pos; try lra; apply PG.
  - eapply total_ext; [exact E|]. apply (total_step decJ LJ Once All D a f P v CD Ca Cf); auto.
    + intros x. left. apply Dp.
    + intros x. apply PG.
    + intros x. unfold D, a. change (fun j => P x (inr (inr j))) with (fun j => x (inr (inr j))).
      pose proof (noise_prop_balanced (fun i => x (e i))) as B.
      change (fun i => P x (inl i)) with (first_half (noise_prop (fun i => x (e i)))).
      change (fun i => P x (inr (inl i))) with (second_half (noise_prop (fun i => x (e i)))).
      change (fun i => x (inl i)) with (first_half (fun i => x (e i))). change (fun i => x (inr (inl i))) with (second_half (fun i => x (e i))).
      exact (with_factor _ _ _ _ _ _ _ B).
Qed.
End Transition.
