(** C25, C44: several HMC transitions in a row, and annealed importance sampling with
    HMC transitions, as statements about real integrals. *)
From Coq Require Import List Reals Lra Lia ZArith Bool FunctionalExtensionality.
From Coquelicot Require Import Coquelicot.
From Verif Require Import ModelDist ModelHMC SpecHMC ProofHMC PropMetropolis SpecDensity SpecVolume ProofVolume ProofChange SpecInvariance ProofPhase PropInvariance SpecRun ProofPart ProofRun ModelAIS SpecAIS.
From Verif Require SpecDist PropAIS.
Import ListNotations.
Local Open Scope R_scope.

Section Runs.
Context {I : Type} (dec : forall i j : I, {i = j} + {i <> j}) (L : list I).
Hypothesis L_once : NoDup L.
Hypothesis L_all : forall i, In i L.

Lemma all_of_once m : NoDup (all_of L m).
Proof. induction m as [|m IH]; [constructor|]. now apply sum_once. Qed.
Lemma all_of_all m : forall c, In c (all_of L m).
Proof. induction m as [|m IH]; [intros []|]. now apply sum_all. Qed.
Lemma as_list_len m : forall y : vectors m -> R, length (as_list (I := I) m y) = m.
Proof. induction m as [|m IH]; intros y; [reflexivity|]. cbn. now rewrite IH. Qed.

Lemma uniform_ext m : forall F F' v, (forall us, length us = m -> F us = F' us) -> uniform_mean m F v -> uniform_mean m F' v.
Proof.
  induction m as [|m IH]; intros F F' v E; cbn; [intros <-; symmetry; now apply E|].
  intros (g & H & Q). exists g. split; [|exact Q]. intros u. apply (IH _ _ _ (fun us Hu => E (u :: us) (f_equal S Hu))), H.
Qed.
Lemma uniform_scal m c : forall F v, uniform_mean m F v -> uniform_mean m (fun us => c * F us) (c * v).
Proof.
  induction m as [|m IH]; intros F v; cbn; [now intros ->|].
  intros (g & H & Q). exists (fun u => c * g u). split; [intros u; apply (IH (fun us => F (u :: us))), H|]. exact (is_RInt_scal (V := R_NormedModule) g 0 1 c v Q).
Qed.
Lemma run_ext m W F F' v : (forall q zs us, length zs = m -> length us = m -> F q zs us = F' q zs us) -> mean_of_run dec L m W F v -> mean_of_run dec L m W F' v.
Proof.
  intros E (g & H & Q). exists g. split; [|exact Q]. intros q y. apply (uniform_ext m (F q (as_list m y))); [|apply H].
  intros us Hu. apply E; [apply as_list_len|exact Hu].
Qed.
(** The weight of the first position may be moved into the mean. *)
Lemma run_reweight m (W W' r : (I -> R) -> R) F v : (forall q, W' q * r q = W q) -> mean_of_run dec L m W F v -> mean_of_run dec L m W' (fun q zs us => r q * F q zs us) v.
Proof.
  intros E (g & H & Q). exists (fun q y => r q * g q y). split; [intros q y; now apply uniform_scal|].
  unfold mean_over_noises in *. match goal with |- has_integral _ _ ?A _ => match type of Q with has_integral _ _ ?B _ => replace A with B; [exact Q|] end end.
  extensionality x. rewrite <- E. ring.
Qed.
Lemma run_start W f v : has_integral dec L (fun q => W q * f q) v -> mean_of_run dec L 0 W (fun q _ _ => f q) v.
Proof.
  intros (C & P & T). exists (fun q _ => f q). split; [reflexivity|]. unfold mean_over_noises. cbn [all_of map].
  assert (E : forall x : I + Empty_set -> R, W (fun i => x (inl i)) * f (fun i => x (inl i)) * 1 =
    W (fun i => x (inl i)) * noise_density [] (fun j => x (inr j)) * f (fun i => x (inl i))) by (intros x; unfold noise_density; cbn; ring).
  split; [|split].
  - eapply cont_ext; [exact E|]. apply cont_mult; [exact (cont_part inl _ C)|apply cont_const].
  - intros x. eapply Rle_trans; [|right; apply E]. rewrite Rmult_1_r. apply P.
  - eapply total_ext; [exact E|]. replace v with (v * 1) by ring.
    refine (total_groups _ dec (vectors_dec dec 0) _ L [] inl inr _ _ _ _ _ (fun q => W q * f q) (fun _ => 1) v 1 C _ P _ T _).
    + intros i j H; congruence.
    + intros [].
    + intros i [].
    + intros [].
    + apply Permutation.Permutation_refl.
    + apply cont_const.
    + intros; lra.
    + split; [intros m (B & _ & ->); cbn; lra|]. intros b Hb. apply Hb. exists 0. split; [lra|reflexivity].
Qed.
(** One more transition in front. *)
Lemma run_step mass lp grad n eps m F v :
  (forall i, 0 < mass i) -> (0 <= n)%Z -> cont lp -> (forall i, cont (fun q => grad q i)) ->
  mean_of_run dec L m (fun q => exp (lp q)) F v ->
  mean_of_run dec L (S m) (fun q => exp (lp q)) (fun q zs us => F (next L mass lp grad n eps q (hd (fun _ => 0) zs) (hd 0 us)) (tl zs) (tl us)) v.
Proof.
  intros Mp Np Cl Cg (g & H & Q).
  pose (a := rate_of L mass lp grad n eps). pose (pr := proposed mass grad n eps).
  exists (fun q (y : vectors (S m) -> R) => let z := fun i => y (inl i) in let y' := fun j => y (inr j) in a q z * g (pr q z) y' + (1 - a q z) * g q y').
  split.
  - intros q y. cbn [uniform_mean as_list]. exists (fun u => g (next L mass lp grad n eps q (fun i => y (inl i)) u) (fun j => y (inr j))). split; [intros u; exact (H (next L mass lp grad n eps q (fun i => y (inl i)) u) (fun j => y (inr j)))|].
    apply (next_mean L mass lp grad n eps Mp (fun q' => g q' (fun j => y (inr j)))).
  - exact (transition_keeps dec (vectors_dec dec m) L (all_of L m) mass lp grad n eps L_once L_all (all_of_once m) (all_of_all m) Mp Np Cl Cg g v Q).
Qed.

(** ** C25: any number of transitions *)
Section Invariant.
Context (lp : (I -> R) -> R) (mass : nat -> I -> R) (grad : nat -> (I -> R) -> I -> R) (n : nat -> Z) (eps : nat -> R).
(** The position after transitions [k], [k + 1], ..., one for each noise vector and
    uniform number. *)
Fixpoint after (k : nat) (q : I -> R) (zs : list (I -> R)) (us : list R) : I -> R :=
  match zs, us with
  | z :: zs', u :: us' => after (S k) (next L (mass k) lp (grad k) (n k) (eps k) q z u) zs' us'
  | _, _ => q
  end.
(** The mean of [f] after any number of transitions is its mean under the target, when
    the first position is distributed as the target. The settings of a transition may
    differ from one to the next. *)
Theorem C25_run_invariant m (f : (I -> R) -> R) v :
  (forall k i, 0 < mass k i) -> (forall k, (0 <= n k)%Z) -> cont lp -> (forall k i, cont (fun q => grad k q i)) ->
  has_integral dec L (fun q => exp (lp q) * f q) v ->
  mean_of_run dec L m (fun q => exp (lp q)) (fun q zs us => f (after 0 q zs us)) v.
Proof.
  intros Mp Np Cl Cg V. generalize 0%nat as k. induction m as [|m IH]; intros k.
  - apply (run_ext 0 _ (fun q _ _ => f q)); [|now apply run_start]. intros q zs us Hz _. destruct zs; [reflexivity|discriminate].
  - eapply run_ext; [|apply (run_step (mass k) lp (grad k) (n k) (eps k) m _ v (Mp k) (Np k) Cl (Cg k) (IH (S k)))].
    intros q zs us Hz Hu. destruct zs as [|z zs]; [discriminate|]. destruct us as [|u us]; [discriminate|]. reflexivity.
Qed.
End Invariant.

(** ** C44: the weights of annealed importance sampling with HMC *)
Section Annealed.
Context (log_prior log_joint : (I -> R) -> R) (mass : R -> I -> R) (grad : R -> (I -> R) -> I -> R) (n : R -> Z) (eps : R -> R).
Notation lf := (log_fn log_prior log_joint).
(** A chain: its position, and the noise and uniform numbers of its next transitions. *)
Definition chain_state : Type := ((I -> R) * list ((I -> R) * R))%type.
Definition chain_step (T : R) (s : chain_state) : chain_state :=
  match snd s with
  | (z, u) :: tape => (next L (mass T) (lf T) (grad T) (n T) (eps T) (fst s) z u, tape)
  | [] => s
  end.
(** The session: the chains move independently, and report their tempered densities. *)
Definition chains_move (T : R) (s : list chain_state) : list chain_state * (list R * list R) :=
  (map (chain_step T) s, (map (lf T) (map fst s), map (lf T) (map fst (map (chain_step T) s)))).
Definition chains_report (T : R) (s : list chain_state) : list R := map (lf T) (map fst s).

Hypothesis mass_pos : forall T i, 0 < mass T i.
Hypothesis n_nonneg : forall T, (0 <= n T)%Z.
Hypothesis prior_cont : cont log_prior.
Hypothesis joint_cont : cont log_joint.
Hypothesis grad_cont : forall T i, cont (fun q => grad T q i).

Lemma cont_lf T : cont (lf T).
Proof. unfold log_fn. apply cont_plus; apply cont_mult; auto using cont_const. Qed.

Variable N : nat.
Hypothesis temperatures : (0 < N)%nat.
Let T k := schedule_t N (INR k).
(** Log weight collected by one chain from stage [j] on. *)
Fixpoint collected (fuel j : nat) (s : chain_state) : R :=
  match fuel with
  | 0%nat => 0
  | S fuel' => lf (T (j + 1)) (fst s) - lf (T j) (fst s) + collected fuel' (S j) (chain_step (T (j + 1)) s)
  end.
Lemma collected_mean Z : has_integral dec L (fun q => exp (log_joint q)) Z -> forall fuel j, (j + fuel = N)%nat ->
  mean_of_run dec L fuel (fun q => exp (lf (T j) q)) (fun q zs us => exp (collected fuel j (q, combine zs us))) Z.
Proof.
  intros V fuel. induction fuel as [|fuel IH]; intros j Hj.
  - apply (run_ext 0 _ (fun _ _ _ => 1)); [intros q zs us _ _; cbn; now rewrite exp_0|]. apply (run_start _ (fun _ => 1)).
    replace j with N by lia. replace (fun q => exp (lf (T N) q) * 1) with (fun q => exp (log_joint q)); [exact V|].
    extensionality q. unfold T, log_fn. rewrite PropAIS.C43_end by exact temperatures. rewrite Rmult_1_r. f_equal. ring.
  - specialize (IH (S j) ltac:(lia)).
    pose proof (run_step (mass (T (S j))) (lf (T (S j))) (grad (T (S j))) (n (T (S j))) (eps (T (S j))) fuel _ Z
      (mass_pos _) (n_nonneg _) (cont_lf _) (grad_cont _) IH) as H.
    pose proof (run_reweight (S fuel) (fun q => exp (lf (T (S j)) q)) (fun q => exp (lf (T j) q)) (fun q => exp (lf (T (S j)) q - lf (T j) q)) _ Z
      ltac:(intros q; cbv beta; rewrite <- exp_plus; f_equal; ring) H) as H'.
    eapply run_ext; [|exact H']. intros q zs us Hz Hu. destruct zs as [|z zs]; [discriminate|]. destruct us as [|u us]; [discriminate|].
    cbn [hd tl collected combine fst snd chain_step]. replace (j + 1)%nat with (S j) by lia. now rewrite <- exp_plus.
Qed.

Fixpoint chain_at (s : chain_state) (k : nat) : chain_state :=
  match k with
  | 0%nat => s
  | S k' => chain_step (T (k' + 1)) (chain_at s k')
  end.
Lemma state_of_chain start c d : (c < length start)%nat -> forall k,
  nth c (PropAIS.state_at (fun T s => fst (chains_move T s)) N start k) d = chain_at (nth c start d) k.
Proof.
  intros Hc. induction k as [|k IH]; [reflexivity|]. cbn [PropAIS.state_at chains_move fst].
  assert (Len : forall k, length (PropAIS.state_at (fun T s => fst (chains_move T s)) N start k) = length start).
  { induction k0 as [|k0 IH0]; [reflexivity|]. cbn. now rewrite map_length. }
  rewrite (nth_indep _ d (chain_step (schedule_t N (INR (k + 1))) d)) by (rewrite map_length, Len; exact Hc).
  rewrite map_nth. cbn [chain_at]. now rewrite <- IH.
Qed.
Lemma collected_sum s : forall fuel j,
  collected fuel j (chain_at s j) =
  SpecDist.total (fun k => let q := fst (chain_at s k) in lf (T (k + 1)) q - lf (T k) q) (seq j fuel).
Proof.
  induction fuel as [|fuel IH]; intros j; [reflexivity|]. cbn [collected seq SpecDist.total map sumR fold_right]. cbv zeta.
  specialize (IH (S j)). unfold SpecDist.total, sumR in IH |- *. cbn [map fold_right]. rewrite <- IH. cbn [chain_at]. reflexivity.
Qed.

(** Among any other chains, the weight of a chain that starts from the prior has the
    marginal likelihood as its mean, over the starting position and over the noise and
    uniform numbers of its transitions. *)
Theorem C44_hmc_unbiased n_adapt (before others : list chain_state) (s : list chain_state) Z :
  has_integral dec L (fun q => exp (log_joint q)) Z ->
  mean_of_run dec L N (fun q => exp (log_prior q))
    (fun q zs us =>
       let start := fun _ => before ++ (q, combine zs us) :: others in
       exp (nth (length before) (ais_log_weights id_ret id_bind start chains_move chains_report N n_adapt s) 0)) Z.
Proof.
  intros V. pose proof (collected_mean Z V N 0 eq_refl) as H.
  replace (fun q => exp (log_prior q)) with (fun q => exp (lf (T 0) q)).
  - refine (run_ext N _ _ _ Z _ H). intros q zs us _ _. cbv zeta. f_equal.
    set (st := before ++ (q, combine zs us) :: others).
    assert (Hc : (length before < length st)%nat) by (unfold st; rewrite app_length; cbn; lia).
    pose proof (PropAIS.C44_telescope log_prior log_joint (map fst) (fun _ => st) (fun T s => fst (chains_move T s))
      ltac:(intros; cbn; now rewrite !map_length) N n_adapt s q (length before) temperatures ltac:(now rewrite map_length)) as E.
    etransitivity; [|symmetry; exact E].
    rewrite (collected_sum (q, combine zs us) N 0 : collected N 0 (q, combine zs us) = _). f_equal. extensionality k. cbv zeta.
    assert (Nq : nth (length before) (map fst (PropAIS.state_at (fun T s => fst (chains_move T s)) N st k)) q =
       fst (chain_at (q, combine zs us) k)).
    { change q with (fst (q, combine zs us)) at 1. rewrite map_nth, (state_of_chain st (length before) (q, combine zs us) Hc). unfold st. rewrite nth_middle. reflexivity. }
    exact (f_equal (fun q' => lf (T (k + 1)) q' - lf (T k) q') (eq_sym Nq)).
  - extensionality q. f_equal. unfold T, log_fn. cbn [INR]. rewrite PropAIS.C43_start by exact temperatures. ring.
Qed.
End Annealed.
End Runs.
Print Assumptions C25_run_invariant.
Print Assumptions C44_hmc_unbiased.

(** Two standard normal latents, observed through a likelihood that is not constant:
    the hypotheses of both theorems hold, with settings that change along the run. *)
Example run_case :
  let L := [false; true] in
  let log_prior := fun q : bool -> R => - (q false * q false) / 2 - q true * q true / 2 - ln (2 * PI) in
  let log_joint := fun q : bool -> R => log_prior q - ln (1 + q false * q false) in
  let mass := fun (T : R) (i : bool) => 1 + T * T in
  let grad := fun (T : R) (q : bool -> R) (i : bool) => - q i - (if i then 0 else T * (2 * q false / (1 + q false * q false))) in
  NoDup L /\ (forall i, In i L) /\ (forall T i, 0 < mass T i) /\ cont log_prior /\ cont log_joint /\
  (forall T i, cont (fun q => grad T q i)) /\ has_integral bool_dec L (fun q => exp (log_prior q)) 1 /\
  exists Z, has_integral bool_dec L (fun q => exp (log_joint q)) Z /\
    has_integral bool_dec L (fun q => exp (log_prior q) * / (1 + q false * q false)) Z.
Proof.
  intros L log_prior log_joint mass grad. pose proof PI_RGT_0 as Pi.
  assert (Nd : NoDup L) by (repeat constructor; cbn; intuition discriminate).
  assert (All : forall i, In i L) by (intros []; cbn; auto).
  assert (Sq : forall q : bool -> R, 0 <= q false * q false) by (intros; nra).
  assert (C1 : cont (fun q : bool -> R => 1 + q false * q false)) by (apply cont_plus; [apply cont_const|]; apply cont_mult; apply cont_coord).
  assert (Cf : cont (fun q : bool -> R => / (1 + q false * q false))) by (apply cont_inv; [exact C1|]; intros q; specialize (Sq q); lra).
  assert (Cp : cont log_prior).
  { unfold log_prior, Rdiv. apply cont_minus; [|apply cont_const]. apply cont_minus; apply cont_mult; try apply cont_const; [apply cont_opp|]; apply cont_mult; apply cont_coord. }
  assert (Cl : cont (fun q : bool -> R => ln (1 + q false * q false))).
  { apply (cont_ext (fun q => ln (Rabs (q false * q false) + 1))).
    - intros q. rewrite Rabs_pos_eq by apply Sq. f_equal. ring.
    - apply (cont_fun (fun t => ln (Rabs t + 1)) (fun q => q false * q false)); [|apply cont_mult; apply cont_coord].
      intros t. apply (continuous_comp (fun t => Rabs t + 1) ln).
      + apply (continuous_plus Rabs (fun _ => 1)); [apply continuous_Rabs|apply continuous_const].
      + apply (ex_derive_continuous ln). exists (/ (Rabs t + 1)). apply is_derive_ln. pose proof (Rabs_pos t). lra. }
  assert (E : forall q, exp (log_prior q) = noise_density L q).
  { intros q. unfold log_prior, noise_density, L. cbn [map fold_right]. unfold standard_normal, Rminus. rewrite !exp_plus, (exp_Ropp (ln (2 * PI))), exp_ln by lra.
    replace (- (q true * q true / 2)) with (- (q true * q true) / 2) by lra.
    assert (0 < sqrt (2 * PI)) by (apply sqrt_lt_R0; lra).
    rewrite <- (sqrt_sqrt (2 * PI)) at 1 by lra. field. lra. }
  assert (Ce : cont (fun q => exp (log_prior q))) by (apply (cont_fun exp log_prior); [intros; apply continuous_exp|exact Cp]).
  assert (T1 : total bool_dec L (fun q => exp (log_prior q)) 1).
  { apply (total_ext bool_dec L (noise_density L)); [intros q; symmetry; apply E|]. now apply total_noise. }
  assert (P1 : forall q, 0 <= exp (log_prior q) * / (1 + q false * q false) <= exp (log_prior q)).
  { intros q. specialize (Sq q). pose proof (exp_pos (log_prior q)). assert (0 < / (1 + q false * q false) <= 1).
    { split; [apply Rinv_0_lt_compat; lra|]. rewrite <- Rinv_1. apply Rinv_le_contravar; lra. }
    nra. }
  assert (C2 : cont (fun q => exp (log_prior q) * / (1 + q false * q false))) by now apply cont_mult.
  destruct (total_dominated bool_dec L _ _ 1 Ce C2 P1 T1) as (Z & TZ).
  assert (EJ : (fun q => exp (log_joint q)) = (fun q => exp (log_prior q) * / (1 + q false * q false))).
  { extensionality q. unfold log_joint, Rminus. rewrite exp_plus, exp_Ropp, exp_ln by (specialize (Sq q); lra). reflexivity. }
  repeat match goal with |- _ /\ _ => split end; auto.
  - intros T i. unfold mass. nra.
  - now apply cont_minus.
  - intros T i. unfold grad. apply cont_minus; [apply cont_opp, cont_coord|]. destruct i; [apply cont_const|].
    apply cont_mult; [apply cont_const|]. unfold Rdiv. apply cont_mult; [|exact Cf]. apply cont_mult; [apply cont_const|apply cont_coord].
  - split; [exact Ce|split; [intros q; left; apply exp_pos|exact T1]].
  - exists Z. rewrite EJ. split; (split; [exact C2|split; [intros q; apply P1|exact TZ]]).
Qed.
