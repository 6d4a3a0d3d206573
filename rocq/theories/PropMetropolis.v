(** C25 and C26: the Metropolis correction of HMC and the update of all chains. *)
From Coq Require Import List Arith Lia Bool Reals Lra ZArith FunctionalExtensionality Permutation FinFun.
From Verif Require Import ModelShape SpecShape ProofShape ModelTensor SpecTensor ProofTensor ModelExt ModelHMC SpecHMC ProofHMC.
Import ListNotations.
Local Open Scope R_scope.

Definition finite_pairs (pm : list (R * R)) : list (ext * R) := map (fun x => (Fi (fst x), snd x)) pm.
Definition positive_masses {A} (pm : list (A * R)) : Prop := Forall (fun x => 0 < snd x) pm.

Lemma hamiltonian_finite l pm : positive_masses pm ->
  hamiltonian (Fi l) (finite_pairs pm) = (Fi (energy l pm), Fi l).
Proof.
  intros P. unfold hamiltonian.
  assert (K : reduce_sum (map (fun x => ediv (esquare (fst x)) (snd x)) (finite_pairs pm)) =
              Fi (fold_right Rplus 0 (map (fun x => fst x * fst x / snd x) pm))).
  { induction P as [|x pm Hx P IH]; [reflexivity|].
    cbn [finite_pairs map fst snd esquare]. unfold reduce_sum. cbn [fold_right].
    change (fold_right eadd (Fi 0)) with reduce_sum. fold (finite_pairs pm). rewrite IH. cbn [ediv].
    destruct Req_EM_T; [lra|]. reflexivity. }
  rewrite K. cbn. unfold energy. rewrite Ropp_involutive. do 2 f_equal. lra.
Qed.

(** Exactly min(1, exp(H_old - H_new)) for finite energies. *)
Theorem C25_rate_formula l pm l' pm' : positive_masses pm -> positive_masses pm' ->
  get_acceptance_rate (Fi l) (finite_pairs pm) (Fi l') (finite_pairs pm') =
  (Fi (energy l pm), Fi (energy l' pm'), Some (Fi l), Fi l', Fi (Rmin 1 (exp (energy l pm - energy l' pm')))).
Proof.
  intros P P'. unfold get_acceptance_rate. rewrite !hamiltonian_finite by assumption. cbn. do 2 f_equal.
  unfold Rmin. replace (- energy l' pm' + energy l pm) with (energy l pm - energy l' pm') by ring.
  destruct (Rle_dec (energy l pm - energy l' pm') 0) as [L|L]; destruct Rle_dec as [M|M]; auto.
  - destruct L as [L|L].
    + apply exp_increasing in L. rewrite exp_0 in L. lra.
    + rewrite L, exp_0. reflexivity.
  - now rewrite exp_0.
  - exfalso. apply M. left. rewrite <- exp_0. apply exp_increasing. lra.
Qed.
Print Assumptions C25_rate_formula.

(** Always a number between 0 and 1, for arbitrary (also non-finite) inputs. *)
Theorem C25_rate_range ol op nl np oh nh o n a :
  get_acceptance_rate ol op nl np = (oh, nh, o, n, a) -> exists r, a = Fi r /\ 0 <= r <= 1.
Proof.
  unfold get_acceptance_rate. destruct (hamiltonian ol op) as [h1 l1], (hamiltonian nl np) as [h2 l2].
  intros H. injection H as _ _ _ _ <-.
  destruct (eexp _) as [r| | |] eqn:E; cbn; try (exists 0; split; [reflexivity|lra]).
  destruct (is_finite l2); [|exists 0; split; [reflexivity|lra]]. exists r. split; [reflexivity|].
  destruct (emin _ _) as [x| | |] eqn:M; cbn in E; inversion E; subst; [|lra].
  split; [left; apply exp_pos|].
  assert (X : x <= 0).
  { destruct (eadd (eneg h2) h1); cbn in M; inversion M; subst; [apply Rmin_r|lra]. }
  destruct X as [X|X]; [left; rewrite <- exp_0; now apply exp_increasing|right; subst; apply exp_0].
Qed.
Print Assumptions C25_rate_range.

(** Fetching the old log probability fails exactly when the log-density of the current
    state is not finite; otherwise it is that log-density. *)
Theorem C25_bad_start_reported ol op nl np oh nh o n a :
  get_acceptance_rate ol op nl np = (oh, nh, o, n, a) -> o = (if is_finite ol then Some ol else None).
Proof.
  unfold get_acceptance_rate, hamiltonian. intros H. injection H as _ _ <- _ _. destruct ol; cbn; rewrite ?Ropp_involutive; reflexivity.
Qed.
Print Assumptions C25_bad_start_reported.

Lemma kinetic_not_minus_infinity pm : positive_masses pm ->
  let k := reduce_sum (map (fun x : ext * R => ediv (esquare (fst x)) (snd x)) pm) in
  k = NaN \/ k = PInf \/ exists r, k = Fi r.
Proof.
  intros P. induction P as [|[p m] pm Hx P IH]; [right; right; exists 0; reflexivity|].
  cbn [map fst snd]. unfold reduce_sum in *. cbn [fold_right]. cbv zeta in IH. cbn [snd] in Hx.
  destruct IH as [->|[->|[r ->]]]; destruct p; cbn; try destruct Req_EM_T; try destruct Rlt_dec; try lra; cbn; eauto.
Qed.

(** A proposal whose log-density or energy is not finite is never accepted. *)
Theorem C25_bad_proposal_rejected ol op nl np oh nh o n a : positive_masses np ->
  get_acceptance_rate ol op nl np = (oh, nh, o, n, a) ->
  is_finite nl = false \/ is_finite nh = false -> a = Fi 0.
Proof.
  intros P. unfold get_acceptance_rate, hamiltonian.
  pose proof (kinetic_not_minus_infinity np P) as K. cbv zeta in K.
  set (k := reduce_sum (map (fun x : ext * R => ediv (esquare (fst x)) (snd x)) np)) in *. clearbody k.
  set (j := escale _ (reduce_sum (map _ op))). clearbody j.
  intros H. injection H as <- <- _ _ <-. generalize (eadd (eneg ol) j). clear j. intros j.
  intros [F|F].
  - destruct nl as [x| | |]; try discriminate; cbn [eneg is_finite]; now rewrite andb_false_r.
  - destruct nl as [x| | |]; try (cbn [eneg is_finite]; now rewrite andb_false_r).
    destruct K as [->|[->|[r ->]]]; cbn in F |- *; try discriminate.
    + destruct j; reflexivity.
    + destruct (Rlt_dec 0 (1/2)) as [_|N]; [|lra]. cbn in F |- *.
      destruct j; reflexivity.
Qed.
Print Assumptions C25_bad_proposal_rejected.

(** ** Detailed balance *)

(** The acceptance rate between two states given by log-density and (momentum, mass)
    pairs. *)
Definition rate_between (l : R) (pm : list (R * R)) (l' : R) (pm' : list (R * R)) (a : R) : Prop :=
  exists oh nh o n, get_acceptance_rate (Fi l) (finite_pairs pm) (Fi l') (finite_pairs pm') = (oh, nh, o, n, Fi a).

Theorem C25_detailed_balance l pm l' pm' a a' : positive_masses pm -> positive_masses pm' ->
  rate_between l pm l' pm' a -> rate_between l' pm' l pm a' ->
  exp (- energy l pm) * a = exp (- energy l' pm') * a'.
Proof.
  intros P P' [x1 [x2 [x3 [x4 H]]]] [y1 [y2 [y3 [y4 H']]]].
  rewrite C25_rate_formula in H, H' by assumption. injection H as _ _ _ _ <-. injection H' as _ _ _ _ <-.
  set (e := energy l pm). set (e' := energy l' pm'). unfold Rmin.
  assert (E : forall u v, exp (- u) * exp (u - v) = exp (- v)) by (intros; rewrite <- exp_plus; f_equal; ring).
  destruct (Rle_dec 1 (exp (e - e'))) as [A|A], (Rle_dec 1 (exp (e' - e))) as [B|B].
  - assert (e = e') as ->; [|reflexivity].
    destruct (Rtotal_order e e') as [L|[L|L]]; [exfalso|assumption|exfalso].
    + assert (exp (e - e') < exp 0) by (apply exp_increasing; lra). rewrite exp_0 in *. lra.
    + assert (exp (e' - e) < exp 0) by (apply exp_increasing; lra). rewrite exp_0 in *. lra.
  - rewrite E. lra.
  - rewrite E. lra.
  - exfalso. destruct (Rle_dec e e') as [L|L].
    + apply B. rewrite <- exp_0. destruct L as [L| ->]; [left; apply exp_increasing; lra|right; f_equal; ring].
    + apply A. left. rewrite <- exp_0. apply exp_increasing; lra.
Qed.
Print Assumptions C25_detailed_balance.

(** ** Invariance of the target *)
Section Invariance.
Context {I : Type}.
Variables (coords : list I) (mass : I -> R) (log_density : (I -> R) -> R) (grad : (I -> R) -> I -> R).
Variables (n : Z) (eps : R).
Hypothesis mass_pos : forall i, 0 < mass i.
Hypothesis n_nonneg : (0 <= n)%Z.

Definition pairs_of (p : I -> R) : list (R * R) := map (fun i => (p i, mass i)) coords.
(** Unnormalised joint density of position and momentum. *)
Definition joint_density (x : (I -> R) * (I -> R)) : R := exp (- energy (log_density (fst x)) (pairs_of (snd x))).
(** The acceptance rate the code computes for the step from [x]. *)
Definition step_rate (x : (I -> R) * (I -> R)) : R :=
  let y := leapfrog grad mass n eps (fst x) (snd x) in
  match get_acceptance_rate (Fi (log_density (fst x))) (finite_pairs (pairs_of (snd x)))
                            (Fi (log_density (fst y))) (finite_pairs (pairs_of (snd y))) with
  | (_, _, _, _, Fi a) => a
  | _ => 0
  end.
(** Integrate, then flip the momentum. *)
Definition proposal (x : (I -> R) * (I -> R)) := flip (leapfrog grad mass n eps (fst x) (snd x)).

Lemma pairs_positive p : positive_masses (pairs_of p).
Proof. unfold pairs_of, positive_masses. rewrite Forall_map. apply Forall_forall. intros i _. apply mass_pos. Qed.
Lemma energy_flip l p : energy l (pairs_of (fun i => - p i)) = energy l (pairs_of p).
Proof.
  unfold energy, pairs_of. rewrite !map_map. do 3 f_equal. apply map_ext. intros i. cbn. f_equal. ring.
Qed.
Lemma proposal_involutive x : proposal (proposal x) = x.
Proof.
  unfold proposal. destruct x as [q p]. cbn [fst snd].
  destruct (leapfrog grad mass n eps q p) as [q' p'] eqn:E.
  assert (F : leapfrog grad mass n eps q' (fun i => - p' i) = flip (q, p)).
  { destruct (Z.to_nat n) as [|k] eqn:K.
    - replace n with 0%Z in * by lia. rewrite leapfrog_0 in *. change (kick grad (eps/2) (flip (q', p')) = flip (q, p)).
      rewrite <- E. apply kick_flip.
    - replace n with (Z.of_nat (S k)) in * by lia. rewrite leapfrog_S in *.
      change (q', fun i => - p' i) with (flip (q', p')). rewrite <- E. apply iter_flip. }
  cbn [flip fst snd]. rewrite F. apply flip_flip.
Qed.
Lemma step_rate_formula x : step_rate x =
  Rmin 1 (exp (energy (log_density (fst x)) (pairs_of (snd x)) -
               energy (log_density (fst (proposal x))) (pairs_of (snd (proposal x))))).
Proof.
  unfold step_rate. cbv zeta. rewrite C25_rate_formula by apply pairs_positive.
  unfold proposal. cbn [flip fst snd]. now rewrite energy_flip.
Qed.
Lemma balanced x : joint_density (proposal x) * step_rate (proposal x) = joint_density x * step_rate x.
Proof.
  rewrite !step_rate_formula, proposal_involutive. unfold joint_density. symmetry.
  apply C25_detailed_balance; try apply pairs_positive;
  unfold rate_between; rewrite C25_rate_formula by apply pairs_positive; eauto 6.
Qed.

(** [has_integral f v]: f has integral v over phase space, for any notion of integral
    that is additive and does not change under the proposal map (Lebesgue measure is
    not changed by it because of C24_volume_preserving). *)
Variable has_integral : ((I -> R) * (I -> R) -> R) -> R -> Prop.
Hypothesis additive : forall f g v w, has_integral f v -> has_integral g w -> has_integral (fun x => f x + g x) (v + w).
Hypothesis subtractive : forall f g v w, has_integral f v -> has_integral g w -> has_integral (fun x => f x - g x) (v - w).
Hypothesis proposal_invariant : forall f v, has_integral f v -> has_integral (fun x => f (proposal x)) v.

(** One Metropolis-corrected step, started from the joint density, has the same
    expectation of every function of the position. *)
Theorem C25_target_invariant (f : (I -> R) -> R) v w :
  has_integral (fun x => joint_density x * f (fst x)) v ->
  has_integral (fun x => joint_density x * step_rate x * f (fst x)) w ->
  has_integral (fun x => joint_density x *
     (step_rate x * f (fst (leapfrog grad mass n eps (fst x) (snd x))) + (1 - step_rate x) * f (fst x))) v.
Proof.
  intros V W. pose proof (proposal_invariant _ _ W) as W'. cbv beta in W'.
  pose proof (additive _ _ _ _ (subtractive _ _ _ _ V W) W') as A. cbv beta in A.
  replace (v - w + w) with v in A by ring.
  match type of A with has_integral ?g _ => match goal with |- has_integral ?h _ => replace h with g; [exact A|] end end.
  extensionality x. rewrite balanced. unfold proposal. cbn [flip fst]. ring.
Qed.
End Invariance.
Print Assumptions C25_target_invariant.

(** Non-vacuity: sums over a set of states closed under the proposal map. *)
Example invariance_case (x : (unit -> R) * (unit -> R)) :
  let grad := fun (q : unit -> R) (i : unit) => - q i in
  let T := proposal (fun _ => 1) grad 1 (1/2) in
  forall f v, v = f x + f (T x) -> v = f (T x) + f (T (T x)).
Proof. intros grad T f v ->. unfold T. rewrite proposal_involutive by lia. ring. Qed.

(** ** C26: the update of all chains *)
Section Chains.
Variables (chain : shape) (data : list shape) (log_post : state -> index -> ext) (grad : state -> state).
Variable mass : nat -> index -> R.

(** Two states agree on all latents of chain [c]. *)
Definition agree (c : index) (s s' : state) : Prop :=
  forall k ds d, nth_error data k = Some ds -> valid ds d -> s (k, c ++ d) = s' (k, c ++ d).
(** The log-density of a chain, and its gradient, only depend on that chain's values. *)
Definition chainwise : Prop := forall s s' c, agree c s s' -> log_post s c = log_post s' c.
Definition chainwise_gradient : Prop := forall s s' c, agree c s s' -> agree c (grad s) (grad s').

Lemma combine_seq_nth {A} (l : list A) : forall b k x, nth_error l k = Some x ->
  nth_error (combine (seq b (length l)) l) k = Some ((b + k)%nat, x).
Proof.
  induction l as [|a l IH]; intros b [|k] x H; cbn in *; try discriminate.
  - inversion H. now rewrite Nat.add_0_r.
  - rewrite (IH (S b) k x H). do 2 f_equal. lia.
Qed.

(** After a step every latent of a chain holds the proposal or the old value,
    according to one decision for the chain: its uniform number is below its
    acceptance rate. *)
Theorem C26_one_decision_per_chain n eps q noise u i :
  sample_step chain data log_post grad mass n eps q noise u = i ->
  let '(q', p') := leapfrog grad (full_mass chain mass) n eps q (random_momentum chain mass noise) in
  forall c, valid chain c ->
    exists oh nh o nl a,
      get_acceptance_rate (log_post q c) (momenta data mass (random_momentum chain mass noise) c)
                          (log_post q' c) (momenta data mass p' c) = (oh, nh, o, nl, Fi a) /\
      t_at (i_rate i) c = Fi a /\ 0 <= a <= 1 /\
      exists accept : bool, (accept = true <-> u c < a) /\
        forall k ds, nth_error data k = Some ds -> exists t, nth_error (i_samples i) k = Some (Some t) /\
          t_shape t = chain ++ ds /\
          forall d, valid ds d -> t_at t (c ++ d) = if accept then q' (k, c ++ d) else q (k, c ++ d).
Proof.
  unfold sample_step. destruct (leapfrog _ _ _ _ _ _) as [q' p'] eqn:E.
  intros <- c Vc.
  cbn [i_rate i_samples i_accept t_at].
  unfold chain_rate.
  destruct (get_acceptance_rate (log_post q c) _ _ _) as [[[[oh nh] o] nl] a0] eqn:G.
  destruct (C25_rate_range _ _ _ _ _ _ _ _ _ G) as [a [-> Ra]].
  exists oh, nh, o, nl, a. split; [reflexivity|]. split; [reflexivity|]. split; [exact Ra|].
  exists (if Rlt_dec (u c) a then true else false). split; [destruct Rlt_dec; intuition congruence|].
  intros k ds Hk. 
  match goal with |- context[map ?f _] => set (sel := f) end.
  destruct (select_latent_at (Tensor chain (fun c0 => eltb (u c0)
      (snd (get_acceptance_rate (log_post q c0) (momenta data mass (random_momentum chain mass noise) c0)
              (log_post q' c0) (momenta data mass p' c0)))))
      chain ds (latent_tensor chain q' k ds) (latent_tensor chain q k ds) eq_refl eq_refl) as [t [Et [St Vt]]].
  exists t. split; [|split; [exact St|]].
  - erewrite map_nth_error; [|apply (combine_seq_nth _ 0); eassumption]. unfold sel. cbn [fst snd Nat.add]. f_equal. exact Et.
  - intros d Vd. rewrite Vt by assumption. cbn [t_at]. rewrite G. reflexivity.
Qed.

(** The log probabilities can be fetched exactly when every chain starts at a finite
    log-density. *)
Lemma log_prob_checked n eps q noise u :
  let i := sample_step chain data log_post grad mass n eps q noise u in
  (i_orig_log_prob i <> None <-> forall c, valid chain c -> is_finite (log_post q c) = true) /\
  (i_log_prob i <> None <-> forall c, valid chain c -> is_finite (log_post q c) = true).
Proof.
  unfold sample_step. destruct (leapfrog _ _ _ _ _ _) as [q' p']. cbv zeta. cbn [i_orig_log_prob i_log_prob].
  set (b := forallb _ _).
  assert (B : b = true <-> forall c, valid chain c -> is_finite (log_post q c) = true).
  { unfold b. rewrite forallb_forall. split; intros H c V.
    - specialize (H c (proj2 (indices_valid _ _) V)). unfold chain_rate in H. destruct (get_acceptance_rate _ _ _ _) as [[[[oh nh] o] nl] a] eqn:G.
      apply C25_bad_start_reported in G. cbn in H. subst o. now destruct (is_finite _).
    - apply indices_valid in V. specialize (H c V). unfold chain_rate. destruct (get_acceptance_rate _ _ _ _) as [[[[oh nh] o] nl] a] eqn:G.
      apply C25_bad_start_reported in G. cbn. subst o. now rewrite H. }
  destruct b; split; split; intros H; try (apply B; reflexivity); try discriminate; try congruence; apply B in H; discriminate.
Qed.
(** The reported log_prob is the log-density of the stored state, if it can be fetched. *)
Theorem C26_reported_log_prob n eps q noise u i t0 : chainwise ->
  sample_step chain data log_post grad mass n eps q noise u = i -> i_log_prob i = Some t0 ->
  forall stored, (forall k ds, nth_error data k = Some ds -> exists t, nth_error (i_samples i) k = Some (Some t) /\
      forall x, stored (k, x) = t_at t x) ->
  forall c, valid chain c -> t_at t0 c = log_post stored c.
Proof.
  intros Cw H E0 stored Hs c Vc.
  pose proof (C26_one_decision_per_chain n eps q noise u i H) as D.
  unfold sample_step in H.
  destruct (leapfrog _ _ _ _ _ _) as [q' p'] eqn:E.
  destruct (D c Vc) as [oh [nh [o [nl [a [G [Ga [Ra [b [Hb Hk]]]]]]]]]].
  rewrite <- H in E0. cbn [i_log_prob] in E0. destruct (forallb _ _); [|discriminate]. assert (Et : forall A (x y : A), Some x = Some y -> x = y) by congruence. apply Et in E0. subst t0. cbn [t_at]. unfold chain_rate. rewrite G. cbn [snd eltb].
  assert (Eb : (if Rlt_dec (u c) a then true else false) = b).
  { destruct (Rlt_dec (u c) a); destruct b; intuition congruence. }
  rewrite Eb. transitivity (log_post (if b then q' else q) c); [destruct b; reflexivity|].
  apply Cw. intros k ds d Hd Vd. destruct (Hs k ds Hd) as [t [Ht St]]. destruct (Hk k ds Hd) as [t' [Ht' [_ Vt]]].
  rewrite St. rewrite Ht in Ht'. injection Ht' as <-. rewrite (Vt d Vd). destruct b; reflexivity.
Qed.

Lemma agree_leapfrog c n eps q1 p1 q2 p2 : chainwise_gradient -> agree c q1 q2 -> agree c p1 p2 ->
  agree c (fst (leapfrog grad (full_mass chain mass) n eps q1 p1)) (fst (leapfrog grad (full_mass chain mass) n eps q2 p2)) /\
  agree c (snd (leapfrog grad (full_mass chain mass) n eps q1 p1)) (snd (leapfrog grad (full_mass chain mass) n eps q2 p2)).
Proof.
  intros G. unfold leapfrog. generalize (Z.to_nat (n + 1)) as f, 0%Z as i. intros f.
  revert q1 p1 q2 p2. induction f as [|f IH]; intros q1 p1 q2 p2 i Hq Hp; [split; assumption|].
  rewrite !loop_S. destruct (i <? n + 1)%Z; [|split; assumption].
  cbn [fst snd]. unfold leapfrog_body, leapfrog_integrator. cbv zeta.
  match goal with |- context[leapfrog_loop _ _ f n eps (i + 1) (?a1, ?b1)] => match goal with
    |- context[leapfrog_loop _ _ f n eps (i + 1) (?a2, ?b2)] => tryif constr_eq a1 a2 then fail else
      assert (Q : agree c a1 a2) end end.
  { intros k ds d Hk Vd. unfold velocity. rewrite (Hq k ds d Hk Vd), (Hp k ds d Hk Vd). reflexivity. }
  apply IH; [exact Q|]. intros k ds d Hk Vd. rewrite (Hp k ds d Hk Vd). f_equal. f_equal.
  exact (G _ _ _ Q k ds d Hk Vd).
Qed.
Lemma in_entries k d : In (k, d) (entries data) -> exists ds, nth_error data k = Some ds /\ valid ds d.
Proof.
  unfold entries. rewrite in_flat_map. intros [[k' ds] [I H]]. cbn [fst snd] in H. apply in_map_iff in H.
  destruct H as [d' [E H]]. injection E as -> ->. apply indices_valid in H.
  exists ds. split; [|exact H]. clear H.
  assert (G : forall l b, In (k, ds) (combine (seq b (length l)) l) -> (b <= k)%nat /\ nth_error l (k - b) = Some ds).
  { induction l as [|a l IH]; intros b; cbn; [tauto|]. intros [E|H].
    - injection E as -> ->. rewrite Nat.sub_diag. split; [lia|reflexivity].
    - destruct (IH (Datatypes.S b) H) as [L N]. split; [lia|]. replace (k - b)%nat with (Datatypes.S (k - Datatypes.S b)) by lia. exact N. }
  specialize (G data 0%nat I). rewrite Nat.sub_0_r in G. apply G.
Qed.
Lemma agree_momenta c p1 p2 : agree c p1 p2 -> momenta data mass p1 c = momenta data mass p2 c.
Proof.
  intros H. unfold momenta. apply map_ext_in. intros [k d] I. destruct (in_entries k d I) as [ds [Hk Vd]].
  cbn [fst snd]. now rewrite (H k ds d Hk Vd).
Qed.

(** Chains do not influence each other: if two runs start from states, noise and
    uniform numbers that agree on chain [c], they give the same acceptance rate and
    the same new state of chain [c], whatever the other chains contain. *)
Theorem C26_chains_independent n eps q1 noise1 u1 i1 q2 noise2 u2 i2 c :
  chainwise -> chainwise_gradient -> valid chain c ->
  agree c q1 q2 -> agree c noise1 noise2 -> u1 c = u2 c ->
  sample_step chain data log_post grad mass n eps q1 noise1 u1 = i1 ->
  sample_step chain data log_post grad mass n eps q2 noise2 u2 = i2 ->
  t_at (i_rate i1) c = t_at (i_rate i2) c /\
  forall k ds d, nth_error data k = Some ds -> valid ds d -> exists t1 t2,
    nth_error (i_samples i1) k = Some (Some t1) /\ nth_error (i_samples i2) k = Some (Some t2) /\
    t_at t1 (c ++ d) = t_at t2 (c ++ d).
Proof.
  intros Cw Cg Vc Hq Hn Hu H1 H2.
  pose proof (C26_one_decision_per_chain _ _ _ _ _ _ H1) as D1.
  pose proof (C26_one_decision_per_chain _ _ _ _ _ _ H2) as D2.
  assert (Hp : agree c (random_momentum chain mass noise1) (random_momentum chain mass noise2)).
  { intros k ds d Hk Vd. unfold random_momentum. now rewrite (Hn k ds d Hk Vd). }
  destruct (agree_leapfrog c n eps _ _ _ _ Cg Hq Hp) as [Aq Ap].
  destruct (leapfrog _ _ _ _ q1 _) as [q1' p1']. destruct (leapfrog _ _ _ _ q2 _) as [q2' p2'].
  cbn [fst snd] in Aq, Ap.
  destruct (D1 c Vc) as [? [? [? [? [a1 [G1 [R1 [_ [b1 [B1 S1]]]]]]]]]].
  destruct (D2 c Vc) as [? [? [? [? [a2 [G2 [R2 [_ [b2 [B2 S2]]]]]]]]]].
  rewrite (Cw _ _ _ Hq), (Cw _ _ _ Aq), (agree_momenta _ _ _ Hp), (agree_momenta _ _ _ Ap), G2 in G1.
  injection G1 as -> -> -> -> ->. split; [now rewrite R1, R2|].
  assert (b1 = b2) as -> by (rewrite Hu in B1; destruct b1, b2; intuition congruence).
  intros k ds d Hk Vd. destruct (S1 k ds Hk) as [t1 [T1 [_ E1]]]. destruct (S2 k ds Hk) as [t2 [T2 [_ E2]]].
  exists t1, t2. split; [exact T1|]. split; [exact T2|]. rewrite (E1 d Vd), (E2 d Vd).
  destruct b2; [apply (Aq k ds d Hk Vd)|apply (Hq k ds d Hk Vd)].
Qed.

(** Fetching the log probabilities of the step fails exactly when some chain starts at a
    non-finite log-density. *)
Theorem C26_report_fails_iff n eps q noise u :
  let i := sample_step chain data log_post grad mass n eps q noise u in
  (i_orig_log_prob i = None <-> exists c, valid chain c /\ is_finite (log_post q c) = false) /\
  (i_log_prob i = None <-> exists c, valid chain c /\ is_finite (log_post q c) = false).
Proof.
  intros i. destruct (log_prob_checked n eps q noise u) as (A & B). fold i in A, B.
  assert (X : (exists c, valid chain c /\ is_finite (log_post q c) = false) \/ forall c, valid chain c -> is_finite (log_post q c) = true).
  { destruct (existsb (fun c => negb (is_finite (log_post q c))) (indices chain)) eqn:X.
    - left. apply existsb_exists in X. destruct X as [c [I N]]. exists c. split; [now apply indices_valid|]. now destruct (is_finite _).
    - right. intros c V. apply indices_valid in V. destruct (is_finite (log_post q c)) eqn:N; [reflexivity|].
      assert (existsb (fun c => negb (is_finite (log_post q c))) (indices chain) = true); [|congruence].
      apply existsb_exists. exists c. split; [assumption|]. now rewrite N. }
  destruct X as [(c & V & N)|F].
  - split; split; intros H; eauto.
    + destruct (i_orig_log_prob i); [|reflexivity]. exfalso. assert (T : is_finite (log_post q c) = true) by (apply A; [discriminate|exact V]). congruence.
    + destruct (i_log_prob i); [|reflexivity]. exfalso. assert (T : is_finite (log_post q c) = true) by (apply B; [discriminate|exact V]). congruence.
  - split; split; intros H; try (destruct H as (c & V & N); rewrite F in N by exact V; discriminate).
    + exfalso. apply (proj2 A F H).
    + exfalso. apply (proj2 B F H).
Qed.
(** Finding: running the sampling operation without fetching them raises nothing. A chain
    that starts at a NaN or plus infinite log-density then never moves; one that starts at
    minus infinity goes to any proposal of finite energy. *)
Theorem C26_bad_start_unnoticed n eps q noise u c : valid chain c ->
  (forall k d, 0 < mass k d) ->
  let i := sample_step chain data log_post grad mass n eps q noise u in
  let '(q', p') := leapfrog grad (full_mass chain mass) n eps q (random_momentum chain mass noise) in
  (log_post q c = NaN \/ log_post q c = PInf -> t_at (i_rate i) c = Fi 0) /\
  (log_post q c = MInf -> forall l, log_post q' c = Fi l -> t_at (i_rate i) c = Fi 1).
Proof.
  intros Vc Mp. cbv zeta. unfold sample_step. destruct (leapfrog _ _ _ _ _ _) as [q' p'].
  cbn [i_rate t_at]. unfold chain_rate.
  assert (K : forall s : state, exists k, escale (1 / 2) (reduce_sum (map (fun x : ext * R => ediv (esquare (fst x)) (snd x)) (momenta data mass s c))) = Fi k).
  { intros s. unfold momenta. rewrite map_map. induction (entries data) as [|[k d] E IH]; [cbn; eauto|].
    destruct IH as (r & Hr). cbn [map fst snd esquare ediv]. unfold reduce_sum in *. cbn [fold_right].
    pose proof (Mp k d) as M0. destruct (Req_EM_T (mass k d) 0) as [Z|_]; [lra|].
    destruct (fold_right eadd (Fi 0) _) eqn:F; cbn in Hr |- *; try destruct (Rlt_dec 0 (1/2)); try lra; try discriminate; eauto. }
  destruct (K (random_momentum chain mass noise)) as (k0 & K0). destruct (K p') as (k1 & K1).
  unfold get_acceptance_rate, hamiltonian. rewrite K0, K1. cbn [snd]. split.
  - intros [-> | ->]; destruct (log_post q' c); cbn; reflexivity.
  - intros -> l ->. cbn. now rewrite exp_0.
Qed.

(** ** C25 for the transition of all chains *)

(** [L] lists the data entries of one chain, each once: (k, d) is entry [d] of the
    k-th latent. *)
Definition lists_entries (L : list (nat * index)) : Prop :=
  NoDup L /\ forall k d, In (k, d) L <-> exists ds, nth_error data k = Some ds /\ valid ds d.

Lemma entries_listed : lists_entries (entries data).
Proof.
  split.
  - unfold entries. generalize 0%nat as b. induction data as [|a l IH]; intros b; [constructor|].
    cbn [length seq combine flat_map fst snd]. apply nodup_app.
    + apply FinFun.Injective_map_NoDup; [intros x y E; now injection E|apply nodup_indices].
    + apply IH.
    + intros [k d] I1 I2. apply in_map_iff in I1. destruct I1 as [y [E _]]. injection E as <- <-.
      apply in_flat_map in I2. destruct I2 as [[k ds] [J I2]]. apply in_combine_l, in_seq in J.
      apply in_map_iff in I2. destruct I2 as [z [E _]]. injection E as -> _. lia.
  - intros k d. split; [apply in_entries|]. intros [ds [Hk V]]. unfold entries. apply in_flat_map.
    exists (k, ds). split; [|apply in_map, indices_valid, V]. eapply nth_error_In. apply (combine_seq_nth _ 0). exact Hk.
Qed.
Lemma energy_permutation l L L' (f : nat * index -> R * R) : Permutation L L' -> energy l (map f L) = energy l (map f L').
Proof.
  intros P. unfold energy. do 2 f_equal. induction P; cbn; lra.
Qed.

(** One transition of one chain, for finite log-densities at its two ends: momenta of
    variance the mass, the leapfrog proposal, the rate min(1, exp(H_old - H_new)) with
    the energies of this chain summed over all its entries of all latents, and
    acceptance exactly when the uniform number is below it. *)
Theorem C25_transition n eps q noise u i L c l l' : lists_entries L -> valid chain c ->
  (forall k d, In (k, d) L -> 0 < mass k d) ->
  sample_step chain data log_post grad mass n eps q noise u = i ->
  let M : state := fun x => mass (fst x) (skipn (length chain) (snd x)) in
  let p : state := fun x => noise x * sqrt (M x) in
  let q' := fst (leapfrog grad M n eps q p) in
  let p' := snd (leapfrog grad M n eps q p) in
  log_post q c = Fi l -> log_post q' c = Fi l' ->
  let H := fun v (r : state) => energy v (map (fun x => (r (fst x, c ++ snd x), mass (fst x) (snd x))) L) in
  let a := Rmin 1 (exp (H l p - H l' p')) in
  t_at (i_rate i) c = Fi a /\
  forall k d, In (k, d) L -> exists t, nth_error (i_samples i) k = Some (Some t) /\
    t_at t (c ++ d) = if Rlt_dec (u c) a then q' (k, c ++ d) else q (k, c ++ d).
Proof.
  intros [N In_L] Vc Mp S M p q' p' E E' H a.
  assert (P : Permutation (entries data) L).
  { apply NoDup_Permutation; [apply entries_listed|exact N|]. intros [k d]. rewrite In_L. apply entries_listed. }
  pose proof (C26_one_decision_per_chain _ _ _ _ _ _ S) as D.
  change (full_mass chain mass) with M in D. change (random_momentum chain mass noise) with p in D.
  unfold q', p' in *. destruct (leapfrog grad M n eps q p) as [q1 p1]. cbn [fst snd] in *.
  destruct (D c Vc) as [oh [nh [o [nl [r [G [R [_ [b [B K]]]]]]]]]]. clear D.
  assert (F : forall s : state, momenta data mass s c =
              finite_pairs (map (fun x => (s (fst x, c ++ snd x), mass (fst x) (snd x))) (entries data))).
  { intros s. unfold momenta, finite_pairs. rewrite map_map. reflexivity. }
  assert (Pm : forall s : state, positive_masses (map (fun x => (s (fst x, c ++ snd x), mass (fst x) (snd x))) (entries data))).
  { intros s. unfold positive_masses. rewrite Forall_map. apply Forall_forall. intros [k d] I. cbn [fst snd]. apply Mp.
    eapply Permutation_in; eassumption. }
  rewrite E, E', !F, C25_rate_formula in G by apply Pm. injection G as _ _ _ _ G.
  assert (Ea : a = r).
  { rewrite <- G. unfold a, H. now rewrite !(energy_permutation _ _ _ _ P). }
  rewrite R, Ea. split; [reflexivity|]. intros k d I. apply In_L in I. destruct I as [ds [Hk V]].
  destruct (K k ds Hk) as [t [T [_ At]]]. exists t. split; [exact T|]. rewrite (At d V).
  destruct b, (Rlt_dec (u c) r); try reflexivity; exfalso; intuition congruence.
Qed.
End Chains.
Print Assumptions C25_transition.
Print Assumptions C26_one_decision_per_chain.
Print Assumptions C26_reported_log_prob.
Print Assumptions C26_report_fails_iff.
Print Assumptions C26_bad_start_unnoticed.
Print Assumptions C26_chains_independent.

(** Two chains of one scalar latent and a latent vector of length two, standard
    normal target: the log-density and gradient are chainwise and the log probability can be fetched. *)
Example chains_case :
  let data := [[]; [2%nat]] in
  let lp := fun (s : state) (c : index) => Fi (- (s (0%nat, c) ^ 2 + s (1%nat, c ++ [0%nat]) ^ 2 + s (1%nat, c ++ [1%nat]) ^ 2) / 2) in
  let gr := fun (s : state) x => - s x in
  chainwise data lp /\ chainwise_gradient data gr /\ valid [2%nat] [1%nat] /\
  forall n eps q noise u, i_log_prob (sample_step [2%nat] data lp gr (fun _ _ => 1) n eps q noise u) <> None.
Proof.
  cbv zeta. split; [|split; [|split]].
  - intros s s' c H.
    assert (E0 : s (0%nat, c) = s' (0%nat, c)).
    { pose proof (H 0%nat [] [] eq_refl) as H0. rewrite !app_nil_r in H0. apply H0.
      split; [reflexivity|]. cbn. intros; lia. }
    assert (E1 : forall j, (j < 2)%nat -> s (1%nat, c ++ [j]) = s' (1%nat, c ++ [j])).
    { intros j L. apply (H 1%nat [2%nat] [j] eq_refl). apply valid_cons. split; [exact L|].
      split; [reflexivity|]. cbn. intros; lia. }
    now rewrite E0, (E1 0%nat), (E1 1%nat) by lia.
  - intros s s' c H k ds d Hk Vd. now rewrite (H k ds d Hk Vd).
  - split; [reflexivity|]. cbn. intros; repeat (destruct k; cbn in *; try lia).
  - intros. apply log_prob_checked. reflexivity.
Qed.

(** The entries of a chain of that model, and a mass that differs between them. *)
Example transition_case :
  let L := [(0%nat, []); (1%nat, [0%nat]); (1%nat, [1%nat])] in
  lists_entries [[]; [2%nat]] L /\
  forall k d, In (k, d) L -> 0 < (fun k (d : index) => INR (k + length d + hd 0%nat d + 1)) k d.
Proof.
  cbv zeta. split.
  - exact (entries_listed [] [[]; [2%nat]] (fun _ _ => 1)).
  - intros k d _. apply lt_0_INR. lia.
Qed.
