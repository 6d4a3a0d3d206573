(** C30, C31 and C32: stochastic gradient samplers. *)
From Coq Require Import List Arith Lia Bool Reals Lra ZArith FunctionalExtensionality.
From Verif Require Import ModelShape ModelHMC ModelSGMCMC SpecShape SpecHMC SpecSGMCMC SpecChol ProofChol SpecAdapt ProofAdapt ProofHMC.
Import ListNotations.
Local Open Scope R_scope.

(** ** C30: one simultaneous step under every schedule *)
Section Schedules.
Context {X C V : Type}.
Variables (eqX : forall a b : X, {a = b} + {a <> b}) (eqC : forall a b : C, {a = b} + {a <> b}).
Variables (via : X -> C) (new : X -> (X -> V) -> V) (vars : list X) (uses : X -> list X).
(** The new value of [x] depends on the variables in [uses x] only. *)
Definition depends_on_uses : Prop :=
  forall x f g, In x vars -> (forall y, In y (uses x) -> f y = g y) -> new x f = new x g.
Notation Event := (operation X C).
Notation run := (run eqX eqC via new).

Lemma set_same {K W} eq (f : K -> W) k w : set eq f k w k = w.
Proof. unfold set. destruct (eq k k); congruence. Qed.
Lemma set_other {K W} eq (f : K -> W) k w k' : k' <> k -> set eq f k w k' = f k'.
Proof. unfold set. destruct (eq k' k); congruence. Qed.

(** If every read of a variable comes before its assignment, the result is the
    simultaneous update. *)
Lemma race_free_prefix barrier l s0 : depends_on_uses -> schedule via vars uses barrier l ->
  (forall x y, In x vars -> In y (uses x) -> In y vars -> precedes l (Use (via x) y) (Assign y)) ->
  forall l1 l2, l = l1 ++ l2 -> let s := run l1 s0 in
    (forall y, ~ In (Assign y) l1 -> mem s y = mem s0 y) /\
    (forall c y, In (Use c y) l1 -> seen s c y = mem s0 y) /\
    (forall x, In (Compute x) l1 -> out s x = new x (mem s0)) /\
    (forall x, In (Assign x) l1 -> mem s x = new x (mem s0)).
Proof.
  intros Dep [ND [Ev Ed]] RF.
  { induction l1 as [|e l1 IH] using rev_ind; intros l2 E s.
    - subst s. cbn. repeat split; intros; tauto.
    - rewrite <- app_assoc in E. cbn [app] in E. specialize (IH _ E). cbv zeta in IH. destruct IH as [I1 [I2 [I3 I4]]].
      subst s. unfold ModelSGMCMC.run. rewrite fold_left_app. cbn [fold_left]. fold (run l1 s0). set (s := run l1 s0) in *.
      assert (Ne : ~ In e l1).
      { intros H. rewrite E in ND. apply NoDup_remove_2 in ND. apply ND, in_app_iff. now left. }
      assert (Ie : event_of_step via vars uses e) by (apply Ev; rewrite E; apply in_app_iff; right; left; reflexivity).
      destruct e as [c y|x|x]; cbn [exec mem seen out] in *.
      + destruct Ie as [x [Hx [-> Hy]]].
        assert (A : ~ In (Assign y) l1).
        { intros A. assert (Vy : In y vars).
          { assert (H : In (Assign y) l) by (rewrite E; apply in_app_iff; now left). apply Ev in H. exact H. }
          pose proof (RF x y Hx Hy Vy) as P. apply in_split in A. destruct A as [a [b ->]].
          rewrite <- app_assoc in E. cbn in E. specialize (P _ _ E). apply Ne, in_app_iff. now left. }
        repeat split; intros.
        * apply I1. intros H'. apply H, in_app_iff. now left.
        * apply in_app_iff in H. destruct (eqC c (via x)) as [->|D].
          -- destruct (eqX y0 y) as [->|D']; [rewrite set_same; now apply I1|]. rewrite set_other by assumption.
             destruct H as [H|[H|[]]]; [now apply I2|]. injection H as H. congruence.
          -- destruct H as [H|[H|[]]]; [now apply I2|]. injection H as H1 H2. congruence.
        * apply I3. apply in_app_iff in H. destruct H as [H|[H|[]]]; [assumption|discriminate].
        * apply I4. apply in_app_iff in H. destruct H as [H|[H|[]]]; [assumption|discriminate].
      + repeat split; intros.
        * apply I1. intros H'. apply H, in_app_iff. now left.
        * apply I2. apply in_app_iff in H. destruct H as [H|[H|[]]]; [assumption|discriminate].
        * destruct (eqX x0 x) as [->|D].
          -- rewrite set_same. apply Dep; [exact Ie|]. intros y Hy. apply I2.
             apply (Ed (Use (via x) y) (Compute x)) with (l2 := l2); [|exact E]. cbn. auto.
          -- rewrite set_other by assumption. apply I3. apply in_app_iff in H. destruct H as [H|[H|[]]]; [assumption|]. injection H as H. congruence.
        * apply I4. apply in_app_iff in H. destruct H as [H|[H|[]]]; [assumption|discriminate].
      + assert (Cx : In (Compute x) l1).
        { apply (Ed (Compute x) (Assign x)) with (l2 := l2); [|exact E]. cbn. cbn in Ie. auto. }
        repeat split; intros.
        * destruct (eqX y x) as [->|D]; [exfalso; apply H, in_app_iff; right; left; reflexivity|].
          rewrite set_other by assumption. apply I1. intros H'. apply H, in_app_iff. now left.
        * apply I2. apply in_app_iff in H. destruct H as [H|[H|[]]]; [assumption|discriminate].
        * apply I3. apply in_app_iff in H. destruct H as [H|[H|[]]]; [assumption|discriminate].
        * destruct (eqX x0 x) as [->|D]; [rewrite set_same; now apply I3|]. rewrite set_other by assumption.
          apply I4. apply in_app_iff in H. destruct H as [H|[H|[]]]; [assumption|]. injection H as H. congruence. }
Qed.
Lemma race_free barrier l s0 : depends_on_uses -> schedule via vars uses barrier l ->
  (forall x y, In x vars -> In y (uses x) -> In y vars -> precedes l (Use (via x) y) (Assign y)) ->
  forall x, In x vars -> mem (run l s0) x = new x (mem s0) /\ out (run l s0) x = new x (mem s0).
Proof.
  intros Dep S RF x Hx. destruct (race_free_prefix barrier l s0 Dep S RF l [] (eq_sym (app_nil_r l))) as [_ [_ [I3 I4]]]. destruct S as [_ [Ev _]].
  split; [apply I4|apply I3]; apply Ev; exact Hx.
Qed.

Lemma precedes_trans (l : list Event) a b c : precedes l a b -> precedes l b c -> precedes l a c.
Proof.
  intros P Q l1 l2 E. specialize (Q _ _ E). apply in_split in Q. destruct Q as [x [y ->]].
  rewrite <- app_assoc in E. cbn in E. specialize (P _ _ E). apply in_app_iff. now left.
Qed.

(** With the control dependencies of SGHMC and SGNHT: whatever the order in which the
    runtime executes the graph, and whether reads are snapshots or look at the live
    buffers, every variable ends at its new value computed from the old contents, and
    that value is also what the computation hands to whoever fetches it. *)
Theorem C30_barrier l s0 : depends_on_uses -> schedule via vars uses true l ->
  forall x, In x vars -> mem (run l s0) x = new x (mem s0) /\ out (run l s0) x = new x (mem s0).
Proof.
  intros Dep S. apply race_free with (barrier := true); try assumption.
  intros x y Hx Hy Vy. destruct S as [_ [_ Ed]].
  apply precedes_trans with (Compute x); apply Ed; cbn; auto.
Qed.

(** C57: a run stopped at any point. Each variable holds its old value or the new one
    computed from the old contents, and none has changed as long as one new value is missing. *)
Theorem C57_sgmcmc_stopped l l1 l2 s0 : depends_on_uses -> schedule via vars uses true l -> l = l1 ++ l2 ->
  (forall x, mem (run l1 s0) x = mem s0 x \/ In x vars /\ mem (run l1 s0) x = new x (mem s0)) /\
  ((exists x, In x vars /\ ~ In (Compute x) l1) -> forall x, mem (run l1 s0) x = mem s0 x).
Proof.
  intros Dep S E.
  assert (RF : forall x y, In x vars -> In y (uses x) -> In y vars -> precedes l (Use (via x) y) (Assign y)).
  { intros x y Hx Hy Vy. destruct S as [_ [_ Ed]]. apply precedes_trans with (Compute x); apply Ed; cbn; auto. }
  destruct (race_free_prefix true l s0 Dep S RF l1 l2 E) as [I1 [_ [_ I4]]]. destruct S as [_ [Ev Ed]].
  assert (D : forall x, In (Assign x) l1 \/ ~ In (Assign x) l1).
  { intros x. destruct (in_dec (fun a b : Event => ltac:(decide equality) : {a = b} + {a <> b}) (Assign x) l1); auto. }
  split.
  - intros x. destruct (D x) as [A|A]; [right|left; now apply I1]. split; [|now apply I4].
    assert (H : In (Assign x) l) by (rewrite E; apply in_app_iff; now left). apply Ev in H. exact H.
  - intros (z & Vz & Nz) x. destruct (D x) as [A|A]; [exfalso; apply Nz|now apply I1].
    assert (Vx : In x vars) by (assert (H : In (Assign x) l) by (rewrite E; apply in_app_iff; now left); apply Ev in H; exact H).
    apply in_split in A as (a & b & ->). rewrite <- app_assoc in E. apply in_app_iff. left.
    apply (Ed (Compute z) (Assign x)) with (l2 := b ++ l2); [cbn; auto|exact E].
Qed.
End Schedules.
(** Without control dependencies (SGLD, PSGLD), when each variable is read once per step
    and every new value uses the variable's own old value. *)
Theorem C30_snapshot {X V} (eqX : forall a b : X, {a = b} + {a <> b}) (new : X -> (X -> V) -> V) vars uses l s0
  (eqC : forall a b : unit, {a = b} + {a <> b}) :
  depends_on_uses new vars uses -> (forall x, In x vars -> In x (uses x)) ->
  schedule (fun _ => tt) vars uses false l ->
  let s := run eqX eqC (fun _ => tt) new l s0 in
  forall x, In x vars -> mem s x = new x (mem s0) /\ out s x = new x (mem s0).
Proof.
  intros Dep Own S. apply race_free with (vars := vars) (uses := uses) (barrier := false); try assumption.
  intros x y Hx Hy Vy. destruct S as [_ [_ Ed]].
  apply precedes_trans with (Compute y); apply Ed; cbn; auto.
Qed.
(** Without them each variable still holds its old or its new value. *)
Theorem C57_snapshot_stopped {X V} (eqX : forall a b : X, {a = b} + {a <> b}) (new : X -> (X -> V) -> V) vars uses l l1 l2 s0
  (eqC : forall a b : unit, {a = b} + {a <> b}) :
  depends_on_uses new vars uses -> (forall x, In x vars -> In x (uses x)) ->
  schedule (fun _ => tt) vars uses false l -> l = l1 ++ l2 ->
  let s := run eqX eqC (fun _ => tt) new l1 s0 in
  forall x, mem s x = mem s0 x \/ In x vars /\ mem s x = new x (mem s0).
Proof.
  intros Dep Own S E s x. assert (RF : forall x y, In x vars -> In y (uses x) -> In y vars -> precedes l (Use tt y) (Assign y)).
  { intros z y Hx Hy Vy. destruct S as [_ [_ Ed]]. apply precedes_trans with (Compute y); apply Ed; cbn; auto. }
  destruct (race_free_prefix eqX eqC (fun _ => tt) new vars uses false l s0 Dep S RF l1 l2 E) as [I1 [_ [_ I4]]]. destruct S as [_ [Ev _]].
  destruct (in_dec (fun a b : operation X unit => ltac:(decide equality) : {a = b} + {a <> b}) (Assign x) l1) as [A|A]; [right|left; now apply I1].
  split; [|now apply I4]. assert (H : In (Assign x) l) by (rewrite E; apply in_app_iff; now left). apply Ev in H. exact H.
Qed.
Print Assumptions C57_snapshot_stopped.
Print Assumptions C30_barrier.
Print Assumptions C57_sgmcmc_stopped.
Print Assumptions C30_snapshot.

(** The four samplers as such graphs. [used k] lists the variables looked at by the new
    values of latent [k] (its gradient decides which), its own ones among them. *)
Section Instances.
Variables (shapes : list shape) (grad : state -> state).
Definition latent_cells (n : nat) : list cell := map Q (seq 0 n).
Definition sgld_new lr xi (x : cell) (f : cell -> index -> R) : index -> R :=
  match x with Q k => content (sgld_step grad lr (latents_of f) xi) k | _ => f x end.
Definition psgld_new lr decay eps xi (x : cell) (f : cell -> index -> R) : index -> R :=
  let r := psgld_step grad lr decay eps (latents_of f) (aux_of f) xi in
  match x with Q k => content (fst r) k | Aux k => content (snd r) k | _ => f x end.
Definition sghmc_new lr alpha beta second resample zeta xi (x : cell) (f : cell -> index -> R) : index -> R :=
  let r := sghmc_step grad lr alpha beta second (latents_of f) (old_momentum lr resample (momenta_of f) zeta) xi in
  match x with Q k => content (fst r) k | Mom k => content (snd r) k | _ => f x end.
Definition sgnht_new lr a tune second vec resample zeta xi (x : cell) (f : cell -> index -> R) : index -> R :=
  let '(q, v, al) := sgnht_step shapes grad lr a tune second vec (latents_of f) (old_momentum lr resample (momenta_of f) zeta) (frictions_of f) xi in
  match x with Q k => content q k | Mom k => content v k | Fric k => content al k | _ => f x end.

Definition sghmc_cells n : list cell := flat_map (fun k => [Q k; Mom k]) (seq 0 n).
Definition sgnht_cells n : list cell := flat_map (fun k => [Q k; Mom k; Fric k]) (seq 0 n).
Definition psgld_cells n : list cell := flat_map (fun k => [Q k; Aux k]) (seq 0 n).

Lemma mean_kinetic_mean vec v x : temperature shapes vec v x (mean_kinetic shapes vec v x).
Proof.
  unfold temperature, mean_kinetic. destruct vec; [ring|]. exists (indices (nth (fst x) shapes [])).
  split; [apply nodup_indices|]. split; [intros; apply indices_valid|]. unfold avg. rewrite map_length. f_equal.
  f_equal. apply map_ext. intros. ring.
Qed.
Lemma mean_kinetic_ext vec v w x : (forall i, v (fst x, i) = w (fst x, i)) -> mean_kinetic shapes vec v x = mean_kinetic shapes vec w x.
Proof.
  intros H. unfold mean_kinetic. destruct vec; [destruct x; cbn in *; now rewrite H|]. f_equal. apply map_ext. intros. now rewrite H.
Qed.

Lemma half_decays h h' x y z : h = h' ->
  exp (- (1/2) * h) * (exp (- (1/2) * h) * x + y + z) = exp (- h') * x + exp (- h' / 2) * (y + z).
Proof.
  intros <-. replace (- h) with (- (1/2) * h + - (1/2) * h) by field. rewrite exp_plus.
  replace ((- (1/2) * h + - (1/2) * h) / 2) with (- (1/2) * h) by field. ring.
Qed.

Lemma halves F F' m m' t c : F = F' -> m = m' -> F + 1/2 * t * (m - c) = F' + t / 2 * (m' - c).
Proof. intros <- <-. field. Qed.
Lemma halves' F F' m m' n n' : F = F' -> m = m' -> n = n' -> F + 1/2 * m + 1/2 * n = F' + m' / 2 + n' / 2.
Proof. intros <- <- <-. field. Qed.

(** SGHMC: after the step the variables hold the solution of the published equations
    from the old contents; the returned values are those of the variables after the
    step, and the returned energy is the mean of the squared new momentum. *)
Theorem C30_sghmc {C} (eqC : forall a b : C, {a = b} + {a <> b}) via uses n lr alpha beta second resample zeta xi l f seen0 out0 :
  let new := sghmc_new lr alpha beta second resample zeta xi in
  depends_on_uses new (sghmc_cells n) uses -> schedule via (sghmc_cells n) uses true l ->
  let s' := run cell_eq eqC via new l (Machine f seen0 out0) in
  sghmc_equations n grad lr alpha beta second (entering lr resample (momenta_of f) zeta) xi
    (latents_of f) (latents_of (mem s')) (momenta_of (mem s')) /\
  forall k i, (k < n)%nat -> info_q (out s') k i = mem s' (Q k) i /\
    mean_over (nth k shapes []) (fun j => mem s' (Mom k) j * mem s' (Mom k) j) (info_mean_k shapes false (out s') k i).
Proof.
  intros new D S s'.
  assert (B := fun x H => C30_barrier cell_eq eqC via new _ uses l (Machine f seen0 out0) D S x H). cbn [mem] in B. fold s' in B.
  assert (M : forall k x, (k < n)%nat -> In x [Q k; Mom k] -> In x (sghmc_cells n)).
  { intros k x L Hx. apply in_flat_map. exists k. split; [apply in_seq; lia|assumption]. }
  split.
  - intros [k i] L. cbn [fst] in *.
    assert (Lq : latents_of (mem s') (k, i) = new (Q k) f i) by (unfold latents_of; cbn [fst snd]; now rewrite (proj1 (B (Q k) (M k (Q k) L ltac:(cbn; auto))))).
    assert (Lv : momenta_of (mem s') (k, i) = new (Mom k) f i) by (unfold momenta_of; cbn [fst snd]; now rewrite (proj1 (B (Mom k) (M k (Mom k) L ltac:(cbn; auto))))).
    rewrite Lq, Lv. unfold new, sghmc_new, sghmc_step, content.
    change (old_momentum lr resample (momenta_of f) zeta) with (entering lr resample (momenta_of f) zeta).
    set (v0 := entering lr resample (momenta_of f) zeta).
    destruct second; cbn [fst snd]; [|split; ring].
    replace (fun x : position => latents_of f x + 1 / 2 * v0 x) with (fun x : entry => latents_of f x + v0 x / 2) by (extensionality y; field).
    split; [now apply half_decays|field].
  - intros k i L. destruct (B (Q k) (M k (Q k) L ltac:(cbn; auto))) as [E1 E2]. unfold info_q. split; [congruence|].
    destruct (B (Mom k) (M k (Mom k) L ltac:(cbn; auto))) as [E3 E4].
    pose proof (mean_kinetic_mean false (momenta_of (out s')) (k, i)) as T. cbn [temperature fst] in T.
    unfold info_mean_k. change (fun j => momenta_of (out s') (k, j) * momenta_of (out s') (k, j)) with (fun j => out s' (Mom k) j * out s' (Mom k) j) in T.
    now rewrite E3, <- E4.
Qed.
(** SGNHT: likewise, with the friction. *)
Theorem C30_sgnht {C} (eqC : forall a b : C, {a = b} + {a <> b}) via uses n lr a tune second vec resample zeta xi l f seen0 out0 :
  let new := sgnht_new lr a tune second vec resample zeta xi in
  depends_on_uses new (sgnht_cells n) uses -> schedule via (sgnht_cells n) uses true l ->
  let s' := run cell_eq eqC via new l (Machine f seen0 out0) in
  sgnht_equations n grad lr shapes a tune second vec (entering lr resample (momenta_of f) zeta) xi
    (latents_of f) (frictions_of f) (latents_of (mem s')) (momenta_of (mem s')) (frictions_of (mem s')) /\
  forall k i, (k < n)%nat -> info_q (out s') k i = mem s' (Q k) i /\ info_alpha (out s') k i = mem s' (Fric k) i /\
    temperature shapes vec (momenta_of (mem s')) (k, i) (info_mean_k shapes vec (out s') k i).
Proof.
  intros new D S s'.
  assert (B := fun x H => C30_barrier cell_eq eqC via new _ uses l (Machine f seen0 out0) D S x H). cbn [mem] in B. fold s' in B.
  assert (M : forall k x, (k < n)%nat -> In x [Q k; Mom k; Fric k] -> In x (sgnht_cells n)).
  { intros k x L Hx. apply in_flat_map. exists k. split; [apply in_seq; lia|assumption]. }
  assert (ME : forall k i, (k < n)%nat -> mean_kinetic shapes vec (momenta_of (mem s')) (k, i) = mean_kinetic shapes vec (momenta_of (out s')) (k, i)).
  { intros k i L. apply mean_kinetic_ext. intros j. unfold momenta_of. cbn [fst snd].
    destruct (B (Mom k) (M k (Mom k) L ltac:(cbn; auto))) as [E3 E4]. congruence. }
  split.
  - intros [k i] L. cbn [fst] in *.
    assert (EQ : forall j, latents_of (mem s') (k, j) = content (fst (fst (sgnht_step shapes grad lr a tune second vec (latents_of f) (old_momentum lr resample (momenta_of f) zeta) (frictions_of f) xi))) k j /\
       momenta_of (mem s') (k, j) = content (snd (fst (sgnht_step shapes grad lr a tune second vec (latents_of f) (old_momentum lr resample (momenta_of f) zeta) (frictions_of f) xi))) k j /\
       frictions_of (mem s') (k, j) = content (snd (sgnht_step shapes grad lr a tune second vec (latents_of f) (old_momentum lr resample (momenta_of f) zeta) (frictions_of f) xi)) k j).
    { intros j. change (latents_of (mem s') (k, j)) with (mem s' (Q k) j). change (momenta_of (mem s') (k, j)) with (mem s' (Mom k) j).
      change (frictions_of (mem s') (k, j)) with (mem s' (Fric k) j).
      rewrite (proj1 (B (Q k) (M k (Q k) L ltac:(cbn; auto)))), (proj1 (B (Mom k) (M k (Mom k) L ltac:(cbn; auto)))), (proj1 (B (Fric k) (M k (Fric k) L ltac:(cbn; auto)))).
      unfold new, sgnht_new. destruct (sgnht_step _ _ _ _ _ _ _ _ _ _ _) as [[q v] al]. auto. }
    assert (MV : mean_kinetic shapes vec (momenta_of (mem s')) (k, i) =
       mean_kinetic shapes vec (snd (fst (sgnht_step shapes grad lr a tune second vec (latents_of f) (old_momentum lr resample (momenta_of f) zeta) (frictions_of f) xi))) (if vec then (k, i) else (k, []))).
    { transitivity (mean_kinetic shapes vec (momenta_of (mem s')) (if vec then (k, i) else (k, []))); [now destruct vec|].
      apply mean_kinetic_ext. intros j'. destruct vec; apply EQ. }
    assert (FX : forall w, mean_kinetic shapes vec w (if vec then (k, i) else (k, [])) = mean_kinetic shapes vec w (k, i)).
    { intros w. now destruct vec. }
    destruct (EQ i) as [Eq [Ev _]].
    assert (Ef : frictions_of (mem s') (if vec then (k, i) else (k, [])) = snd (sgnht_step shapes grad lr a tune second vec (latents_of f) (old_momentum lr resample (momenta_of f) zeta) (frictions_of f) xi) (if vec then (k, i) else (k, [])))
      by (destruct vec; apply EQ).
    change (old_momentum lr resample (momenta_of f) zeta) with (entering lr resample (momenta_of f) zeta) in *.
    set (v0 := entering lr resample (momenta_of f) zeta) in *. unfold content in Eq, Ev. revert Eq Ev Ef MV.
    unfold sgnht_step. destruct second; cbn [fst snd]; intros Eq Ev Ef MV.
    + exists (mean_kinetic shapes vec v0 (k, i)), (mean_kinetic shapes vec (momenta_of (mem s')) (k, i)).
      split; [apply mean_kinetic_mean|]. split; [apply mean_kinetic_mean|].
      rewrite <- MV in Ef. clear MV EQ ME B. cbv zeta. cbn [fst].
      set (m' := mean_kinetic shapes vec (momenta_of (mem s')) (k, i)) in *. clearbody m'.
      replace (fun x : position => latents_of f x + 1 / 2 * v0 x) with (fun x : entry => latents_of f x + v0 x / 2) in * by (extensionality y; field).
      assert (FM : mean_kinetic shapes vec v0 (if vec then (k, i) else (k, [])) = mean_kinetic shapes vec v0 (k, i)) by apply FX. clear FX.
      unfold friction_at in *. destruct vec; cbn [fst] in *; rewrite ?FM in *;
      (split; [etransitivity; [exact Ev|]; apply half_decays; apply halves; reflexivity|]);
      (split; [rewrite <- Ev in Eq; etransitivity; [exact Eq|]; apply halves'; reflexivity|]);
      (etransitivity; [exact Ef|]; apply halves; [apply halves; reflexivity|reflexivity]).
    + exists (mean_kinetic shapes vec (momenta_of (mem s')) (k, i)). split; [apply mean_kinetic_mean|].
      rewrite <- MV in Ef. clear MV EQ ME B. cbv zeta. cbn [fst].
      unfold friction_at in *. destruct vec; cbn [fst] in *;
      (split; [exact Ev|]); (split; [rewrite <- Ev in Eq; exact Eq|exact Ef]).
  - intros k i L. destruct (B (Q k) (M k (Q k) L ltac:(cbn; auto))) as [E1 E2]. destruct (B (Fric k) (M k (Fric k) L ltac:(cbn; auto))) as [E3 E4].
    unfold info_q, info_alpha. split; [congruence|]. split; [congruence|]. unfold info_mean_k. rewrite <- ME by exact L. apply mean_kinetic_mean.
Qed.
(** SGLD. *)
Theorem C30_sgld eqC uses n lr xi l f seen0 out0 :
  let new := sgld_new lr xi in
  depends_on_uses new (latent_cells n) uses -> (forall k, (k < n)%nat -> In (Q k) (uses (Q k))) ->
  schedule (fun _ => tt) (latent_cells n) uses false l ->
  let s' := run cell_eq eqC (fun _ => tt) new l (Machine f seen0 out0) in
  langevin n grad lr (fun _ => 1) xi (latents_of f) (latents_of (mem s')) /\
  forall k i, (k < n)%nat -> info_q (out s') k i = mem s' (Q k) i.
Proof.
  intros new D O S s'.
  assert (B : forall k, (k < n)%nat -> mem s' (Q k) = new (Q k) f /\ out s' (Q k) = new (Q k) f).
  { intros k L. apply (C30_snapshot cell_eq new (latent_cells n) uses l (Machine f seen0 out0) eqC D); [|assumption|].
    - intros x Hx. apply in_map_iff in Hx. destruct Hx as [j [<- Hj]]. apply in_seq in Hj. apply O. lia.
    - apply in_map, in_seq. lia. }
  split.
  - intros [k i] L. cbn [fst] in L. change (latents_of (mem s') (k, i)) with (mem s' (Q k) i). rewrite (proj1 (B k L)).
    unfold new, sgld_new, content, sgld_step. rewrite Rmult_1_r. field.
  - intros k i L. unfold info_q. destruct (B k L). congruence.
Qed.
(** PSGLD: the preconditioner is that of the updated running average. *)
Theorem C30_psgld eqC uses n lr decay eps xi l f seen0 out0 :
  let new := psgld_new lr decay eps xi in
  depends_on_uses new (psgld_cells n) uses -> (forall x, In x (psgld_cells n) -> In x (uses x)) ->
  schedule (fun _ => tt) (psgld_cells n) uses false l ->
  let s' := run cell_eq eqC (fun _ => tt) new l (Machine f seen0 out0) in
  let aux' := aux_of (mem s') in
  (forall x, (fst x < n)%nat -> aux' x = decay * aux_of f x + (1 - decay) * (grad (latents_of f) x * grad (latents_of f) x)) /\
  langevin n grad lr (fun x => / (eps + sqrt (aux' x))) xi (latents_of f) (latents_of (mem s')) /\
  forall k i, (k < n)%nat -> info_q (out s') k i = mem s' (Q k) i.
Proof.
  intros new D O S s' aux'.
  assert (B := fun x H => C30_snapshot cell_eq new (psgld_cells n) uses l (Machine f seen0 out0) eqC D O S x H).
  cbn [mem] in B. fold s' in B.
  assert (M : forall k x, (k < n)%nat -> In x [Q k; Aux k] -> In x (psgld_cells n)).
  { intros k x L Hx. apply in_flat_map. exists k. split; [apply in_seq; lia|assumption]. }
  assert (A : forall x, (fst x < n)%nat -> aux' x = decay * aux_of f x + (1 - decay) * (grad (latents_of f) x * grad (latents_of f) x)).
  { intros [k i] L. cbn [fst] in L. change (aux' (k, i)) with (mem s' (Aux k) i). rewrite (proj1 (B (Aux k) (M k (Aux k) L ltac:(cbn; auto)))).
    unfold new, psgld_new, psgld_step, rms_aux, content. cbn [fst snd]. ring. }
  split; [exact A|]. split.
  - intros [k i] L. rewrite (A (k, i) L). cbn [fst] in L. change (latents_of (mem s') (k, i)) with (mem s' (Q k) i). rewrite (proj1 (B (Q k) (M k (Q k) L ltac:(cbn; auto)))).
    unfold new, psgld_new, psgld_step, preconditioner, rms_aux, content. cbn [fst snd].
    replace (grad (latents_of f) (k, i) ^ 2) with (grad (latents_of f) (k, i) * grad (latents_of f) (k, i)) by ring.
    unfold Rdiv. rewrite !Rmult_1_l.
    match goal with |- context[/ (eps + ?w)] => set (iv := / (eps + w)) end. field.
  - intros k i L. unfold info_q. destruct (B (Q k) (M k (Q k) L ltac:(cbn; auto))). congruence.
Qed.
End Instances.
Print Assumptions C30_sghmc.
Print Assumptions C30_sgnht.
Print Assumptions C30_sgld.
Print Assumptions C30_psgld.

(** Two scalar latents with log-density -(x - y)^2/2, both reading both. *)
Definition pair_grad (s : state) : state := fun x =>
  match fst x with O => s (1%nat, []) - s (0%nat, []) | _ => s (0%nat, []) - s (1%nat, []) end.
Definition pair_uses (x : cell) : list cell := [Q 0; Q 1].
Lemma pair_depends : depends_on_uses (sgld_new pair_grad 2 (fun _ => 0)) (latent_cells 2) pair_uses.
Proof.
  intros x f g Hx H. cbn in Hx.
  assert (E0 : f (Q 0) = g (Q 0)) by (apply H; cbn; auto). assert (E1 : f (Q 1) = g (Q 1)) by (apply H; cbn; auto).
  destruct Hx as [<-|[<-|[]]]; unfold sgld_new, content, sgld_step, pair_grad, latents_of; extensionality i; cbn; now rewrite E0, E1.
Qed.

(** Without control dependencies, if computations look at the live buffers, the second
    latent can be updated from the first one's new value. *)
Definition live_schedule : list (operation cell cell) :=
  [Use (Q 0) (Q 0); Use (Q 0) (Q 1); Compute (Q 0); Assign (Q 0);
   Use (Q 1) (Q 0); Use (Q 1) (Q 1); Compute (Q 1); Assign (Q 1)].
Lemma precedes_by_position {E} (eq : forall a b : E, {a = b} + {a <> b}) (l : list E) a b :
  (fix before (l : list E) : bool := match l with [] => true | e :: l' => if eq e b then false else if eq e a then negb (if in_dec eq a l' then true else false) else before l' end) l = true ->
  NoDup l -> forall l1 l2, l = l1 ++ b :: l2 -> In a l1.
Proof.
  induction l as [|e l IH]; intros H ND l1 l2 E'; [destruct l1; discriminate|].
  destruct l1 as [|e' l1]; cbn in E'; injection E' as -> E'.
  - destruct (eq b b); congruence.
  - destruct (eq e' b); [discriminate|]. destruct (eq e' a) as [->|]; [now left|]. right.
    inversion ND; subst. eapply IH; eauto.
Qed.
Definition event_eq (a b : operation cell cell) : {a = b} + {a <> b}.
Proof. decide equality; apply cell_eq. Defined.
Definition event_eq_u (a b : operation cell unit) : {a = b} + {a <> b}.
Proof. decide equality; try apply cell_eq. decide equality. Defined.
Lemma live_schedule_ok : schedule (fun x => x) (latent_cells 2) pair_uses false live_schedule.
Proof.
  assert (ND : NoDup live_schedule) by (repeat constructor; cbn; intuition congruence).
  split; [exact ND|]. split.
  - intros e. split.
    + cbn. intuition subst; cbn; intuition (eexists; split; [|split; [reflexivity|]]; cbn; intuition).
    + destruct e as [c y|x|x]; cbn.
      * intros [x [Hx [-> Hy]]]. intuition subst; auto 10.
      * intuition subst; auto 10.
      * intuition subst; auto 10.
  - intros e e' Ed l1 l2 E. revert l1 l2 E. eapply (precedes_by_position event_eq); [|exact ND].
    destruct e, e'; cbn in Ed; try tauto; intuition subst; try reflexivity; try discriminate.
Qed.
Theorem C30_live_reads_refuted :
  let new := sgld_new pair_grad 2 (fun _ => 0) in
  depends_on_uses new (latent_cells 2) pair_uses /\
  exists l, schedule (fun x => x) (latent_cells 2) pair_uses false l /\
  exists f s0 o0, mem (run cell_eq cell_eq (fun x => x) new l (Machine f s0 o0)) (Q 1) []
                  <> sgld_step pair_grad 2 (latents_of f) (fun _ => 0) (1%nat, []).
Proof.
  split; [apply pair_depends|]. exists live_schedule. split; [apply live_schedule_ok|].
  exists (fun x => match x with Q 0 => fun _ => 1 | _ => fun _ => 0 end), (fun _ _ _ => 0), (fun _ _ => 0).
  cbn. unfold sgld_step, pair_grad, latents_of. unfold content, set. cbn. lra.
Qed.
Print Assumptions C30_live_reads_refuted.

(** A snapshot schedule of the same step. *)
Definition snapshot_schedule : list (operation cell unit) :=
  [Use tt (Q 0); Use tt (Q 1); Compute (Q 0); Assign (Q 0); Compute (Q 1); Assign (Q 1)].
Example snapshot_case : schedule (fun _ => tt) (latent_cells 2) pair_uses false snapshot_schedule.
Proof.
  assert (ND : NoDup snapshot_schedule) by (repeat constructor; cbn; intuition congruence).
  split; [exact ND|]. split.
  - intros e. split.
    + cbn. intuition subst; cbn; intuition (exists (Q 0); cbn; intuition).
    + destruct e as [c y|x|x]; cbn.
      * intros [x [Hx [-> Hy]]]. intuition subst; auto 10.
      * intuition subst; auto 10.
      * intuition subst; auto 10.
  - intros e e' Ed l1 l2 E. revert l1 l2 E. eapply (precedes_by_position event_eq_u); [|exact ND].
    destruct e, e'; cbn in Ed; try tauto; intuition subst; try reflexivity; try discriminate.
Qed.

(** ** C31: momentum resampling *)
(** Counter read before its increment: resampling at the multiples of the period. *)
Theorem C31_resampling_period n step latent :
  resampled_at n (fun _ _ => false) step latent = true <-> multiple n step.
Proof.
  unfold resampled_at, resamples, multiple. destruct (Z.eqb_spec n 0).
  - split; [discriminate|tauto].
  - rewrite Z.eqb_eq. rewrite Z.mod_divide by assumption. tauto.
Qed.
(** In general: at each step the decision is that of this or the next multiple. *)
Theorem C31_any_schedule n ra step latent : resampled_at n ra step latent = true ->
  multiple n step \/ multiple n (S step).
Proof.
  unfold resampled_at, resamples, multiple. destruct (Z.eqb_spec n 0); [discriminate|]. rewrite Z.eqb_eq.
  intros H. destruct (ra step latent); rewrite Z.mod_divide in H by assumption; tauto.
Qed.
Theorem C31_never_when_zero ra step latent : resampled_at 0 ra step latent = false.
Proof. reflexivity. Qed.
(** The read is not ordered with the increment: for every period from two on there is a
    schedule resampling twice around a multiple of the period, one skipping it, and one
    treating two latents differently in the same step. *)
Theorem C31_unordered_counter_refuted n : (2 <= n)%Z ->
  let m := Z.to_nat n in
  (exists ra, resampled_at n ra (m - 1) 0 = true /\ resampled_at n ra m 0 = true) /\
  (exists ra, forall step, (0 < step < 2 * m - 1)%nat -> resampled_at n ra step 0 = false) /\
  (exists ra, resampled_at n ra m 0 <> resampled_at n ra m 1).
Proof.
  intros L m. assert (Em : Z.of_nat m = n) by (unfold m; lia).
  assert (N0 : (n =? 0)%Z = false) by (apply Z.eqb_neq; lia).
  assert (T : (n mod n =? 0)%Z = true) by (rewrite Z_mod_same_full; reflexivity).
  split; [|split].
  - exists (fun s _ => Nat.eqb s (m - 1)). unfold resampled_at, resamples. rewrite N0, Nat.eqb_refl.
    destruct (Nat.eqb_spec m (m - 1)); [lia|]. replace (S (m - 1)) with m by lia. now rewrite Em, T.
  - exists (fun s _ => Nat.leb m s). intros s Hs. unfold resampled_at, resamples. rewrite N0.
    apply Z.eqb_neq. destruct (Nat.leb_spec m s).
    + replace (Z.of_nat (S s)) with ((Z.of_nat (S s) - n) + 1 * n)%Z by ring.
      rewrite Z_mod_plus_full, Z.mod_small by lia. lia.
    + rewrite Z.mod_small by lia. lia.
  - exists (fun _ k => Nat.eqb k 1). unfold resampled_at, resamples. rewrite N0. cbn [Nat.eqb].
    rewrite Em, T. replace (Z.of_nat (S m)) with (1 + 1 * n)%Z by lia. rewrite Z_mod_plus_full, Z.mod_small by lia.
    discriminate.
Qed.
Print Assumptions C31_resampling_period.
Print Assumptions C31_any_schedule.
Print Assumptions C31_never_when_zero.
Print Assumptions C31_unordered_counter_refuted.

(** ** C32: reductions *)
Section Reductions.
Variables (shapes : list shape) (grad : state -> state).

(** First-order SGHMC with friction 1 and variance estimate 0 is SGLD with twice the
    learning rate. *)
Theorem C32_sghmc_is_sgld lr q v xi x :
  fst (sghmc_step grad lr 1 0 false q v xi) x = sgld_step grad (2 * lr) q xi x.
Proof. unfold sghmc_step, sgld_step. cbn [fst]. rewrite Rminus_0_r, Rmult_1_r. lra. Qed.

(** Second-order SGHMC without friction and noise is the drift-kick-drift integrator:
    flipping the momentum undoes the step. *)
Theorem C32_second_order_reversible lr q v xi q' v' :
  sghmc_step grad lr 0 0 true q v xi = (q', v') ->
  sghmc_step grad lr 0 0 true q' (fun x => - v' x) xi = (q, fun x => - v x).
Proof.
  unfold sghmc_step. replace (2 * (0 - 0) * lr) with 0 by ring. replace (- (1/2) * 0) with 0 by ring. rewrite sqrt_0, exp_0. cbv zeta. intros E. injection E as <- <-.
  assert (D : (fun x : position => q x + 1/2 * v x + 1/2 * (1 * (1 * v x + lr * grad (fun x0 => q x0 + 1/2 * v x0) x + 0 * xi x))
     + 1/2 * - (1 * (1 * v x + lr * grad (fun x0 => q x0 + 1/2 * v x0) x + 0 * xi x))) = (fun x => q x + 1/2 * v x)).
  { extensionality x. ring. }
  rewrite D. f_equal; extensionality x; lra.
Qed.
(** It is the kick-drift-kick integrator of HMC with the kicks and drifts exchanged. *)
Theorem C32_second_order_drift_kick_drift lr q v xi :
  let q1 := fun x => q x + v x / 2 in
  let v' := fun x => v x + lr * grad q1 x in
  sghmc_step grad lr 0 0 true q v xi = (fun x => q1 x + v' x / 2, v').
Proof.
  unfold sghmc_step. replace (2 * (0 - 0) * lr) with 0 by ring. replace (- (1/2) * 0) with 0 by ring. rewrite sqrt_0, exp_0. cbv zeta.
  assert (D : (fun x => q x + 1/2 * v x) = (fun x => q x + v x / 2)) by (extensionality x; lra).
  rewrite D. f_equal; extensionality x; lra.
Qed.

(** SGNHT with tuning rate 0 and friction still at its initial value [a] is SGHMC with
    friction [a] and variance estimate 0, and the friction stays [a]. *)
Theorem C32_sgnht_is_sghmc lr a second vec q v xi :
  let '(q', v', al') := sgnht_step shapes grad lr a 0 second vec q v (fun _ => a) xi in
  (q', v') = sghmc_step grad lr a 0 second q v xi /\ al' = (fun _ => a).
Proof.
  unfold sgnht_step, sghmc_step, friction_at. rewrite !Rminus_0_r.
  assert (E : forall c x, a + c * 0 * (mean_kinetic shapes vec v x - lr) = a) by (intros; ring).
  destruct second.
  - split.
    + f_equal; extensionality x; (destruct vec; rewrite E; reflexivity).
    + extensionality x. ring.
  - split.
    + f_equal; extensionality x; (destruct vec; reflexivity).
    + extensionality x. ring.
Qed.

(** The thermostat is stationary exactly when the mean kinetic energy equals the
    learning rate (its average over the two half steps in second order). *)
Theorem C32_thermostat lr a tune vec q v al xi x : tune <> 0 ->
  let '(_, v', al') := sgnht_step shapes grad lr a tune false vec q v al xi in
  al' x = al x <-> mean_kinetic shapes vec v' x = lr.
Proof.
  intros T. unfold sgnht_step.
  match goal with |- context[mean_kinetic shapes vec ?w x] => generalize (mean_kinetic shapes vec w x) end.
  intros k. split; intros H.
  - assert (P : tune * (k - lr) = 0) by lra. apply Rmult_integral in P. destruct P; [contradiction|lra].
  - rewrite H. ring.
Qed.
Theorem C32_thermostat_second_order lr a tune vec q v al xi x : tune <> 0 ->
  let '(_, v', al') := sgnht_step shapes grad lr a tune true vec q v al xi in
  al' x = al x <-> (mean_kinetic shapes vec v x + mean_kinetic shapes vec v' x) / 2 = lr.
Proof.
  intros T. unfold sgnht_step. set (k1 := mean_kinetic shapes vec v x).
  match goal with |- context[mean_kinetic shapes vec ?w x] => generalize (mean_kinetic shapes vec w x) end.
  intros k. split; intros H.
  - assert (P : tune * (1/2 * (k1 + k) - lr) = 0) by lra. apply Rmult_integral in P. destruct P; [contradiction|lra].
  - rewrite <- H. field.
Qed.

(** PSGLD: each entry moves as SGLD would with the learning rate scaled by that entry's
    preconditioner. *)
Theorem C32_psgld_is_sgld lr decay eps q aux xi x :
  let v := decay * aux x + (1 - decay) * grad q x ^ 2 in
  fst (psgld_step grad lr decay eps q aux xi) x = sgld_step grad (lr * (1 / (eps + sqrt v))) q xi x /\
  snd (psgld_step grad lr decay eps q aux xi) x = v.
Proof. unfold psgld_step, sgld_step, preconditioner, rms_aux. cbn [fst snd]. split; ring. Qed.
End Reductions.
Print Assumptions C32_sghmc_is_sgld.
Print Assumptions C32_second_order_reversible.
Print Assumptions C32_second_order_drift_kick_drift.
Print Assumptions C32_sgnht_is_sghmc.
Print Assumptions C32_thermostat.
Print Assumptions C32_thermostat_second_order.
Print Assumptions C32_psgld_is_sgld.

(** The preconditioner: after any number of steps the auxiliary value is (1 - decay)
    times the decaying sum of the squared gradients seen, and the preconditioner is
    between 0 and 1/epsilon. *)
Definition aux_after (decay : R) (grads : list R) : R :=
  fold_left (fun a g => rms_aux (fun _ _ => g) decay (fun _ => 0) (fun _ => a) (0%nat, [])) grads 0.
Theorem C32_preconditioner_history decay grads :
  aux_after decay grads = (1 - decay) * rsum (length grads) (fun t => decay ^ (length grads - 1 - t) * nth t grads 0 ^ 2).
Proof.
  induction grads as [|g l IH] using rev_ind; [cbn; unfold rsum; cbn; ring|].
  unfold aux_after. rewrite fold_left_app. cbn [fold_left]. fold (aux_after decay l). rewrite IH.
  rewrite app_length. cbn [length]. rewrite Nat.add_1_r, rsum_S, app_nth2, Nat.sub_diag by lia. cbn [nth].
  replace (S (length l) - 1 - length l)%nat with 0%nat by lia.
  rewrite (rsum_ext _ (fun t => decay ^ (S (length l) - 1 - t) * nth t (l ++ [g]) 0 ^ 2)
                      (fun t => decay * (decay ^ (length l - 1 - t) * nth t l 0 ^ 2))).
  - rewrite rsum_scal. unfold rms_aux. cbn [pow]. ring.
  - intros k Hk. rewrite app_nth1 by lia. replace (S (length l) - 1 - k)%nat with (S (length l - 1 - k)) by lia. cbn [pow]. ring.
Qed.
Theorem C32_preconditioner_range decay eps grads x : 0 <= decay <= 1 -> 0 < eps ->
  0 <= aux_after decay grads /\ 0 < preconditioner eps (fun _ => aux_after decay grads) x <= 1 / eps.
Proof.
  intros D E. assert (A : 0 <= aux_after decay grads).
  { unfold aux_after. assert (G : forall a, 0 <= a -> 0 <= fold_left (fun a g => rms_aux (fun _ _ => g) decay (fun _ => 0) (fun _ => a) (0%nat, [])) grads a).
    { induction grads as [|g l IH]; intros a Ha; [exact Ha|]. cbn [fold_left]. apply IH. unfold rms_aux.
      apply Rplus_le_le_0_compat; apply Rmult_le_pos; try lra. apply pow2_ge_0. }
    apply G. lra. }
  split; [exact A|]. unfold preconditioner. pose proof (sqrt_pos (aux_after decay grads)). split.
  - apply Rmult_lt_0_compat; [lra|]. apply Rinv_0_lt_compat. lra.
  - apply Rmult_le_compat_l; [lra|]. apply Rinv_le_contravar; lra.
Qed.
Print Assumptions C32_preconditioner_history.
Print Assumptions C32_preconditioner_range.
