(** Broadcasting (C10), grouping (C12), shape queries (C13) and static shape
    checks (C14). The vocabulary ([dim], [compatible], [is_broadcast], [valid],
    [shows], [knows]) is in SpecShape.v. *)
From Coq Require Import List Arith Bool ZArith Lia.
From Verif Require Import ModelShape SpecShape ProofShape.
Import ListNotations.

(** ** C10 *)

(** Run-time broadcasting succeeds exactly on compatible shapes. *)
Theorem C10_broadcast_iff_compatible {A} (mul : A -> A -> A) (one : A) (x y : tensor A) :
  (exists x' y', explicit_broadcast mul one x y = Some (x', y')) <->
  compatible (t_shape x) (t_shape y).
Proof.
  split.
  - intros [x' [y' H]]. destruct (bshape (t_shape x) (t_shape y)) as [u|] eqn:E.
    + now apply bshape_some in E.
    + rewrite (explicit_none _ _ _ _ E) in H. discriminate.
  - intros C. destruct (bshape (t_shape x) (t_shape y)) as [u|] eqn:E.
    + rewrite (explicit_ok _ _ _ _ _ E). eauto.
    + now apply bshape_none in E.
Qed.
Print Assumptions C10_broadcast_iff_compatible.

(** Both results have the broadcast shape, and show the input elements. *)
Theorem C10_broadcast_exact {A} (mul : A -> A -> A) (one : A) (mul_one : forall a, mul a one = a)
  (x y x' y' : tensor A) : explicit_broadcast mul one x y = Some (x', y') ->
  is_broadcast (t_shape x) (t_shape y) (t_shape x') /\ t_shape y' = t_shape x' /\
  forall i, valid (t_shape x') i ->
    (forall j, shows (t_shape x) i j -> valid (t_shape x) j /\ t_at x' i = t_at x j) /\
    (forall j, shows (t_shape y) i j -> valid (t_shape y) j /\ t_at y' i = t_at y j).
Proof. intros H. apply (explicit_spec mul one mul_one) in H. tauto. Qed.
Print Assumptions C10_broadcast_exact.

(** The index shown exists and is unique, so the previous statement determines
    every element of the results. *)
Theorem C10_shown_index_unique s t u i : compatible s t -> is_broadcast s t u -> valid u i ->
  (exists j, shows s i j) /\ (exists j, shows t i j) /\
  forall j j', shows s i j -> shows s i j' -> j = j'.
Proof.
  intros C B V. assert (Li : length i = length u) by apply V.
  pose proof (is_broadcast_length_l _ _ _ B). pose proof (is_broadcast_length_r _ _ _ B).
  split; [|split].
  - exists (bindex s i). apply bindex_shows. lia.
  - exists (bindex t i). apply bindex_shows. lia.
  - intros j j'. apply shows_unique.
Qed.
Print Assumptions C10_shown_index_unique.

(** Swapping the arguments swaps the results. *)
Theorem C10_broadcast_symmetric {A} (mul : A -> A -> A) (one : A) (x y x' y' : tensor A) :
  explicit_broadcast mul one x y = Some (x', y') ->
  exists x'' y'', explicit_broadcast mul one y x = Some (y'', x'') /\
    t_shape x'' = t_shape x' /\ t_shape y'' = t_shape y' /\
    (forall i, t_at x'' i = t_at x' i) /\ (forall i, t_at y'' i = t_at y' i).
Proof.
  intros H. destruct (bshape (t_shape x) (t_shape y)) as [u|] eqn:E.
  2:{ rewrite (explicit_none _ _ _ _ E) in H. discriminate. }
  rewrite (explicit_ok _ _ _ _ _ E) in H. inversion H; subst.
  rewrite bshape_comm in E. rewrite (explicit_ok _ _ _ _ _ E). eexists _, _.
  split; [reflexivity|]. simpl. auto.
Qed.
Print Assumptions C10_broadcast_symmetric.

(** Broadcasting three shapes does not depend on the order of combination. *)
Theorem C10_broadcast_associative s t u st tu v w :
  compatible s t -> is_broadcast s t st -> compatible st u -> is_broadcast st u v ->
  compatible t u -> is_broadcast t u tu -> compatible s tu -> is_broadcast s tu w -> v = w.
Proof.
  intros C1 B1 C2 B2 C3 B3 C4 B4. pose proof (bshape_assoc s t u) as A.
  rewrite (proj2 (bshape_some _ _ _) (conj C1 B1)) in A.
  rewrite (proj2 (bshape_some _ _ _) (conj C2 B2)) in A.
  rewrite (proj2 (bshape_some _ _ _) (conj C3 B3)) in A.
  rewrite (proj2 (bshape_some _ _ _) (conj C4 B4)) in A. congruence.
Qed.
Print Assumptions C10_broadcast_associative.

Theorem C10_broadcast_associative_ok s t u :
  (exists st, compatible s t /\ is_broadcast s t st /\ compatible st u) <->
  (exists tu, compatible t u /\ is_broadcast t u tu /\ compatible s tu).
Proof.
  pose proof (bshape_assoc s t u) as A. split.
  - intros [st [C [B C2]]]. rewrite (proj2 (bshape_some _ _ _) (conj C B)) in A.
    destruct (bshape t u) as [tu|] eqn:E.
    + apply bshape_some in E. exists tu. split; [apply E|]. split; [apply E|].
      destruct (bshape s tu) eqn:F; [now apply bshape_some in F|].
      exfalso. now apply bshape_none in A.
    + exfalso. now apply bshape_none in A.
  - intros [tu [C [B C2]]]. rewrite (proj2 (bshape_some _ _ _) (conj C B)) in A.
    destruct (bshape s t) as [st|] eqn:E.
    + apply bshape_some in E. exists st. split; [apply E|]. split; [apply E|].
      destruct (bshape st u) eqn:F; [now apply bshape_some in F|].
      exfalso. symmetry in A. now apply bshape_none in A.
    + exfalso. symmetry in A. now apply bshape_none in A.
Qed.
Print Assumptions C10_broadcast_associative_ok.

(** A shape broadcasts with itself to itself, and is absorbed by any shape it
    has already been broadcast into. *)
Theorem C10_broadcast_idempotent s t u : compatible s t -> is_broadcast s t u ->
  is_broadcast s s s /\ compatible s u /\ is_broadcast s u u.
Proof.
  intros C B. pose proof (bshape_refl s) as R. apply bshape_some in R.
  pose proof (proj2 (bshape_some _ _ _) (conj C B)) as E. apply bshape_absorb_l in E.
  apply bshape_some in E. tauto.
Qed.
Print Assumptions C10_broadcast_idempotent.

(** [maybe_explicit_broadcast], for every amount of static knowledge about the
    two tensors: it succeeds exactly on compatible shapes, with the same exact
    results; an incompatibility visible in fully known shapes is reported when
    the graph is built. *)
Theorem C10_maybe_broadcast_exact {A} (mul : A -> A -> A) (one : A)
  (mul_one : forall a, mul a one = a) (x y : gtensor A) :
  knows (g_static x) (t_shape (g_run x)) -> knows (g_static y) (t_shape (g_run y)) ->
  let sx := t_shape (g_run x) in let sy := t_shape (g_run y) in
  match maybe_explicit_broadcast mul one x y with
  | Ok (x', y') =>
      compatible sx sy /\ is_broadcast sx sy (t_shape (g_run x')) /\
      t_shape (g_run y') = t_shape (g_run x') /\
      knows (g_static x') (t_shape (g_run x')) /\ knows (g_static y') (t_shape (g_run y')) /\
      forall i, valid (t_shape (g_run x')) i ->
        (forall j, shows sx i j -> valid sx j /\ t_at (g_run x') i = t_at (g_run x) j) /\
        (forall j, shows sy i j -> valid sy j /\ t_at (g_run y') i = t_at (g_run y) j)
  | BuildError => ~ compatible sx sy
  | RunError => ~ compatible sx sy /\
                fully_defined (g_static x) && fully_defined (g_static y) = false
  end.
Proof. intros Kx Ky. exact (maybe_spec mul one mul_one x y Kx Ky). Qed.
Print Assumptions C10_maybe_broadcast_exact.

Example C10_witness :
  exists x' y', explicit_broadcast Nat.mul 1
    (Tensor [2;1] (fun i => 10 + hd 0 i)) (Tensor [3] (fun i => 7 * hd 0 i)) = Some (x', y') /\
    t_shape x' = [2;3] /\ t_at x' [1;2] = 11 /\ t_at y' [1;2] = 14.
Proof. eexists _, _. split; [reflexivity|]. repeat split. Qed.
Example C10_witness_static :
  exists p, maybe_explicit_broadcast Nat.mul 1
    (GTensor (Some [None; Some 1]) (Tensor [2;1] (fun i => 10 + hd 0 i)))
    (GTensor None (Tensor [3] (fun i => 7 * hd 0 i))) = Ok p.
Proof. eexists. reflexivity. Qed.
Example C10_incompatible : ~ compatible [2;3] [2].
Proof. intros H. destruct (H 0) as [E|[E|E]]; discriminate. Qed.

(** ** C12 *)

(** Each entry of the grouped result is the reduction of the ungrouped entries
    whose index extends it over the last [g] axes. *)
Theorem C12_grouping_sums {A} (op : A -> A -> A) (e : A)
  (assoc : forall a b c, op a (op b c) = op (op a b) c)
  (idl : forall a, op e a = a) (idr : forall a, op a e = a) (g : nat) (t r : tensor A) :
  reduce_last op e g t = Some r ->
  exists batch grouped, t_shape t = batch ++ grouped /\ length grouped = g /\ t_shape r = batch /\
    forall i, exists slab : list index, NoDup slab /\
      (forall j, In j slab <-> Forall2 lt j grouped) /\
      t_at r i = fold_right op e (map (fun j => t_at t (i ++ j)) slab).
Proof.
  intros H. destruct (reduce_last_spec _ _ _ _ _ H) as [L [S E]].
  exists (firstn (length (t_shape t) - g) (t_shape t)), (skipn (length (t_shape t) - g) (t_shape t)).
  split; [symmetry; apply firstn_skipn|]. split; [rewrite skipn_length; lia|].
  split; [assumption|]. intros i.
  exists (all_indices (skipn (length (t_shape t) - g) (t_shape t))).
  split; [apply all_indices_nodup|]. split; [intros j; apply all_indices_valid|].
  rewrite E. now apply big_all.
Qed.
Print Assumptions C12_grouping_sums.

(** Grouping never fails up to the rank, and always fails beyond. *)
Theorem C12_grouping_range {A} (op : A -> A -> A) (e : A) (g : nat) (t : tensor A) :
  (exists r, reduce_last op e g t = Some r) <-> g <= length (t_shape t).
Proof.
  unfold reduce_last. destruct (Nat.leb_spec g (length (t_shape t))); split; intros H'.
  - assumption.
  - eauto.
  - destruct H'; discriminate.
  - lia.
Qed.
Print Assumptions C12_grouping_range.

(** prob = exp(log_prob) for every group: any map turning sums into products
    (such as exp) maps the grouped sum to the grouped product of the images. *)
Theorem C12_prob_is_exp_log_prob {X P A B} (add : A -> A -> A) (zero : A)
  (mul : B -> B -> B) (one : B) (exp : A -> B)
  (exp_add : forall a b, exp (add a b) = mul (exp a) (exp b)) (exp_zero : exp zero = one)
  (lp : X -> P -> A) (g : nat) (given : tensor X) (param : tensor P) :
  match log_prob_grouped add zero lp g given param,
        log_prob_grouped mul one (fun x p => exp (lp x p)) g given param with
  | Some l, Some p => t_shape p = t_shape l /\ forall i, t_at p i = exp (t_at l i)
  | None, None => True
  | _, _ => False
  end.
Proof.
  unfold log_prob_grouped, elementwise.
  destruct (bshape (t_shape given) (t_shape param)) as [s|]; [|exact I].
  unfold reduce_last. simpl. destruct (Nat.leb g (length s)); [|exact I]. simpl.
  split; [reflexivity|]. intros i. symmetry.
  now apply (big_morph add zero mul one exp).
Qed.
Print Assumptions C12_prob_is_exp_log_prob.

(** Grouping in two stages equals grouping at once. *)
Theorem C12_two_stage {A} (op : A -> A -> A) (e : A) (g h : nat) (t r1 r2 : tensor A) :
  reduce_last op e g t = Some r1 -> reduce_last op e h r1 = Some r2 ->
  exists r, reduce_last op e (h + g) t = Some r /\ t_shape r = t_shape r2 /\
    forall i, length i = length (t_shape r2) -> t_at r i = t_at r2 i.
Proof.
  intros H1 H2. destruct (reduce_last_spec _ _ _ _ _ H1) as [L1 [S1 E1]].
  destruct (reduce_last_spec _ _ _ _ _ H2) as [L2 [S2 E2]].
  rewrite S1, firstn_length_le in L2 by lia.
  unfold reduce_last at 1. destruct (Nat.leb_spec (h + g) (length (t_shape t))); [|lia].
  eexists. split; [reflexivity|]. simpl.
  rewrite S2, S1, firstn_length_le, firstn_firstn by lia.
  replace (Nat.min (length (t_shape t) - g - h) (length (t_shape t) - g))
    with (length (t_shape t) - (h + g)) by lia. split; [reflexivity|].
  intros i Li. rewrite E2, S1, firstn_length_le by lia.
  set (s := t_shape t) in *. set (n := length s) in *.
  replace (skipn (n - (h + g)) s) with
    (skipn (n - g - h) (firstn (n - g) s) ++ skipn (n - g) s).
  - rewrite big_app. apply big_ext. intros j. rewrite E1. apply big_ext.
    intros k. now rewrite app_assoc.
  - replace (n - (h + g)) with (n - g - h) by lia.
    rewrite <- (firstn_skipn (n - g) s) at 3. rewrite skipn_app, firstn_length_le by (unfold n; lia).
    replace (n - g - h - (n - g)) with 0 by lia. reflexivity.
Qed.
Print Assumptions C12_two_stage.

Theorem C12_negative_rejected g : (g < 0)%Z <-> init_group_ndims g = None.
Proof.
  unfold init_group_ndims. destruct (Z.ltb_spec g 0); split; intros H'; auto; try discriminate; lia.
Qed.
Print Assumptions C12_negative_rejected.

Example C12_witness : exists r,
  reduce_last Nat.add 0 2 (Tensor [2;3;2] (fun i => match i with [a;b;c] => 100*a+10*b+c | _ => 0 end))
    = Some r /\ t_shape r = [2] /\ t_at r [1] = 663.
Proof. eexists. split; [reflexivity|]. repeat split. Qed.

(** ** C13 *)

(** [get_shape_list] returns the run-time extents, or None exactly when the rank
    is statically unknown. *)
Theorem C13_get_shape_list {A} (t : gtensor A) : knows (g_static t) (t_shape (g_run t)) ->
  get_shape_list t = match g_static t with
                     | None => None
                     | Some _ => Some (map Some (t_shape (g_run t)))
                     end.
Proof.
  intros K. unfold get_shape_list. destruct (g_static t) as [l|]; auto. f_equal.
  exact (shape_items_eq l (t_shape (g_run t)) [] K).
Qed.
Print Assumptions C13_get_shape_list.

(** [get_shape_at] is the run-time extent at the axis (negative axes count from
    the end), whatever is known statically. *)
Theorem C13_get_shape_at {A} (t : gtensor A) (axis : Z) :
  knows (g_static t) (t_shape (g_run t)) ->
  get_shape_at t axis =
    let n := Z.of_nat (length (t_shape (g_run t))) in
    if ((- n <=? axis) && (axis <? n))%Z
    then nth_error (t_shape (g_run t)) (Z.to_nat (axis mod n)) else None.
Proof.
  intros K. assert (E : get_shape_at t axis = at_axis (t_shape (g_run t)) axis).
  { unfold get_shape_at. rewrite C13_get_shape_list by assumption.
    destruct (g_static t); [|reflexivity]. destruct (t_shape (g_run t)) as [|d s]; [reflexivity|].
    change (Some d :: map Some s) with (map Some (d :: s)).
    destruct (map Some (d :: s)) eqn:M; [discriminate|]. rewrite <- M, at_axis_map.
    now destruct (at_axis (d :: s) axis). }
  rewrite E. unfold at_axis. set (s := t_shape (g_run t)). cbv zeta.
  destruct (Z.leb_spec (- Z.of_nat (length s)) axis), (Z.ltb_spec axis (Z.of_nat (length s))); simpl.
  - destruct (Z.ltb_spec axis 0).
    + destruct (Z.ltb_spec (axis + Z.of_nat (length s)) 0); [lia|]. do 2 f_equal.
      rewrite <- (Z.mod_small (axis + Z.of_nat (length s)) (Z.of_nat (length s))) by lia.
      rewrite <- (Z.mul_1_l (Z.of_nat (length s))) at 1. now rewrite Z_mod_plus_full.
    + destruct (Z.ltb_spec axis 0); [lia|]. do 2 f_equal. symmetry. apply Z.mod_small. lia.
  - destruct (Z.ltb_spec axis 0); [lia|]. destruct (Z.ltb_spec axis 0); [lia|].
    apply nth_error_None. lia.
  - destruct (Z.ltb_spec axis 0); [|lia].
    destruct (Z.ltb_spec (axis + Z.of_nat (length s)) 0); [reflexivity|lia].
  - lia.
Qed.
Print Assumptions C13_get_shape_at.

Theorem C13_is_same_dynamic_shape {A B} (x : tensor A) (y : tensor B) :
  is_same_dynamic_shape x y = true <-> t_shape x = t_shape y.
Proof.
  unfold is_same_dynamic_shape. destruct (Nat.eqb_spec (length (t_shape x)) (length (t_shape y))) as [E|E].
  - rewrite forallb_combine_eq by (rewrite !app_length; lia). split.
    + intros H. apply (f_equal (firstn (length (t_shape x)))) in H.
      rewrite firstn_app, Nat.sub_diag, firstn_all, firstn_O, app_nil_r in H.
      rewrite E, firstn_app, Nat.sub_diag, firstn_all, firstn_O, app_nil_r in H. assumption.
    + intros ->. reflexivity.
  - split; [discriminate|]. intros H. now rewrite H in E.
Qed.
Print Assumptions C13_is_same_dynamic_shape.

(** The rank assertions let a tensor through exactly when it has the rank, and
    report at graph-building time whenever the static rank already decides. *)
Theorem C13_assert_rank_at_least {A} (t : gtensor A) k : knows (g_static t) (t_shape (g_run t)) ->
  (assert_rank_at_least t k = Ok t <-> k <= length (t_shape (g_run t))) /\
  (assert_rank_at_least t k = RunError -> rank_known (g_static t) = false).
Proof.
  intros K. unfold assert_rank_at_least. destruct (g_static t) as [l|] eqn:S; simpl.
  - assert (L : length l = length (t_shape (g_run t))) by exact (knows_length _ _ K).
    destruct (Nat.ltb_spec (length l) k); split; try discriminate; split; intros H'; auto; try discriminate; lia.
  - destruct (Nat.leb_spec k (length (t_shape (g_run t)))); split; auto; split; intros H'; auto; try discriminate; lia.
Qed.
Print Assumptions C13_assert_rank_at_least.

Theorem C13_assert_scalar {A} (t : gtensor A) : knows (g_static t) (t_shape (g_run t)) ->
  (assert_scalar t = Ok t <-> t_shape (g_run t) = []) /\
  (assert_scalar t = RunError -> rank_known (g_static t) = false).
Proof.
  intros K. unfold assert_scalar. destruct (g_static t) as [l|] eqn:S; simpl.
  - assert (L : length l = length (t_shape (g_run t))) by exact (knows_length _ _ K).
    destruct l as [|d l], (t_shape (g_run t)) as [|n s]; simpl in *; try discriminate L;
      split; try discriminate; split; intros H'; auto; discriminate.
  - destruct (t_shape (g_run t)); simpl; split; auto; split; intros H'; auto; discriminate.
Qed.
Print Assumptions C13_assert_scalar.

(** A zero extent known statically, an unknown one, and an unknown rank. *)
Example C13_witness :
  get_shape_list (GTensor (Some [Some 0; None]) (Tensor [0;4] (fun _ => 0))) = Some [Some 0; Some 4] /\
  get_shape_at (GTensor None (Tensor [0;4] (fun _ => 0))) (-1) = Some 4.
Proof. split; reflexivity. Qed.

(** ** C14 *)

(** log_prob/prob reject [given] at graph-building time exactly when no run-time
    shapes consistent with what is known could be broadcast together. *)
Theorem C14_input_check_exact given batch value :
  check_input_shape given batch value = false <->
  (rank_known given && rank_known batch && rank_known value = true /\
   forall s b v, knows given s -> knows batch b -> knows value v -> ~ compatible s (b ++ v)).
Proof.
  unfold check_input_shape. split.
  - destruct given as [g|], batch as [b|], value as [v|]; try discriminate.
    destruct (broadcast_static_shape _ _) eqn:E; [discriminate|]. intros _. split; [reflexivity|].
    intros s b' v' Ks Kb Kv. eapply static_reject_sound; eauto. simpl. now apply Forall2_app.
  - intros [R N]. destruct given as [g|], batch as [b|], value as [v|]; try discriminate.
    destruct (broadcast_static_shape _ _) as [w|] eqn:E; [|reflexivity]. exfalso.
    destruct (static_accept_complete _ _ _ E) as [s [t [Ks [Kt C]]]].
    simpl in Kt. apply Forall2_app_inv_l in Kt. destruct Kt as [b' [v' [Kb [Kv ->]]]].
    exact (N s b' v' Ks Kb Kv C).
Qed.
Print Assumptions C14_input_check_exact.

(** The same for an observation handed to a stochastic node. *)
Theorem C14_observation_check_exact batch value obs :
  check_observation_shape batch value obs = false <->
  (rank_known batch && rank_known value && rank_known obs = true /\
   forall b v s, knows batch b -> knows value v -> knows obs s -> ~ compatible (b ++ v) s).
Proof.
  unfold check_observation_shape. split.
  - destruct (broadcast_static_shape _ _) eqn:E; [discriminate|]. intros _.
    destruct obs as [o|], batch as [b|], value as [v|]; try discriminate. split; [reflexivity|].
    intros b' v' s Kb Kv Ks. eapply static_reject_sound; eauto. simpl. now apply Forall2_app.
  - intros [R N]. destruct obs as [o|], batch as [b|], value as [v|]; try discriminate.
    destruct (broadcast_static_shape _ _) as [w|] eqn:E; [|reflexivity]. exfalso.
    destruct (static_accept_complete _ _ _ E) as [t [s [Kt [Ks C]]]].
    simpl in Kt. apply Forall2_app_inv_l in Kt. destruct Kt as [b' [v' [Kb [Kv ->]]]].
    exact (N b' v' s Kb Kv Ks C).
Qed.
Print Assumptions C14_observation_check_exact.

(** With everything known the check decides broadcastability. *)
Theorem C14_known_iff s b v :
  check_input_shape (Some (map Some s)) (Some (map Some b)) (Some (map Some v)) = true <->
  compatible s (b ++ v).
Proof.
  assert (K : forall l, knows (Some (map Some l)) l) by (induction l; simpl; constructor; auto).
  assert (U : forall l m, knows (Some (map Some l)) m -> m = l).
  { induction l as [|a l IH]; intros m H; inversion H; subst; auto. f_equal; auto. }
  destruct (check_input_shape _ _ _) eqn:E; split; auto.
  - intros _. destruct (bshape s (b ++ v)) as [u|] eqn:B; [now apply bshape_some in B|].
    apply bshape_none in B. exfalso.
    assert (F : check_input_shape (Some (map Some s)) (Some (map Some b)) (Some (map Some v)) = false).
    { apply C14_input_check_exact. split; [reflexivity|]. intros s' b' v' Ks Kb Kv.
      now rewrite (U _ _ Ks), (U _ _ Kb), (U _ _ Kv). }
    congruence.
  - discriminate.
  - intros C. apply C14_input_check_exact in E. destruct E as [_ N]. exfalso. exact (N s b v (K _) (K _) (K _) C).
Qed.
Print Assumptions C14_known_iff.

(** The check is about mutual broadcasting, so it also accepts a value that would
    stretch the distribution's own value axis: a 5-vector is let through to a
    distribution over 1-vectors. The documented contract ("given must broadcast
    to (...+)batch_shape+value_shape") is therefore not what is enforced. *)
Theorem C14_enforces_documented_contract_refuted :
  ~ forall s b v, check_input_shape (Some (map Some s)) (Some (map Some b)) (Some (map Some v)) = true ->
      exists pre, is_broadcast s (pre ++ b ++ v) (pre ++ b ++ v).
Proof.
  intros H. destruct (H [5] [2] [1] eq_refl) as [pre [_ D]]. specialize (D 0).
  unfold dim in D. rewrite !rev_app_distr in D. simpl in D. discriminate.
Qed.
Print Assumptions C14_enforces_documented_contract_refuted.

Example C14_witness :
  check_input_shape (Some [None; Some 3]) (Some [Some 2]) (Some [Some 4]) = false /\
  check_input_shape (Some [None; Some 4]) (Some [Some 2]) (Some [Some 4]) = true /\
  check_observation_shape (Some [None]) (Some [Some 4]) (Some [Some 2; Some 3]) = false.
Proof. repeat split. Qed.
