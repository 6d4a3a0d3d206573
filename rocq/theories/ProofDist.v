From Coq Require Import List Arith Bool Lia Reals.
From Verif Require Import ModelShape SpecShape ProofShape ModelTensor SpecTensor ProofTensor ModelDist.
Import ListNotations.

Section Generic.
Context {A : Type}.

Lemma computes3_flat (e : expr A) f x a b : flat e ->
  (forall s, s <> [] -> In s (leaves e) <-> In s [t_shape x; t_shape a; t_shape b]) ->
  (forall i, den e i = f (view x i) (view a i) (view b i)) ->
  computes3 (eval e) f x a b.
Proof.
  intros Fl H D. split.
  - intros C. destruct (broadcast_all_exists _ C) as [w B].
    destruct (flat_runs e w Fl) as [t [E _]]; [|eauto].
    eapply broadcast_all_iff; [|exact B]. intros s Hs. symmetry. now apply H.
  - intros t E. pose proof (flat_runs_inv e t Fl E) as B.
    assert (B' : broadcast_all [t_shape x; t_shape a; t_shape b] (t_shape t)) by (eapply broadcast_all_iff; eauto).
    split; [assumption|]. intros i vx va vb V Sx Sa Sb.
    assert (Li : length i = length (t_shape t)) by apply V. destruct B' as [L _].
    apply view_shown in Sx; [|rewrite Li; apply L; simpl; auto].
    apply view_shown in Sa; [|rewrite Li; apply L; simpl; auto].
    apply view_shown in Sb; [|rewrite Li; apply L; simpl; auto].
    subst. rewrite <- D. now apply eval_at.
Qed.
Lemma computes2_flat (e : expr A) f x a : flat e ->
  (forall s, s <> [] -> In s (leaves e) <-> In s [t_shape x; t_shape a]) ->
  (forall i, den e i = f (view x i) (view a i)) ->
  computes2 (eval e) f x a.
Proof.
  intros Fl H D. split.
  - intros C. destruct (broadcast_all_exists _ C) as [w B].
    destruct (flat_runs e w Fl) as [t [E _]]; [|eauto].
    eapply broadcast_all_iff; [|exact B]. intros s Hs. symmetry. now apply H.
  - intros t E. pose proof (flat_runs_inv e t Fl E) as B.
    assert (B' : broadcast_all [t_shape x; t_shape a] (t_shape t)) by (eapply broadcast_all_iff; eauto).
    split; [assumption|]. intros i vx va V Sx Sa.
    assert (Li : length i = length (t_shape t)) by apply V. destruct B' as [L _].
    apply view_shown in Sx; [|rewrite Li; apply L; simpl; auto].
    apply view_shown in Sa; [|rewrite Li; apply L; simpl; auto].
    subst. rewrite <- D. now apply eval_at.
Qed.

(** The batch shape of the parameters, then the value. *)
Lemma broadcast_all_flatten s ss b w : broadcast_all ss b -> broadcast_all [s; b] w ->
  broadcast_all (s :: ss) w.
Proof.
  intros B [L [E D]].
  assert (C : bshape s b = Some w).
  { apply bshape_some. split; [|split].
    - intros k. destruct (D k) as [D1 _]. destruct (D1 s) as [E1|E1], (D1 b) as [E2|E2]; simpl; auto. left; congruence.
    - destruct E as [->|[v [Hv Lv]]].
      + pose proof (L s) as L1. pose proof (L b) as L2. simpl in *. specialize (L1 (or_introl eq_refl)).
        specialize (L2 (or_intror (or_introl eq_refl))). lia.
      + pose proof (L s (or_introl eq_refl)). pose proof (L b (or_intror (or_introl eq_refl))).
        destruct Hv as [->|[->|[]]]; lia.
    - intros k. destruct (D k) as [D1 D2]. pose proof (D1 s (or_introl eq_refl)) as X.
      pose proof (D1 b (or_intror (or_introl eq_refl))) as Y.
      destruct (Nat.eqb_spec (dim s k) 1); [|destruct X; congruence].
      destruct Y as [Y|Y]; [|congruence]. destruct D2 as [D2|[v [[->|[->|[]]] D2]]]; congruence. }
  change (s :: ss) with ([s] ++ ss). eapply broadcast_all_app; eauto using broadcast_all_one.
Qed.
Lemma broadcast_all_cons n w ss : broadcast_all ss w -> broadcast_all ((n :: w) :: ss) (n :: w).
Proof.
  intros B. pose proof (all_fits _ _ B) as F. split; [|split].
  - intros s [<-|Hs]; [lia|]. simpl. apply F, fits_length in Hs. lia.
  - right. exists (n :: w). simpl. auto.
  - intros k. split.
    + intros s [<-|Hs]; auto. apply fits_dim. now apply fits_cons, F.
    + right. exists (n :: w). simpl. auto.
Qed.

(** Samplers: noise of shape n :: batch. *)
Lemma sampler_flat (e : expr A) (noise : tensor A) n batch : flat e ->
  t_shape noise = n :: batch ->
  (forall s, s <> [] -> In s (leaves e) -> s = n :: batch \/ fits s batch) ->
  In (n :: batch) (leaves e) ->
  exists t, eval e = Some t /\ t_shape t = n :: batch /\
    forall i, valid (n :: batch) i -> t_at t i = den e i.
Proof.
  intros Fl Sn H Hn.
  apply flat_runs; auto. split; [|split].
  - intros s Hs. destruct s; [simpl; lia|]. destruct (H (n0 :: s)) as [->|F]; auto; try discriminate.
    apply fits_length in F. simpl in *. lia.
  - right. eauto.
  - intros k. split; [|right; eauto]. intros s Hs. destruct s; [left; apply dim_nil|].
    destruct (H (n0 :: s)) as [->|F]; auto; try discriminate. apply fits_dim. now apply fits_cons.
Qed.
Lemma view_cons (t : tensor A) w s i : fits (t_shape t) w -> length i = length w ->
  view t (s :: i) = view t i.
Proof. intros F L. unfold view. now rewrite (bindex_cons _ w). Qed.
End Generic.

Ltac leaves_tac :=
  let s := fresh "s" in let H := fresh "H" in
  intros s H; cbn -[In]; rewrite ?in_app_iff; cbn; intuition (subst; auto; congruence).

Section Sampling.
Context {A : Type}.
Lemma sample_contract_intro (draw : nat -> option (tensor A)) out (value : nat -> nat -> index -> A -> Prop) :
  (forall n, exists t, draw n = Some t /\ t_shape t = n :: out /\
     forall s i, s < n -> valid out i -> value n s i (t_at t (s :: i))) ->
  sample_contract draw out value.
Proof.
  intros H. split; [exact H|]. destruct (H 1) as [t [E [S V]]]. unfold sample. rewrite E.
  unfold squeeze0. rewrite S. eexists. split; [reflexivity|]. split; [reflexivity|].
  intros i Vi. simpl. apply V; auto.
Qed.

Lemma sampler3_flat (prog : tensor A -> expr A) (noise : nat -> tensor A) (a b : tensor A) batch (f : A -> A -> A -> A) :
  (forall n, t_shape (noise n) = n :: batch) ->
  broadcast_all [t_shape a; t_shape b] batch ->
  (forall z, flat (prog z)) ->
  (forall z s, s <> [] -> In s (leaves (prog z)) -> In s [t_shape z; t_shape a; t_shape b]) ->
  (forall z, In (t_shape z) (leaves (prog z))) ->
  (forall z i, den (prog z) i = f (view z i) (view a i) (view b i)) ->
  sample_contract (fun n => eval (prog (noise n))) batch
    (fun n s i v => forall va vb, shown a i va -> shown b i vb ->
       v = f (t_at (noise n) (s :: i)) va vb).
Proof.
  intros Sn B Fl L Ln D. apply sample_contract_intro. intros n.
  pose proof (all_fits _ _ B) as F.
  destruct (sampler_flat (prog (noise n)) (noise n) n batch) as [t [E [S V]]]; auto.
  - intros s Hs Hl. apply L in Hl; auto. simpl in Hl. destruct Hl as [<-|[<-|[<-|[]]]].
    + left. apply Sn.
    + right. apply F. simpl. auto.
    + right. apply F. simpl. auto.
  - rewrite <- (Sn n). apply Ln.
  - exists t. split; [assumption|]. split; [assumption|]. intros s i Hs Vi va vb Sa Sb.
    assert (Vc : valid (n :: batch) (s :: i)) by (apply valid_cons; auto).
    rewrite V, D by assumption. assert (Li : length i = length batch) by apply Vi.
    assert (Fa : fits (t_shape a) batch) by (apply F; simpl; auto).
    assert (Fb : fits (t_shape b) batch) by (apply F; simpl; auto).
    rewrite (view_cons a batch), (view_cons b batch) by auto.
    apply view_shown in Sa; [|rewrite Li; now apply fits_length].
    apply view_shown in Sb; [|rewrite Li; now apply fits_length]. subst.
    f_equal. apply view_self. now rewrite Sn.
Qed.

Lemma sampler2_flat (prog : tensor A -> expr A) (noise : nat -> tensor A) (a : tensor A) (f : A -> A -> A) :
  (forall n, t_shape (noise n) = n :: t_shape a) ->
  (forall z, flat (prog z)) ->
  (forall z s, s <> [] -> In s (leaves (prog z)) -> In s [t_shape z; t_shape a]) ->
  (forall z, In (t_shape z) (leaves (prog z))) ->
  (forall z i, den (prog z) i = f (view z i) (view a i)) ->
  sample_contract (fun n => eval (prog (noise n))) (t_shape a)
    (fun n s i v => v = f (t_at (noise n) (s :: i)) (t_at a i)).
Proof.
  intros Sn Fl L Ln D. apply sample_contract_intro. intros n.
  destruct (sampler_flat (prog (noise n)) (noise n) n (t_shape a)) as [t [E [S V]]]; auto.
  - intros s Hs Hl. apply L in Hl; auto. simpl in Hl. destruct Hl as [<-|[<-|[]]].
    + left. apply Sn.
    + right. apply fits_refl.
  - rewrite <- (Sn n). apply Ln.
  - exists t. split; [assumption|]. split; [assumption|]. intros s i Hs Vi.
    assert (Vc : valid (n :: t_shape a) (s :: i)) by (apply valid_cons; auto).
    rewrite V, D by assumption. f_equal.
    + apply view_self. now rewrite Sn.
    + rewrite (view_cons a (t_shape a)); [now apply view_self|apply fits_refl|apply Vi].
Qed.
End Sampling.

(** Grouped log_prob of an elementwise program. *)
Lemma log_prob_group prog t g : eval prog = Some t -> g <= length (t_shape t) ->
  exists r, log_prob g prog = Some r /\ t_shape r = firstn (length (t_shape t) - g) (t_shape t) /\
    forall i, t_at r i = big Rplus 0%R (skipn (length (t_shape t) - g) (t_shape t)) (fun j => t_at t (i ++ j)).
Proof.
  intros E L. unfold log_prob. rewrite E. simpl. unfold reduce_last.
  destruct (Nat.leb_spec g (length (t_shape t))); [|lia]. eexists. split; [reflexivity|]. auto.
Qed.

(** ** Row programs *)
Section Rows.
Context {A : Type}.
(** A flat program whose leaves are [x], [a] (and constants), both present. *)
Lemma eshape_pair (e : expr A) (x a : tensor A) w : flat e -> broadcast_all [t_shape x; t_shape a] w ->
  (forall s, s <> [] -> In s (leaves e) <-> In s [t_shape x; t_shape a]) -> eshape e = Some w.
Proof.
  intros Fl B H. destruct (flat_runs e w Fl) as [t [E [S _]]].
  - eapply broadcast_all_iff; [|exact B]. intros s Hs. symmetry. now apply H.
  - rewrite <- (eval_eshape e), E. simpl. now f_equal.
Qed.
Lemma shown_row_view (t : tensor A) k i l : length (t_shape t) <= S (length i) ->
  shown_row t k i l -> l = map (fun c => view t (i ++ [c])) (seq 0 k).
Proof.
  intros L [Lk H]. destruct l as [|d l0]; [simpl in Lk; subst; reflexivity|].
  remember (d :: l0) as l. clear Heql. apply nth_ext with (d := d) (d' := d).
  - rewrite map_length, seq_length. assumption.
  - intros c Hc. rewrite Lk in Hc. rewrite (nth_indep (map _ _) d (view t (i ++ [c]))).
    2:{ now rewrite map_length, seq_length. }
    rewrite (map_nth (fun c => view t (i ++ [c])) (seq 0 k) c c), seq_nth by assumption.
    simpl. specialize (H c d Hc). apply view_shown in H; [assumption|]. rewrite app_length. simpl. lia.
Qed.
Lemma combine_map2 {X Y Z} (f : X -> Y) (g : X -> Z) l :
  combine (map f l) (map g l) = map (fun x => (f x, g x)) l.
Proof. induction l; simpl; congruence. Qed.
End Rows.

Section Rows2.
Context {A : Type}.
Implicit Types e a b : expr A.
Lemma eshape_row f e w k : eshape e = Some (w ++ [k]) -> eshape (Row f e) = Some w.
Proof. intros E. cbn [eshape]. rewrite E. destruct (w ++ [k]) eqn:W; [destruct w; discriminate|]. rewrite <- W. now rewrite removelast_last. Qed.
Lemma eshape_rowkeep f e w k : eshape e = Some (w ++ [k]) -> eshape (RowKeep f e) = Some (w ++ [1]).
Proof. intros E. cbn [eshape]. rewrite E. destruct (w ++ [k]) eqn:W; [destruct w; discriminate|]. rewrite <- W. now rewrite removelast_last. Qed.
Lemma eshape_rowmap f e w k : eshape e = Some (w ++ [k]) -> eshape (RowMap f e) = Some (w ++ [k]).
Proof. intros E. simpl. rewrite E. destruct (w ++ [k]) eqn:W; [destruct w; discriminate|]. reflexivity. Qed.
Lemma width_snoc e w k : eshape e = Some (w ++ [k]) -> width e = k.
Proof. intros E. unfold width. rewrite E. apply last_last. Qed.
Lemma eshape_bin f (a b : expr A) s t u : eshape a = Some s -> eshape b = Some t -> bshape s t = Some u ->
  eshape (Bin f a b) = Some u.
Proof. intros Ea Eb B. simpl. now rewrite Ea, Eb. Qed.
Lemma eshape_bin_same f (a b : expr A) s : eshape a = Some s -> eshape b = Some s -> eshape (Bin f a b) = Some s.
Proof. intros Ea Eb. eapply eshape_bin; eauto. apply bshape_refl. Qed.
Lemma eshape_bin_scalar_l f (a b : expr A) s : eshape a = Some [] -> eshape b = Some s -> eshape (Bin f a b) = Some s.
Proof. intros Ea Eb. eapply eshape_bin; eauto. apply fits_nil. Qed.
Lemma eshape_bin_scalar_r f (a b : expr A) s : eshape a = Some s -> eshape b = Some [] -> eshape (Bin f a b) = Some s.
Proof. intros Ea Eb. eapply eshape_bin; eauto. rewrite bshape_comm. apply fits_nil. Qed.
Lemma bshape_snoc1 w k : bshape (w ++ [k]) (w ++ [1]) = Some (w ++ [k]).
Proof.
  rewrite bshape_comm. apply fits_intro; [rewrite !app_length; simpl; lia|].
  intros [|j]; rewrite !dim_snoc; auto.
Qed.
Lemma eval_of_eshape e s : eshape e = Some s -> exists t, eval e = Some t /\ t_shape t = s /\
  forall i, valid s i -> t_at t i = den e i.
Proof.
  intros E. pose proof (eval_eshape e) as H. rewrite E in H. destruct (eval e) as [t|] eqn:Ev; [|discriminate].
  simpl in H. inversion H; subst. exists t. split; [reflexivity|]. split; [reflexivity|].
  intros i V. now apply eval_at.
Qed.
End Rows2.

Section Rows3.
Context {A : Type}.
Definition vrow (t : tensor A) (k : nat) (i : index) : list A := map (fun c => view t (i ++ [c])) (seq 0 k).
Lemma vrow_length t k i : length (vrow t k i) = k.
Proof. unfold vrow. now rewrite map_length, seq_length. Qed.
Lemma rows_intro (prog : expr A) (f : list A -> list A -> A) (x a : tensor A) k :
  (forall w, broadcast_all [t_shape x; t_shape a] (w ++ [k]) -> eshape prog = Some w /\
     forall i, valid w i -> den prog i = f (vrow x k i) (vrow a k i)) ->
  computes_rows (eval prog) f x a k.
Proof.
  intros H w B. destruct (H w B) as [E D]. destruct (eval_of_eshape _ _ E) as [t [Ev [St V]]].
  exists t. split; [assumption|]. split; [assumption|]. intros i lx la Vi Rx Ra.
  pose proof (all_fits _ _ B) as F.
  assert (Lx : length (t_shape x) <= S (length i)).
  { assert (fits (t_shape x) (w ++ [k])) as Fx by (apply F; simpl; auto). apply fits_length in Fx.
    rewrite app_length in Fx. simpl in Fx. destruct Vi as [L _]. lia. }
  assert (La : length (t_shape a) <= S (length i)).
  { assert (fits (t_shape a) (w ++ [k])) as Fx by (apply F; simpl; auto). apply fits_length in Fx.
    rewrite app_length in Fx. simpl in Fx. destruct Vi as [L _]. lia. }
  rewrite (shown_row_view x k i lx Lx Rx), (shown_row_view a k i la La Ra). rewrite V by assumption.
  now apply D.
Qed.
Lemma den_row f (e : expr A) w k i g : eshape e = Some (w ++ [k]) ->
  (forall c, c < k -> den e (i ++ [c]) = g c) -> den (Row f e) i = f (map g (seq 0 k)).
Proof.
  intros E H. cbn [den]. rewrite (width_snoc _ _ _ E). f_equal. apply map_ext_in.
  intros c Hc. apply in_seq in Hc. apply H. lia.
Qed.
Lemma den_rowkeep f (e : expr A) w k i c0 g : eshape e = Some (w ++ [k]) ->
  (forall c, c < k -> den e (i ++ [c]) = g c) -> den (RowKeep f e) (i ++ [c0]) = f (map g (seq 0 k)).
Proof.
  intros E H. cbn [den]. rewrite (width_snoc _ _ _ E), removelast_last. f_equal. apply map_ext_in.
  intros c Hc. apply in_seq in Hc. apply H. lia.
Qed.
Lemma den_rowmap f (e : expr A) w k i c0 g : eshape e = Some (w ++ [k]) -> c0 < k ->
  (forall c, c < k -> den e (i ++ [c]) = g c) -> den (RowMap f e) (i ++ [c0]) = f (map g (seq 0 k)) c0.
Proof.
  intros E Hc0 H. cbn [den]. rewrite (width_snoc _ _ _ E), removelast_last, last_last.
  replace (if Nat.eqb k 1 then 0 else c0) with c0 by (destruct (Nat.eqb_spec k 1); lia).
  f_equal. apply map_ext_in. intros c Hc. apply in_seq in Hc. apply H. lia.
Qed.
End Rows3.
