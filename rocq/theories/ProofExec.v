(** What every order of execution gives. *)
From Coq Require Import List Lia.
From Verif Require Import ModelExec.
Import ListNotations.

Section Exec.
Context {X N V : Type}.
Variables (eqX : forall a b : X, {a = b} + {a <> b}) (eqN : forall a b : N, {a = b} + {a <> b}).
Variable g : graph X N.
Variable kernel : N -> (N -> V) -> (X -> V) -> V.
Notation run := (run eqX eqN g kernel).
Notation exec := (exec eqX eqN g kernel).
(** Each variable is assigned by at most one operation. *)
Hypothesis one_writer : forall w w' x, writes g w = Some x -> writes g w' = Some x -> w = w'.

Variables (target : N) (l : list (event X N)) (s0 : machine X N V).
(** A kernel uses only its inputs and the contents it takes. *)
Hypothesis local : forall n, needed g target n -> forall o o' v v', (forall m, In m (deps g n) -> o m = o' m) ->
  (forall x, In x (reads g n) \/ In x (refs g n) -> v x = v' x) -> kernel n o v = kernel n o' v'.
Hypothesis S : schedule g target l.
Let fin := run l s0.

Lemma run_app l1 l2 s : run (l1 ++ l2) s = run l2 (run l1 s).
Proof. apply fold_left_app. Qed.
Lemma event_dec (e e' : event X N) : {e = e'} + {e <> e'}.
Proof. decide equality. Qed.
(** Outputs do not change after the run of the operation. *)
Lemma out_later n l2 : forall s, ~ In (Run n) l2 -> out (run l2 s) n = out s n.
Proof.
  induction l2 as [|e l2 IH]; intros s H; [reflexivity|]. cbn in H. change (out (run l2 (exec s e)) n = out s n).
  rewrite IH by tauto. destruct e as [m x|m]; cbn; [reflexivity|]. destruct (eqN n m) as [->|_]; [exfalso; apply H; now left|reflexivity].
Qed.
Lemma seen_later n x l2 : forall s, ~ In (Look n x) l2 -> seen (run l2 s) n x = seen s n x.
Proof.
  induction l2 as [|e l2 IH]; intros s H; [reflexivity|]. cbn in H. change (seen (run l2 (exec s e)) n x = seen s n x).
  rewrite IH by tauto. destruct e as [m y|m]; cbn; [|reflexivity].
  destruct (eqN n m) as [->|_]; [|reflexivity]. destruct (eqX x y) as [->|_]; [exfalso; apply H; now left|reflexivity].
Qed.
Lemma out_fixed n l1 l2 : l = l1 ++ l2 -> In (Run n) l1 -> out (run l1 s0) n = out fin n.
Proof.
  intros E H. unfold fin. rewrite E, run_app. symmetry. apply out_later. intros H2. destruct S as (_ & U & _).
  apply in_split in H as (a & b & ->). apply (U n a (b ++ l2)); [rewrite E, <- app_assoc; reflexivity|]. apply in_or_app. right. apply in_or_app. now right.
Qed.
(** Contents of a variable during the run. *)
Lemma mem_spec x l1 l2 : l = l1 ++ l2 ->
  (mem (run l1 s0) x = mem s0 x /\ (forall w, writes g w = Some x -> ~ In (Run w) l1)) \/
  (exists w, writes g w = Some x /\ In (Run w) l1 /\ mem (run l1 s0) x = out fin w).
Proof.
  revert l2. induction l1 as [|e l1 IH] using rev_ind; intros l2 E.
  - left. split; [reflexivity|]. intros w _ [].
  - rewrite <- app_assoc in E. specialize (IH ([e] ++ l2) E). rewrite run_app.
    assert (Last : forall w, e = Run w -> out (run [e] (run l1 s0)) w = out fin w).
    { intros w ->. rewrite <- run_app. apply (out_fixed w (l1 ++ [Run w]) l2); [rewrite <- app_assoc; exact E|]. apply in_or_app. right. now left. }
    destruct e as [n y|n]; cbn in *.
    + destruct IH as [(M & H)|(w & W & I & M)]; [left; split; [exact M|]|right; exists w; repeat split; auto; apply in_or_app; now left].
      intros w W I. apply in_app_or in I as [I|[I|[]]]; [exact (H w W I)|discriminate].
    + destruct (writes g n) as [y|] eqn:Wn.
      * destruct (eqX x y) as [->|D].
        -- right. exists n. split; [exact Wn|]. split; [apply in_or_app; right; now left|]. rewrite <- (Last n eq_refl). destruct (eqN n n); [reflexivity|congruence].
        -- destruct IH as [(M & H)|(w & W & I & M)]; [left; split; [exact M|]|right; exists w; repeat split; auto; apply in_or_app; now left].
           intros w W I. apply in_app_or in I as [I|[I|[]]]; [exact (H w W I)|]. injection I as ->. congruence.
      * destruct IH as [(M & H)|(w & W & I & M)]; [left; split; [exact M|]|right; exists w; repeat split; auto; apply in_or_app; now left].
        intros w W I. apply in_app_or in I as [I|[I|[]]]; [exact (H w W I)|]. injection I as ->. congruence.
Qed.
(** Last occurrence. *)
Lemma last_split (e : event X N) k : In e k -> exists a b, k = a ++ e :: b /\ ~ In e b.
Proof.
  induction k as [|f k IH]; [intros []|]. intros H. destruct (in_dec event_dec e k) as [I|I].
  - destruct (IH I) as (a & b & -> & H'). exists (f :: a), b. auto.
  - destruct H as [->|H]; [exists [], k; auto|contradiction].
Qed.
Lemma exec_out n : needed g target n -> out fin n = kernel n (out fin) (seen fin n).
Proof.
  intros Hn'. pose proof Hn' as Hn. destruct S as (R & U & NL & D & RD & _). apply R in Hn. apply in_split in Hn as (a & b & E).
  assert (O : out fin n = out (run (a ++ [Run n]) s0) n).
  { symmetry. apply (out_fixed n (a ++ [Run n]) b); [rewrite E, <- app_assoc; reflexivity|]. apply in_or_app. right. now left. }
  rewrite O, run_app. cbn. destruct (eqN n n); [|congruence]. apply local; [exact Hn'| |].
  - intros m Hm. apply (out_fixed m a (Run n :: b) E). exact (D n m Hm a b E).
  - intros x Hx. unfold fin. rewrite E, run_app. change (run (Run n :: b)) with (fun s => run b (exec s (Run n))). cbv beta.
    rewrite (seen_later n x b) by (apply (NL n x a b E)). reflexivity.
Qed.
(** What a look saw. *)
Lemma look_at n x : needed g target n -> In x (reads g n) \/ In x (refs g n) ->
  exists a b, l = a ++ Look n x :: b /\ seen fin n x = mem (run a s0) x /\ ~ In (Run n) a.
Proof.
  intros Hn Hx. destruct S as (R & U & NL & D & RD & _). apply R in Hn. apply in_split in Hn as (a & b & E).
  pose proof (RD n x Hx a b E) as L. destruct (last_split _ _ L) as (a1 & a2 & E1 & N2).
  exists a1, (a2 ++ Run n :: b). rewrite E, E1, <- app_assoc. split; [reflexivity|]. split.
  - unfold fin. rewrite E, E1, <- app_assoc, run_app. change (run ((Look n x :: a2) ++ Run n :: b)) with (fun s => run (a2 ++ Run n :: b) (exec s (Look n x))). cbv beta.
    rewrite seen_later.
    + cbn. destruct (eqN n n); [|congruence]. destruct (eqX x x); [reflexivity|congruence].
    + intros I. apply in_app_or in I as [I|[I|I]]; [contradiction|discriminate|]. exact (NL n x a b E I).
  - intros I. apply (U n a b E). rewrite E1. apply in_or_app. left. apply in_or_app. now left.
Qed.
(** [n] runs before [w] if [w] depends on it. *)
Lemma ancestor_first w n : needed g target w -> needed g w n -> n <> w -> forall a b, l = a ++ Run w :: b -> In (Run n) a.
Proof.
  intros Hw H. induction H as [|m k H IH I]; intros Ne a b E; [congruence|].
  destruct S as (R & U & NL & D & RD & _). destruct (eqN m w) as [->|Nm].
  - exact (D w k I a b E).
  - specialize (IH Nm a b E). apply in_split in IH as (a1 & a2 & ->). rewrite <- app_assoc in E. pose proof (D m k I a1 _ E). apply in_or_app. now left.
Qed.
Theorem exec_seen n x : needed g target n -> In x (reads g n) \/ In x (refs g n) ->
  seen fin n x = mem s0 x \/ exists w, needed g target w /\ writes g w = Some x /\ seen fin n x = out fin w.
Proof.
  intros Hn Hx. destruct (look_at n x Hn Hx) as (a & b & E & Sx & _). rewrite Sx.
  destruct (mem_spec x a _ E) as [(M & _)|(w & W & I & M)]; [now left|]. right. exists w. split; [|split; [exact W|exact M]].
  apply S. rewrite E. apply in_or_app. now left.
Qed.
Theorem exec_seen_before n x : needed g target n -> In x (reads g n) \/ In x (refs g n) ->
  (forall w, needed g target w -> writes g w = Some x -> needed g w n) -> seen fin n x = mem s0 x.
Proof.
  intros Hn Hx B. destruct (look_at n x Hn Hx) as (a & b & E & Sx & Nr). rewrite Sx.
  destruct (mem_spec x a _ E) as [(M & _)|(w & W & I & M)]; [exact M|]. exfalso.
  assert (Hw : needed g target w) by (apply S; rewrite E; apply in_or_app; now left). specialize (B w Hw W).
  destruct (eqN n w) as [->|Ne]; [exact (Nr I)|]. apply in_split in I as (a1 & a2 & ->). rewrite <- app_assoc in E.
  pose proof (ancestor_first w n Hw B Ne a1 _ E). apply Nr, in_or_app. now left.
Qed.
Theorem exec_seen_after n x w : needed g target n -> In x (refs g n) -> needed g target w -> writes g w = Some x -> seen fin n x = out fin w.
Proof.
  intros Hn Hx Hw W. destruct (look_at n x Hn (or_intror Hx)) as (a & b & E & Sx & _). rewrite Sx.
  pose proof (proj2 (proj2 (proj2 (proj2 (proj2 S)))) n x w Hx W Hw a b E) as I.
  destruct (mem_spec x a _ E) as [(M & H)|(w' & W' & I' & M)]; [exfalso; exact (H w W I)|]. now rewrite (one_writer w w' x W W').
Qed.
Theorem exec_mem x :
  (forall w, needed g target w -> writes g w = Some x -> mem fin x = out fin w) /\
  ((forall w, needed g target w -> writes g w <> Some x) -> mem fin x = mem s0 x).
Proof.
  assert (E : l = l ++ []) by now rewrite app_nil_r. destruct (mem_spec x l [] E) as [(M & H)|(w & W & I & M)].
  - split; [|auto]. intros w Hw W. exfalso. apply (H w W). now apply S.
  - split; [intros w' Hw' W'; unfold fin; rewrite (one_writer w' w x W' W); exact M|]. intros H. exfalso. apply (H w); [now apply S|exact W].
Qed.
End Exec.

(** A run stopped at any point has left each variable at its old content or at the one the
    whole run leaves. *)
Section Stopped.
Context {X N V : Type}.
Variables (eqX : forall a b : X, {a = b} + {a <> b}) (eqN : forall a b : N, {a = b} + {a <> b}).
Variables (g : graph X N) (kernel : N -> (N -> V) -> (X -> V) -> V).
Hypothesis one_writer : forall w w' x, writes g w = Some x -> writes g w' = Some x -> w = w'.
Variables (target : N) (l l1 l2 : list (event X N)) (s0 : machine X N V).
Hypothesis S : schedule g target l.
Hypothesis split : l = l1 ++ l2.
Lemma stopped x :
  (mem (run eqX eqN g kernel l1 s0) x = mem s0 x /\ forall w, writes g w = Some x -> ~ In (Run w) l1) \/
  (exists w, writes g w = Some x /\ In (Run w) l1 /\ mem (run eqX eqN g kernel l1 s0) x = mem (run eqX eqN g kernel l s0) x).
Proof.
  destruct (mem_spec eqX eqN g kernel target l s0 S x l1 l2 split) as [H|(w & W & I & M)]; [now left|]. right. exists w.
  split; [exact W|]. split; [exact I|]. rewrite M. symmetry. apply (exec_mem eqX eqN g kernel one_writer target l s0 S); [|exact W].
  apply S. rewrite split. apply in_or_app. now left.
Qed.
End Stopped.

(** Orders of the operations give orders of execution. *)
Section Sequential.
Context {X N V : Type}.
Variables (eqX : forall a b : X, {a = b} + {a <> b}) (eqN : forall a b : N, {a = b} + {a <> b}).
Variable g : graph X N.
Definition steps (n : N) : list (event X N) := map (Look n) (reads g n ++ refs g n) ++ [Run n].
Lemma run_at order : forall n a b, flat_map steps order = a ++ Run n :: b ->
  exists o1 o2, order = o1 ++ n :: o2 /\ a = flat_map steps o1 ++ map (Look n) (reads g n ++ refs g n) /\ b = flat_map steps o2.
Proof.
  induction order as [|k order IH]; intros n a b E; cbn in E; [destruct a; discriminate|].
  unfold steps in E at 1. rewrite <- app_assoc in E. cbn in E.
  assert (G : forall ls a, map (Look k) ls ++ Run k :: flat_map steps order = a ++ Run n :: b ->
    (k = n /\ a = map (Look k) ls /\ b = flat_map steps order) \/ exists a', a = map (Look k) ls ++ Run k :: a' /\ flat_map steps order = a' ++ Run n :: b).
  { clear. induction ls as [|x ls IH]; intros a E; destruct a as [|e a]; cbn in E.
    - injection E as -> ->. now left.
    - injection E as <- E. right. exists a. split; [reflexivity|exact E].
    - discriminate.
    - injection E as <- E. destruct (IH a E) as [(-> & -> & ->)|(a' & -> & E')]; [now left|right]. exists a'. now split. }
  destruct (G _ _ E) as [(-> & -> & ->)|(a' & -> & E')].
  - exists [], order. now repeat split.
  - destruct (IH n a' b E') as (o1 & o2 & -> & -> & ->). exists (k :: o1), o2. split; [reflexivity|]. split; [|reflexivity].
    cbn. unfold steps at 2. rewrite <- !app_assoc. reflexivity.
Qed.
Lemma look_before order : forall n x a b, flat_map steps order = a ++ Look n x :: b -> exists o1 o2, order = o1 ++ n :: o2 /\ incl (flat_map steps o1) a.
Proof.
  induction order as [|k order IH]; intros n x a b E; cbn in E; [destruct a; discriminate|].
  unfold steps in E at 1. rewrite <- app_assoc in E. cbn in E.
  assert (G : forall ls a, map (Look k) ls ++ Run k :: flat_map steps order = a ++ Look n x :: b ->
    k = n \/ exists a', a = map (Look k) ls ++ Run k :: a' /\ flat_map steps order = a' ++ Look n x :: b).
  { clear. induction ls as [|y ls IH]; intros a E; destruct a as [|e a]; cbn in E.
    - discriminate.
    - injection E as <- E. right. exists a. split; [reflexivity|exact E].
    - injection E as -> _. now left.
    - injection E as <- E. destruct (IH a E) as [->|(a' & -> & E')]; [now left|right]. exists a'. now split. }
  destruct (G _ _ E) as [->|(a' & -> & E')].
  - exists [], order. split; [reflexivity|]. intros ? [].
  - destruct (IH n x a' b E') as (o1 & o2 & -> & I). exists (k :: o1), o2. split; [reflexivity|]. cbn. unfold steps at 1.
    rewrite <- app_assoc. apply incl_app; [apply incl_appl, incl_refl|]. apply incl_appr. cbn. intros e [<-|H]; [now left|right; now apply I].
Qed.
Lemma run_in order n : In (Run n) (flat_map steps order) <-> In n order.
Proof.
  rewrite in_flat_map. split.
  - intros (k & Hk & H). unfold steps in H. apply in_app_or in H as [H|[H|[]]]; [apply in_map_iff in H as (? & ? & _); discriminate|now injection H as ->].
  - intros H. exists n. split; [exact H|]. unfold steps. apply in_or_app. right. now left.
Qed.
Variables (target : N) (order : list N).
Hypothesis once : NoDup order.
Hypothesis all : forall n, In n order <-> needed g target n.
Hypothesis sorted : forall o1 n o2, order = o1 ++ n :: o2 -> incl (deps g n) o1.
Hypothesis refs_deps : forall n x w, In x (refs g n) -> writes g w = Some x -> In w (deps g n).
Lemma sequential_schedule : schedule g target (flat_map steps order).
Proof.
  split; [intros n; rewrite run_in; apply all|]. split; [|split; [|split; [|split]]].
  - intros n a b E I. destruct (run_at _ _ _ _ E) as (o1 & o2 & -> & -> & ->).
    apply (NoDup_remove_2 _ _ _ once). apply in_or_app. apply in_app_or in I as [I|I]; [|right; now apply run_in].
    apply in_app_or in I as [I|I]; [left; now apply run_in|]. apply in_map_iff in I as (? & ? & _). discriminate.
  - intros n x a b E I. destruct (run_at _ _ _ _ E) as (o1 & o2 & -> & -> & ->).
    apply (NoDup_remove_2 _ _ _ once). apply in_or_app. right. apply in_flat_map in I as (k & Hk & I). unfold steps in I.
    apply in_app_or in I as [I|[I|[]]]; [|discriminate]. apply in_map_iff in I as (? & I & _). now injection I as -> _.
  - intros n m Hm a b E. destruct (run_at _ _ _ _ E) as (o1 & o2 & Eo & -> & ->). apply in_or_app. left. apply run_in. now apply (sorted o1 n o2 Eo).
  - intros n x Hx a b E. destruct (run_at _ _ _ _ E) as (o1 & o2 & Eo & -> & ->). apply in_or_app. right. apply in_map. apply in_or_app. exact Hx.
  - intros n x w Hx W Hw a b E. destruct (look_before _ _ _ _ _ E) as (o1 & o2 & Eo & I). apply I, run_in. apply (sorted o1 n o2 Eo). exact (refs_deps n x w Hx W).
Qed.
End Sequential.
