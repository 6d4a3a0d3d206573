(** The weights of the chains of an AIS run are independent. *)
From Coq Require Import Reals Lra List Arith Lia FunctionalExtensionality.
From Verif Require Import ModelDist ModelAIS SpecDist SpecVI SpecAIS ProofDiscrete ProofVI ProofAIS.
Import ListNotations.
Local Open Scope R_scope.

(** A random value with finitely many outcomes, all in [P]. *)
Definition finite {A} (P : A -> Prop) (m : E A) : Prop :=
  exists l : list (R * A), Forall (fun p => 0 <= fst p /\ P (snd p)) l /\ forall f, m f = total (fun p => fst p * f (snd p)) l.
Lemma finite_ret {A} (P : A -> Prop) a : P a -> finite P (e_ret A a).
Proof. intros H. exists [(1, a)]. split; [constructor; [cbn; split; [lra|exact H]|constructor]|]. intros f. unfold e_ret. cbn. ring. Qed.
Lemma finite_swap {A B} (P : A -> Prop) (Q : B -> Prop) (m : E A) (k : E B) (F : A -> B -> R) : finite P m -> finite Q k -> m (fun a => k (fun b => F a b)) = k (fun b => m (fun a => F a b)).
Proof.
  intros (l & _ & Hl) (r & _ & Hr). rewrite Hl, Hr.
  transitivity (total (fun p => total (fun p0 => fst p * (fst p0 * F (snd p) (snd p0))) r) l); [apply total_ext; intros p _; rewrite Hr, <- total_scal; reflexivity|].
  rewrite total_swap. apply total_ext. intros p _. rewrite Hl, <- total_scal. apply total_ext. intros p0 _. ring.
Qed.
Lemma finite_bind {A B} (P : A -> Prop) (Q : B -> Prop) (m : E A) (k : A -> E B) : finite P m -> (forall a, P a -> finite Q (k a)) -> finite Q (e_bind A B m k).
Proof.
  intros (l & Pl & Hl) H. assert (X : exists r : list (R * B), Forall (fun p => 0 <= fst p /\ Q (snd p)) r /\ forall f, total (fun p => fst p * k (snd p) f) l = total (fun p => fst p * f (snd p)) r).
  { clear Hl m. induction Pl as [|(w & a) l (Hw & Pa) Pl IH]; [exists []; split; [constructor|reflexivity]|]. destruct IH as (r & Qr & Hr). cbn [fst snd] in *. destruct (H a Pa) as (t & Qt & Ht).
    exists (map (fun p => (w * fst p, snd p)) t ++ r). split.
    - apply Forall_app. split; [|exact Qr]. apply Forall_map. eapply Forall_impl; [|exact Qt]. cbn. intros p (W & S). split; [now apply Rmult_le_pos|exact S].
    - intros f. cbn [total fst snd]. rewrite total_app, total_map, Hr, Ht, <- total_scal. f_equal. apply total_ext. intros p _. cbn [fst snd]. ring. }
  destruct X as (r & Qr & Hr). exists r. split; [exact Qr|]. intros f. unfold e_bind. rewrite Hl. apply Hr.
Qed.
Lemma finite_ext {A} (P : A -> Prop) m f g : finite P m -> (forall a, P a -> f a = g a) -> m f = m g.
Proof. intros (l & Pl & Hl) H. rewrite !Hl. apply total_ext. intros p Hp. rewrite Forall_forall in Pl. destruct (Pl p Hp) as (_ & S). now rewrite H. Qed.

(** One outcome from each of [ms]. *)
Fixpoint each (ms : list (E R)) : E (list R) := fun F =>
  match ms with
  | [] => F []
  | m :: ms' => m (fun a => each ms' (fun l => F (a :: l)))
  end.
Section Chains.
Context {X : Type} (Xs : list X).
Lemma finite_expect q : distribution q Xs -> finite (fun x => In x Xs) (expect q Xs).
Proof.
  intros D. exists (map (fun x => (q x, x)) Xs). split.
  - apply Forall_map, Forall_forall. intros x Hx. split; [now apply (proj1 D)|exact Hx].
  - intros f. rewrite total_map. reflexivity.
Qed.
Lemma finite_independent qs : Forall (fun q => distribution q Xs) qs -> finite (sized Xs (length qs)) (independent Xs qs).
Proof.
  induction 1 as [|q qs D Ds IH]; cbn [independent].
  - apply (finite_ret (sized Xs 0)). split; [easy|]. intros x [].
  - apply (finite_bind (fun x => In x Xs) (sized Xs (length (q :: qs))) (expect q Xs) (fun x f => independent Xs qs (fun xs => f (x :: xs)))); [now apply finite_expect|].
    intros x Hx. apply (finite_bind (sized Xs (length qs)) (sized Xs (length (q :: qs))) (independent Xs qs) (fun xs f => f (x :: xs))); [easy|].
    intros xs [L I]. apply (finite_ret (sized Xs (length (q :: qs))) (x :: xs)). split; [cbn; now rewrite L|]. intros y [<-|Hy]; auto.
Qed.
(** Independent draws followed by one random value per draw. *)
Lemma independent_each gs : forall qs F, Forall (fun q => distribution q Xs) qs -> length gs = length qs -> (forall g x, In g gs -> In x Xs -> finite (fun _ => True) (g x)) ->
  independent Xs qs (fun xs => each (map (fun p => fst p (snd p)) (combine gs xs)) F)
  = each (map (fun p => (fun f => expect (snd p) Xs (fun x => fst p x f))) (combine gs qs)) F.
Proof.
  induction gs as [|g gs IH]; intros [|q qs] F D L G; try discriminate; [reflexivity|]. inversion D as [|? ? Dq Dqs]; subst. cbn [independent combine map each fst snd].
  apply expect_ext. intros x Hx. assert (FI := finite_independent qs Dqs). assert (Fg := G g x (or_introl eq_refl) Hx).
  rewrite (finite_swap _ _ (independent Xs qs) (g x) (fun xs a => each (map (fun p => fst p (snd p)) (combine gs xs)) (fun l => F (a :: l))) FI Fg).
  apply (finite_ext _ _ _ _ Fg). intros a _. apply IH; [exact Dqs|now injection L|]. intros g' x' I' Ix'. apply G; [now right|exact Ix'].
Qed.

Context (log_prior log_joint : X -> R) (kernel : R -> X -> X -> R) (n : nat).
Notation lf := (log_fn log_prior log_joint).
Notation temp k := (schedule_t n (INR k)).
Hypothesis trans : forall k, (1 <= k <= n)%nat -> transition Xs (kernel (temp k)).
Notation move := (move Xs log_prior log_joint kernel).
(** One chain. *)
Definition chain (fuel num : nat) (x : X) (w : R) : E R := fun f => anneal e_ret e_bind move n fuel num [x] [w] (fun l => f (hd 0 l)).
Definition updated (num : nat) (w : R) (x x' : X) : R := let T := temp (num + 1) in if Nat.ltb (num + 1) n then w + (lf T x - lf T x') else w + lf T x.
Lemma chain_step fuel num x w f : chain (S fuel) num x w f = expect (kernel (temp (num + 1)) x) Xs (fun x' => chain fuel (S num) x' (updated num w x x') f).
Proof. unfold chain, updated. cbn [anneal]. unfold e_bind, SpecAIS.move. cbn [map independent fst snd]. apply expect_ext. intros x' _. destruct (Nat.ltb (num + 1) n); reflexivity. Qed.
Lemma finite_chain fuel : forall num x w, (num + fuel <= n)%nat -> In x Xs -> finite (fun _ => True) (chain fuel num x w).
Proof.
  induction fuel as [|fuel IH]; intros num x w N Hx; [exists [(1, w)]; split; [repeat constructor; cbn; lra|]; intros f; unfold chain; cbn; unfold e_ret; cbn; ring|].
  assert (D : distribution (kernel (temp (num + 1)) x) Xs) by (apply trans; [lia|exact Hx]). pose proof (finite_bind _ (fun _ : R => True) _ (fun x' => chain fuel (S num) x' (updated num w x x')) (finite_expect _ D)) as B.
  destruct B as (l & Pl & Hl); [intros x' Hx'; apply IH; [lia|exact Hx']|]. exists l. split; [exact Pl|]. intros f. rewrite chain_step. apply (Hl f).
Qed.
Lemma combine_updates (upd : R -> X -> X -> R) (c : X -> R -> E R) lw : forall xs xs', length lw = length xs -> length xs' = length xs ->
  map (fun p => c (fst p) (snd p)) (combine xs' (map (fun p => upd (fst (fst p)) (snd (fst p)) (snd p)) (combine (combine lw xs) xs')))
  = map (fun p => fst p (snd p)) (combine (map (fun p => fun x' => c x' (upd (fst p) (snd p) x')) (combine lw xs)) xs').
Proof. induction lw as [|w lw IH]; intros [|x xs] [|x' xs'] L L'; try discriminate; [reflexivity|]. cbn [combine map fst snd]. f_equal. apply IH; now (injection L + injection L'). Qed.
Lemma array_updates num : forall lw xs xs', length lw = length xs -> length xs' = length xs -> let T := temp (num + 1) in
  (if Nat.ltb (num + 1) n then add_arrays lw (sub_arrays (map (lf T) xs) (map (lf T) xs')) else add_arrays lw (map (lf T) xs))
  = map (fun p => updated num (fst (fst p)) (snd (fst p)) (snd p)) (combine (combine lw xs) xs').
Proof.
  intros lw xs xs' L L' T. unfold updated, add_arrays, sub_arrays. fold T. destruct (Nat.ltb (num + 1) n); revert xs xs' L L'; induction lw as [|w lw IH]; intros [|x xs] [|x' xs'] L L'; try discriminate; try reflexivity; cbn [combine map fst snd]; f_equal; apply IH; now (injection L + injection L').
Qed.
Lemma combine_swap {A B} (a : list A) : forall b : list B, map (fun p => (snd p, fst p)) (combine a b) = combine b a.
Proof. induction a as [|x a IH]; intros [|y b]; try reflexivity. cbn. now rewrite IH. Qed.
(** All chains together. *)
Lemma anneal_each fuel : forall num xs lw F, (num + fuel <= n)%nat -> (forall x, In x xs -> In x Xs) -> length lw = length xs ->
  anneal e_ret e_bind move n fuel num xs lw F = each (map (fun p => chain fuel num (fst p) (snd p)) (combine xs lw)) F.
Proof.
  induction fuel as [|fuel IH]; intros num xs lw F N I L.
  - cbn [anneal]. unfold e_ret. clear I N. revert lw F L. induction xs as [|x xs IHx]; intros [|w lw] F L; try discriminate; [reflexivity|]. cbn [combine map each fst snd]. unfold chain at 1. cbn [anneal]. unfold e_ret. cbn [hd]. apply (IHx lw (fun l => F (w :: l))). now injection L.
  - cbn [anneal]. unfold e_bind at 1. unfold SpecAIS.move at 1. cbn [fst snd]. set (T := temp (num + 1)).
    assert (Ok : Forall (fun q => distribution q Xs) (map (kernel T) xs)) by (apply Forall_forall; intros q Hq; apply in_map_iff in Hq as [x [<- Hx]]; apply trans; [lia|auto]).
    pose proof (finite_independent _ Ok) as FI. rewrite map_length in FI.
    set (gs := map (fun p => fun x' => chain fuel (S num) x' (updated num (fst p) (snd p) x')) (combine lw xs)).
    rewrite (finite_ext _ _ _ (fun xs' => each (map (fun p => fst p (snd p)) (combine gs xs')) F) FI).
    + rewrite independent_each; [|exact Ok|unfold gs; rewrite !map_length, combine_length; lia|].
      * f_equal. unfold gs. clear FI gs Ok. revert lw L. induction xs as [|x xs IHx]; intros [|w lw] L; try discriminate; [reflexivity|]. cbn [combine map fst snd]. rewrite (IHx (fun y Hy => I y (or_intror Hy)) lw) by now injection L.
        apply (f_equal (fun c => c :: _)). apply functional_extensionality. intros f. symmetry. apply chain_step.
      * intros g x Hg Hx. unfold gs in Hg. apply in_map_iff in Hg as ((w & y) & <- & _). cbn [fst snd]. apply finite_chain; [lia|exact Hx].
    + intros xs' (Lx' & Ix'). pose proof (array_updates num lw xs xs' L Lx') as AU. cbv zeta in AU. fold T in AU. rewrite AU. rewrite IH; [|lia|exact Ix'|rewrite map_length, !combine_length; lia]. f_equal. unfold gs. apply (combine_updates (updated num) (chain fuel (S num))); assumption.
Qed.
End Chains.

(** [K] independent draws of the same finite law. *)
Lemma each_repeat (m : E R) (l : list (R * R)) K : (forall f, m f = total (fun p => fst p * f (snd p)) l) -> forall F, each (repeat m K) F = expects fst l K (fun zs => F (map snd zs)).
Proof.
  intros H. induction K as [|K IH]; intros F; [reflexivity|]. cbn [repeat each expects]. rewrite H. unfold expect. apply total_ext. intros p _. f_equal. apply (IH (fun l => F (snd p :: l))).
Qed.
