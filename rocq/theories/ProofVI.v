(** Lemmas about variational objectives. *)
From Coq Require Import List Arith Bool Reals Lra Lia.
From Coquelicot Require Import Coquelicot.
From Verif Require Import SpecDist ModelVI SpecVI ProofDiscrete.
Import ListNotations.
Local Open Scope R_scope.

(** ** Lists and duals *)

Lemma zip_with_map {X A B C} (f : A -> B -> C) (g : X -> A) (h : X -> B) l :
  zip_with f (map g l) (map h l) = map (fun x => f (g x) (h x)) l.
Proof. unfold zip_with. induction l; cbn; [easy|]. f_equal. exact IHl. Qed.
Lemma map_zip_with {A B C D} (g : C -> D) (f : A -> B -> C) a b :
  map g (zip_with f a b) = zip_with (fun x y => g (f x y)) a b.
Proof. unfold zip_with. rewrite map_map. easy. Qed.
Lemma dual_eq a b : val a = val b -> tan a = tan b -> a = b.
Proof. destruct a, b; cbn. now intros -> ->. Qed.

Lemma val_dsum {X} (f : X -> dual) l : val (dsum (map f l)) = total (fun x => val (f x)) l.
Proof. induction l; cbn; [easy|]. now f_equal. Qed.
Lemma tan_dsum {X} (f : X -> dual) l : tan (dsum (map f l)) = total (fun x => tan (f x)) l.
Proof. induction l; cbn; [easy|]. now f_equal. Qed.
Lemma len_pos {X} (l : list X) : l <> [] -> 0 < INR (length l).
Proof. destruct l; [easy|]. intros _. apply lt_0_INR. cbn. lia. Qed.
Lemma val_dmean {X} (f : X -> dual) l :
  val (dmean (map f l)) = total (fun x => val (f x)) l / INR (length l).
Proof. unfold dmean, ddiv. cbn [val dconst]. now rewrite val_dsum, map_length. Qed.
Lemma tan_dmean {X} (f : X -> dual) l : l <> [] ->
  tan (dmean (map f l)) = total (fun x => tan (f x)) l / INR (length l).
Proof.
  intros N. pose proof (len_pos l N). unfold dmean, ddiv. cbn [val tan dconst].
  rewrite tan_dsum, map_length. field. lra.
Qed.

Lemma total_const {X} (c : R) (l : list X) : total (fun _ => c) l = c * INR (length l).
Proof.
  induction l as [|x l IH]; [cbn; ring|].
  change (length (x :: l)) with (S (length l)). rewrite S_INR. cbn [total]. rewrite IH. ring.
Qed.
Lemma total_scal_r {X} (f : X -> R) c l : total (fun x => f x * c) l = total f l * c.
Proof. rewrite (Rmult_comm _ c), <- total_scal. apply total_ext. intros; ring. Qed.
Lemma total_opp {X} (f : X -> R) l : total (fun x => - f x) l = - total f l.
Proof. replace (- total f l) with (-1 * total f l) by ring. rewrite <- total_scal. apply total_ext. intros; ring. Qed.
Lemma total_minus {X} (f g : X -> R) l : total (fun x => f x - g x) l = total f l - total g l.
Proof. unfold Rminus. rewrite total_plus, total_opp. easy. Qed.
Lemma total_le {X} (f g : X -> R) l : (forall x, In x l -> f x <= g x) -> total f l <= total g l.
Proof.
  induction l; cbn; [lra|]. intros H. apply Rplus_le_compat; [apply H; now left|].
  apply IHl. intros; apply H; now right.
Qed.
Lemma total_zero {X} (f : X -> R) l : (forall x, In x l -> f x = 0) -> total f l = 0.
Proof. intros H. rewrite (total_ext f (fun _ => 0)) by exact H. rewrite total_const. ring. Qed.
Lemma total_swap {X Y} (f : X -> Y -> R) l m :
  total (fun x => total (f x) m) l = total (fun y => total (fun x => f x y) l) m.
Proof.
  induction l; cbn; [symmetry; now apply total_zero|]. rewrite IHl. symmetry. apply total_plus.
Qed.

(** log_mean_exp of duals. *)
Lemma lme_keep_eq l : log_mean_exp l = log_mean_exp_keep l.
Proof.
  unfold log_mean_exp, dmean, ddiv. cbn [dsum fold_right length INR dconst].
  apply dual_eq; cbn [val tan dadd dconst]; field.
Qed.
Section LME.
Context {X : Type} (f : X -> dual) (l : list X) (N : l <> []).
Let W := total (fun x => exp (val (f x))) l.
Lemma W_pos : 0 < W.
Proof. unfold W. apply total_pos; [easy|]. intros; apply exp_pos. Qed.
Lemma shifted_total (c : R) (g : X -> R) :
  total (fun x => g x * exp (val (f x) - c)) l = total (fun x => g x * exp (val (f x))) l * exp (- c).
Proof.
  rewrite <- total_scal_r. apply total_ext. intros x _. unfold Rminus. rewrite exp_plus. ring.
Qed.
Lemma val_lme : val (log_mean_exp (map f l)) = ln (W / INR (length l)).
Proof.
  rewrite lme_keep_eq. unfold log_mean_exp_keep. set (M := dmax (map f l)). clearbody M.
  cbn [val dadd dlog]. rewrite map_map, val_dmean. cbn [val dexp dsub].
  pose proof W_pos. pose proof (len_pos l N).
  rewrite (total_ext _ (fun x => 1 * exp (val (f x) - val M))) by (intros; ring).
  rewrite shifted_total.
  replace (total (fun x => 1 * exp (val (f x))) l) with W
    by (unfold W; apply total_ext; intros; ring).
  fold W. replace (W * exp (- val M) / INR (length l)) with (W / INR (length l) * exp (- val M)) by (field; lra).
  rewrite ln_mult; [|apply Rdiv_lt_0_compat; lra|apply exp_pos]. rewrite ln_exp. ring.
Qed.
Lemma tan_lme : tan (log_mean_exp (map f l)) =
  total (fun x => tan (f x) * exp (val (f x))) l / W.
Proof.
  rewrite lme_keep_eq. unfold log_mean_exp_keep. set (M := dmax (map f l)). clearbody M.
  cbn [val tan dadd dlog]. rewrite map_map, val_dmean, tan_dmean by easy. cbn [val tan dexp dsub].
  pose proof W_pos as HW. pose proof (len_pos l N) as HN.
  replace (total (fun x => exp (val (f x) - val M)) l) with (total (fun x => 1 * exp (val (f x) - val M)) l)
    by (apply total_ext; intros; ring).
  rewrite !shifted_total.
  replace (total (fun x => 1 * exp (val (f x))) l) with W
    by (unfold W; apply total_ext; intros; ring). fold W.
  replace (total (fun x => (tan (f x) - tan M) * exp (val (f x))) l)
    with (total (fun x => tan (f x) * exp (val (f x)) - tan M * exp (val (f x))) l)
    by (apply total_ext; intros; ring).
  rewrite total_minus, total_scal. fold W. pose proof (exp_pos (- val M)). field. lra.
Qed.
End LME.

(** ** Expectations *)
Section Space.
Context {Z : Type} (q : Z -> R) (Zs : list Z).

Lemma expect_ext f g : (forall z, In z Zs -> f z = g z) -> expect q Zs f = expect q Zs g.
Proof. intros H. unfold expect. apply total_ext. intros z Hz. now rewrite (H z Hz). Qed.
Lemma expect_plus f g : expect q Zs (fun z => f z + g z) = expect q Zs f + expect q Zs g.
Proof. unfold expect. rewrite <- total_plus. apply total_ext. intros; ring. Qed.
Lemma expect_scal c f : expect q Zs (fun z => c * f z) = c * expect q Zs f.
Proof. unfold expect. rewrite <- total_scal. apply total_ext. intros; ring. Qed.
Lemma expect_scal_r c f : expect q Zs (fun z => f z * c) = expect q Zs f * c.
Proof. rewrite Rmult_comm, <- expect_scal. apply expect_ext. intros; ring. Qed.

(** The draws that can occur. *)
Definition drawn (K : nat) (zs : list Z) := length zs = K /\ List.Forall (fun z => In z Zs) zs.
Lemma drawn_cons K z zs : In z Zs -> drawn K zs -> drawn (S K) (z :: zs).
Proof. intros H [L F]. split; [cbn; now rewrite L|now constructor]. Qed.

Lemma expects_ext K : forall f g, (forall zs, drawn K zs -> f zs = g zs) ->
  expects q Zs K f = expects q Zs K g.
Proof.
  induction K; intros f g H; cbn; [apply H; now split|].
  apply expect_ext. intros z Hz. apply IHK. intros zs D. apply H. now apply drawn_cons.
Qed.
Lemma expects_plus K : forall f g,
  expects q Zs K (fun zs => f zs + g zs) = expects q Zs K f + expects q Zs K g.
Proof.
  induction K; intros f g; cbn; [easy|]. rewrite <- expect_plus. apply expect_ext.
  intros z _. apply IHK.
Qed.
Lemma expects_scal K : forall c f, expects q Zs K (fun zs => c * f zs) = c * expects q Zs K f.
Proof.
  induction K; intros c f; cbn; [easy|]. rewrite <- expect_scal. apply expect_ext.
  intros z _. apply IHK.
Qed.
Lemma expects_scal_r K c f : expects q Zs K (fun zs => f zs * c) = expects q Zs K f * c.
Proof. rewrite Rmult_comm, <- expects_scal. apply expects_ext. intros; ring. Qed.
Lemma expects_opp K f : expects q Zs K (fun zs => - f zs) = - expects q Zs K f.
Proof. replace (- expects q Zs K f) with (-1 * expects q Zs K f) by ring. rewrite <- expects_scal. apply expects_ext. intros; ring. Qed.
Lemma expects_minus K f g :
  expects q Zs K (fun zs => f zs - g zs) = expects q Zs K f - expects q Zs K g.
Proof. unfold Rminus. rewrite expects_plus, expects_opp. easy. Qed.
Lemma expects_zero K : expects q Zs K (fun _ => 0) = 0.
Proof. rewrite (expects_ext K _ (fun _ => 0 * 1)) by (intros; ring). rewrite expects_scal. ring. Qed.
Lemma expects_total {Y} K (f : Y -> list Z -> R) l :
  expects q Zs K (fun zs => total (fun y => f y zs) l) = total (fun y => expects q Zs K (f y)) l.
Proof.
  induction l; cbn; [apply expects_zero|]. rewrite expects_plus, IHl. easy.
Qed.

Hypothesis D : distribution q Zs.

Lemma expect_const c : expect q Zs (fun _ => c) = c.
Proof. unfold expect. rewrite total_scal_r. destruct D as [_ ->]. ring. Qed.
Lemma expects_const K c : expects q Zs K (fun _ => c) = c.
Proof. induction K; cbn; [easy|]. rewrite (expect_ext _ (fun _ => c)) by easy. apply expect_const. Qed.
Lemma expect_le f g : (forall z, In z Zs -> 0 < q z -> f z <= g z) -> expect q Zs f <= expect q Zs g.
Proof.
  intros H. unfold expect. apply total_le. intros z Hz. destruct D as [P _].
  destruct (Rle_lt_or_eq_dec 0 (q z) (P z Hz)) as [Q | Q].
  - apply Rmult_le_compat_l; [lra|]. now apply H.
  - rewrite <- Q. lra.
Qed.
(** The draws with positive probability. *)
Definition possible (K : nat) (zs : list Z) := drawn K zs /\ List.Forall (fun z => 0 < q z) zs.
Lemma expects_le K : forall f g, (forall zs, possible K zs -> f zs <= g zs) ->
  expects q Zs K f <= expects q Zs K g.
Proof.
  induction K; intros f g H; cbn; [apply H; repeat split; constructor|].
  apply expect_le. intros z Hz Q. apply IHK. intros zs [Dz F]. apply H.
  split; [now apply drawn_cons|now constructor].
Qed.
Lemma expects_ext_pos K f g : (forall zs, possible K zs -> f zs = g zs) ->
  expects q Zs K f = expects q Zs K g.
Proof. intros H. apply Rle_antisym; apply expects_le; intros zs P; rewrite (H zs P); lra. Qed.

(** Draw [j] is independent of the others. *)
Lemma expects_indep j : forall K (d : Z) (g : Z -> R) (f : list Z -> R), (j <= K)%nat ->
  expects q Zs (S K) (fun zs => g (nth j zs d) * f (remove_nth j zs)) =
  expect q Zs g * expects q Zs K f.
Proof.
  induction j; intros K d g f H.
  - cbn [expects]. rewrite <- expect_scal_r. apply expect_ext. intros z _.
    unfold remove_nth. cbn [nth firstn skipn app]. rewrite expects_scal. easy.
  - destruct K as [|K]; [lia|]. cbn [expects] in *.
    rewrite <- expect_scal. apply expect_ext. intros z _.
    specialize (IHj K d g (fun zs => f (z :: zs)) (le_S_n _ _ H)). cbn [expects] in IHj.
    rewrite <- IHj. apply expect_ext. intros z' _. apply expects_ext. intros zs _.
    unfold remove_nth. cbn [nth firstn skipn app]. easy.
Qed.
Lemma expects_drop j K f : (j <= K)%nat ->
  expects q Zs (S K) (fun zs => f (remove_nth j zs)) = expects q Zs K f.
Proof.
  intros H. destruct Zs as [|d Zs'] eqn:E.
  { destruct D as [_ D2]. cbn in D2. lra. }
  rewrite <- E in *. pose proof (expects_indep j K d (fun _ => 1) f H) as I.
  rewrite expect_const in I. rewrite Rmult_1_l in I. rewrite <- I. apply expects_ext. intros; ring.
Qed.
(** A function of draw [j] alone. *)
Lemma expects_nth j K d g : (j < K)%nat -> expects q Zs K (fun zs => g (nth j zs d)) = expect q Zs g.
Proof.
  intros H. destruct K; [lia|].
  rewrite (expects_ext (S K) _ (fun zs => g (nth j zs d) * 1)) by (intros; ring).
  rewrite (expects_indep j K d g (fun _ => 1)) by lia. rewrite expects_const. ring.
Qed.
End Space.

(** Sums over a list as sums over positions. *)
Lemma total_nth {X} (d : X) (f : X -> R) l :
  total f l = total (fun j => f (nth j l d)) (seq 0 (length l)).
Proof.
  induction l; cbn [length seq total]; [easy|]. cbn [nth]. f_equal. rewrite IHl, <- seq_shift, total_map. easy.
Qed.
Lemma expects_each {Z} (q : Z -> R) Zs K g : distribution q Zs ->
  expects q Zs K (fun zs => total g zs) = INR K * expect q Zs g.
Proof.
  intros D. destruct Zs as [|d Zs'] eqn:E.
  { destruct D as [_ D2]. cbn in D2. lra. }
  rewrite <- E in *. rewrite (expects_ext q Zs K _ (fun zs => total (fun j => g (nth j zs d)) (seq 0 K))).
  2:{ intros zs [L _]. rewrite <- L. apply total_nth. }
  rewrite expects_total. rewrite (total_ext _ (fun _ => expect q Zs g)).
  2:{ intros j Hj. apply in_seq in Hj. apply expects_nth; [easy|lia]. }
  rewrite total_const, seq_length. ring.
Qed.

(** ** Inequalities *)
Lemma ln_tangent x c : 0 < x -> 0 < c -> ln x <= x / c - 1 + ln c.
Proof.
  intros Hx Hc. replace x with (x / c * c) at 1 by (field; lra).
  assert (0 < x / c) by now apply Rdiv_lt_0_compat.
  rewrite ln_mult by easy. pose proof (exp_ineq1_le (ln (x / c))) as E. rewrite exp_ln in E by easy. lra.
Qed.
Lemma ln_tangent_eq x c : 0 < x -> 0 < c -> ln x = x / c - 1 + ln c -> x = c.
Proof.
  intros Hx Hc E. assert (P : 0 < x / c) by now apply Rdiv_lt_0_compat.
  assert (E2 : ln (x / c) = x / c - 1).
  { replace x with (x / c * c) in E at 1 by (field; lra). rewrite ln_mult in E by easy. lra. }
  destruct (Req_dec (ln (x / c)) 0) as [Z0 | NZ].
  - assert (x / c = 1) by lra. replace x with (x / c * c) by (field; lra). rewrite H. ring.
  - pose proof (exp_ineq1 _ NZ) as I. rewrite exp_ln in I by easy. lra.
Qed.
(** Concavity of ln: the mean of logarithms is at most the log of the mean. *)
Lemma ln_jensen {X} (f : X -> R) l : l <> [] -> (forall x, In x l -> 0 < f x) ->
  total (fun x => ln (f x)) l / INR (length l) <= ln (total f l / INR (length l)).
Proof.
  intros N P. pose proof (len_pos l N) as HN. pose proof (total_pos f l N P) as HT.
  set (c := total f l / INR (length l)). assert (Hc : 0 < c) by now apply Rdiv_lt_0_compat.
  apply (Rmult_le_reg_r (INR (length l))); [easy|]. unfold Rdiv at 1.
  rewrite Rmult_assoc, Rinv_l, Rmult_1_r by lra.
  apply Rle_trans with (total (fun x => f x / c - 1 + ln c) l).
  - apply total_le. intros x Hx. apply ln_tangent; auto.
  - rewrite (total_ext _ (fun x => f x * / c + (ln c - 1))) by (intros; unfold Rdiv; ring).
    rewrite total_plus, total_scal_r, total_const.
    replace (total f l * / c) with (INR (length l)) by (unfold c; field; lra). lra.
Qed.

(** ** The tensors of a variational model *)
Section Tensors.
Context {Z : Type}.

Definition score (lqs : list (@quantity Z)) (z : Z) : R := total (fun lq => partial lq z) lqs.

Lemma fold_terms theta zs (lqs : list (@quantity Z)) : forall f : Z -> dual,
  fold_left (zip_with dadd) (map (fun lq => tensor_of theta lq zs) lqs) (map f zs) =
  map (fun z => Dual (val (f z) + log_q lqs theta z) (tan (f z) + score lqs z)) zs.
Proof.
  induction lqs as [|lq lqs IH]; intros f; cbn [map fold_left].
  - apply map_ext. intros z. apply dual_eq; cbn; ring.
  - unfold tensor_of at 2. rewrite zip_with_map, IH. apply map_ext. intros z.
    unfold log_q, score. cbn. f_equal; ring.
Qed.
Lemma entropy_eq theta lqs (zs : list Z) : lqs <> [] ->
  entropy_of theta lqs zs = Some (map (fun z => Dual (- log_q lqs theta z) (- score lqs z)) zs).
Proof.
  destruct lqs as [|lq lqs]; [easy|]. intros _. unfold entropy_of, entropy_term. cbn [map].
  unfold tensor_of at 2. rewrite map_map, fold_terms, map_map. f_equal. apply map_ext. intros z.
  unfold log_q, score. apply dual_eq; cbn; ring.
Qed.
(** log_w *)
Lemma log_w_eq theta lj lqs (zs : list Z) :
  zip_with dadd (tensor_of theta lj zs) (map (fun z => Dual (- log_q lqs theta z) (- score lqs z)) zs) =
  map (fun z => Dual (log_weight lj lqs theta z) (partial lj z - score lqs z)) zs.
Proof. unfold tensor_of. rewrite zip_with_map. apply map_ext. intros z. easy. Qed.
End Tensors.

(** ** KL divergence *)
Lemma total_zero_iff {X} (f : X -> R) l : (forall x, In x l -> 0 <= f x) ->
  (total f l = 0 <-> forall x, In x l -> f x = 0).
Proof.
  induction l as [|a l IH]; cbn; intros P; [easy|].
  assert (P1 : 0 <= f a) by (apply P; now left).
  assert (P2 : 0 <= total f l) by (apply total_nonneg; intros; apply P; now right).
  destruct IH as [I1 I2]; [intros; apply P; now right|].
  split.
  - intros E x [<- | H]; [lra|]. apply I1; [lra|easy].
  - intros H. rewrite I2 by (intros; apply H; now right). rewrite H by (now left). lra.
Qed.
Section KL.
Context {Z : Type} (q r : Z -> R) (Zs : list Z).
Hypothesis (D : distribution q Zs) (Pr : forall z, In z Zs -> 0 < r z) (Sr : total r Zs = 1).
Let gap z := r z - q z + q z * ln (q z / r z).
Lemma gap_total : total gap Zs = kl q r Zs.
Proof.
  unfold gap. rewrite total_plus, total_minus. destruct D as [_ ->]. rewrite Sr. unfold kl, expect. ring.
Qed.
Lemma gap_nonneg z : In z Zs -> 0 <= gap z.
Proof.
  intros Hz. unfold gap. destruct D as [Q _]. specialize (Q z Hz). specialize (Pr z Hz).
  destruct (Rle_lt_or_eq_dec 0 (q z) Q) as [P | <-]; [|lra].
  pose proof (ln_tangent (r z) (q z) Pr P) as T. unfold Rdiv at 1. rewrite ln_mult, ln_Rinv; [|easy|easy|now apply Rinv_0_lt_compat].
  assert (q z * (r z / q z - 1 + ln (q z)) >= q z * ln (r z)) by (apply Rle_ge, Rmult_le_compat_l; lra).
  assert (q z * (r z / q z - 1 + ln (q z)) = r z - q z + q z * ln (q z)) by (field; lra). lra.
Qed.
Lemma gap_zero z : In z Zs -> gap z = 0 -> q z = r z.
Proof.
  intros Hz. unfold gap. destruct D as [Q _]. specialize (Q z Hz). specialize (Pr z Hz).
  destruct (Rle_lt_or_eq_dec 0 (q z) Q) as [P | <-]; [|lra].
  unfold Rdiv. rewrite ln_mult, ln_Rinv; [|easy|easy|now apply Rinv_0_lt_compat]. intros E.
  symmetry. apply ln_tangent_eq; [easy|easy|].
  apply (Rmult_eq_reg_l (q z)); [|lra].
  replace (q z * (r z / q z - 1 + ln (q z))) with (r z - q z + q z * ln (q z)) by (field; lra). lra.
Qed.
Lemma kl_nonneg : 0 <= kl q r Zs.
Proof. rewrite <- gap_total. apply total_nonneg. exact gap_nonneg. Qed.
Lemma kl_zero : kl q r Zs = 0 <-> forall z, In z Zs -> q z = r z.
Proof.
  rewrite <- gap_total, total_zero_iff by exact gap_nonneg. split; intros H z Hz.
  - apply gap_zero; auto.
  - unfold gap. rewrite (H z Hz). specialize (Pr z Hz).
    replace (r z / r z) with 1 by (field; lra). rewrite ln_1. ring.
Qed.
End KL.

(** ** Derivatives of expectations *)
Lemma is_derive_total {X} (f : R -> X -> R) (f' : X -> R) l x0 :
  (forall x, In x l -> is_derive (fun t => f t x) x0 (f' x)) ->
  is_derive (fun t => total (f t) l) x0 (total f' l).
Proof.
  induction l as [|a l IH]; intros H; cbn [total].
  - apply (is_derive_const (K := R_AbsRing) (V := R_NormedModule) 0).
  - apply (is_derive_plus (K := R_AbsRing) (V := R_NormedModule) (fun t => f t a) (fun t => total (f t) l)).
    + apply H; now left.
    + apply IH. intros; apply H; now right.
Qed.
Lemma is_derive_mulR (f g : R -> R) f' g' x0 : is_derive f x0 f' -> is_derive g x0 g' ->
  is_derive (fun t => f t * g t) x0 (f' * g x0 + f x0 * g').
Proof.
  intros Hf Hg. apply (is_derive_mult (K := R_AbsRing) f g x0 f' g' Hf Hg). intros n m. apply Rmult_comm.
Qed.
Section Derive.
Context {Z : Type} (Zs : list Z) (q : R -> Z -> R) (s : Z -> R) (theta : R).
Hypothesis Hq : forall z, In z Zs -> is_derive (fun t => q t z) theta (q theta z * s z).
Lemma expects_derive K : forall (f : R -> list Z -> R) (f' : list Z -> R),
  (forall zs, drawn Zs K zs -> is_derive (fun t => f t zs) theta (f' zs)) ->
  is_derive (fun t => expects (q t) Zs K (f t)) theta
    (expects (q theta) Zs K (fun zs => total s zs * f theta zs + f' zs)).
Proof.
  induction K; intros f f' H; cbn [expects].
  - replace (total s [] * f theta [] + f' []) with (f' []) by (cbn; ring). apply H. split; [easy|constructor].
  - unfold expect. apply is_derive_total. intros z Hz.
    set (E := expects (q theta) Zs K (fun zs => total s zs * f theta (z :: zs) + f' (z :: zs))).
    assert (HE : is_derive (fun t => expects (q t) Zs K (fun zs => f t (z :: zs))) theta E).
    { apply (IHK (fun t zs => f t (z :: zs)) (fun zs => f' (z :: zs))). intros zs Dz. apply H. now apply drawn_cons. }
    pose proof (is_derive_mulR _ _ _ _ _ (Hq z Hz) HE) as M. cbn beta in M.
    match type of M with is_derive _ _ ?m => match goal with |- is_derive _ _ ?d =>
      replace d with m; [exact M|] end end.
    replace (expects (q theta) Zs K (fun zs => total s (z :: zs) * f theta (z :: zs) + f' (z :: zs)))
      with (s z * expects (q theta) Zs K (fun zs => f theta (z :: zs)) + E); [ring|].
    rewrite <- expects_scal. unfold E. rewrite <- expects_plus. apply expects_ext.
    intros zs _. cbn [total]. ring.
Qed.
End Derive.

(** The score of a family with these log probabilities. *)
Section Score.
Context {Z : Type} (Zs : list Z) (q : R -> Z -> R) (lqs : list (@quantity Z)) (theta : R).
Hypothesis (Pq : forall t z, In z Zs -> 0 < q t z) (Sq : forall t, total (q t) Zs = 1)
  (Lq : forall t, log_probs_of (q t) lqs t Zs) (Dq : forall lq, In lq lqs -> differentiable theta Zs lq).
Lemma family_distribution t : distribution (q t) Zs.
Proof. split; [|apply Sq]. intros z Hz. now apply Rlt_le, Pq. Qed.
Lemma score_derive z : In z Zs -> is_derive (fun t => log_q lqs t z) theta (score lqs z).
Proof.
  intros Hz. unfold log_q, score. apply (is_derive_total (fun t lq => at_param lq t z) (fun lq => partial lq z)).
  intros lq Hl. now apply Dq.
Qed.
Lemma family_derive z : In z Zs -> is_derive (fun t => q t z) theta (q theta z * score lqs z).
Proof.
  intros Hz. apply (is_derive_ext (fun t => exp (log_q lqs t z))).
  { intros t. destruct (Lq t) as [_ L]. rewrite L by auto. apply exp_ln. auto. }
  destruct (Lq theta) as [_ L].
  pose proof (is_derive_comp exp (fun t => log_q lqs t z) theta _ _ (is_derive_exp _) (score_derive z Hz)) as C.
  rewrite L, exp_ln in C by auto. unfold scal in C; cbn in C. unfold mult in C; cbn in C.
  replace (q theta z * score lqs z) with (score lqs z * q theta z) by ring. exact C.
Qed.
Lemma score_mean_zero : expect (q theta) Zs (score lqs) = 0.
Proof.
  assert (A : is_derive (fun t => total (q t) Zs) theta (expect (q theta) Zs (score lqs))).
  { apply is_derive_total. exact family_derive. }
  assert (B : is_derive (fun t => total (q t) Zs) theta 0).
  { apply (is_derive_ext (fun _ => 1)); [intros t; now rewrite Sq|].
    apply (is_derive_const (K := R_AbsRing) (V := R_NormedModule) 1). }
  apply is_derive_unique in A. apply is_derive_unique in B. congruence.
Qed.
End Score.
