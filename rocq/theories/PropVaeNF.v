(** C88: the normalizing flow example. The coordinates of z are the members of a type [J], listed
    once each by [L]; a row is [map z L]. *)
From Coq Require Import List Reals Lra Lia FunctionalExtensionality.
From Coquelicot Require Import Coquelicot.
From Verif Require Import SpecShape ModelShape ModelTensor ModelDist ModelFlow ModelSBN ModelVaeNF.
From Verif Require PropFlow PropFlowBatch PropDiscrete PropSupport PropSBN.
From Verif Require Import SpecDensity SpecVolume SpecExpect SpecInvariance SpecFlowDensity.
From Verif Require Import ProofVolume ProofChange ProofBimove ProofPhase ProofFlowDensity ProofExpect PropFlowDensity.
Import ListNotations.
Local Open Scope R_scope.

(** ** All rows *)
(** Both calls accept what they get, whatever the leading axes, and every row goes through the
    layers of the first and then those of the second. *)
Theorem C88_two_calls ps1 ps2 samples log_probs batch d :
  t_shape samples = batch ++ [d] -> t_shape log_probs = batch -> batch <> [] -> (0 < d)%nat ->
  List.Forall (PropFlow.planar_ok d) ps1 -> List.Forall (PropFlow.planar_ok d) ps2 ->
  exists z l, nf_posterior ps1 ps2 samples log_probs = Some (z, l) /\ t_shape z = batch ++ [d] /\ t_shape l = batch /\
    forall i, valid batch i -> planar_row (ps1 ++ ps2) (row samples i, t_at log_probs i) = Some (row z i, t_at l i) /\
      nf_row ps1 ps2 (row samples i, t_at log_probs i) = Some (row z i, t_at l i).
Proof.
  intros S Sl B Hd O1 O2. destruct (PropFlowBatch.C39_batch ps1 samples log_probs batch d S Sl B Hd O1) as (z1 & l1 & E1 & S1 & Sl1 & R1).
  destruct (PropFlowBatch.C39_batch ps2 z1 l1 batch d S1 Sl1 B Hd O2) as (z2 & l2 & E2 & S2 & Sl2 & R2).
  exists z2, l2. split; [unfold nf_posterior; rewrite E1; exact E2|]. split; [exact S2|]. split; [exact Sl2|].
  intros i Hi. destruct (R1 i Hi) as (r1 & Q1 & F1). destruct (R2 i Hi) as (r2 & Q2 & F2). subst r1 r2.
  assert (A : forall ps zl, planar_row (ps ++ ps2) zl = obind (planar_row ps zl) (planar_row ps2)).
  { induction ps as [|p ps IH]; intros zl; [reflexivity|]. cbn [app planar_row]. destruct (planar_layer p zl); [apply IH|reflexivity]. }
  unfold nf_row. rewrite A, Q1. cbn [obind]. now rewrite Q2.
Qed.
Print Assumptions C88_two_calls.

(** ** One row *)
Section Row.
Context {J : Type} (dec : forall i j : J, {i = j} + {i <> j}) (L : list J) (L_once : NoDup L) (L_all : forall j, In j L).
Notation plus_all l f := (fold_right Rplus 0 (map f l)).

Lemma scale_moves (m s : J -> R) l : NoDup l -> exists T S, bimoves dec L T (fun _ => exp (plus_all l s)) S /\
  forall x j, (In j l -> T x j = normal_sample (x j) (m j) (exp (s j))) /\ (~ In j l -> T x j = x j).
Proof.
  induction l as [|i l IH]; intros Nd.
  - exists (fun x => x), (fun x => x). split; [|now split].
    apply (bimoves_ext dec L (fun x => x) (fun _ => 1) (fun x => x)); try reflexivity; [intros; cbn; now rewrite exp_0|apply bimoves_id].
  - inversion Nd as [|? ? N Nd']; subst. destruct (IH Nd') as (T & S & M & E).
    pose proof (bimoves_affine dec L L_once L_all i (fun _ => exp (s i)) (fun _ => m i) (cont_const _) (cont_const _)
      (fun _ => Rgt_not_eq _ _ (exp_pos (s i))) (fun _ _ => eq_refl) (fun _ _ => eq_refl)) as A.
    pose proof (bimoves_comp dec L L_all _ _ _ _ _ _ M A) as C. do 2 eexists. split.
    + eapply bimoves_ext; [| | |exact C]; try reflexivity. intros x. cbn. rewrite exp_plus, Rabs_pos_eq by (left; apply exp_pos). ring.
    + intros x j. unfold affine. split.
      * intros [<-|Hj].
        -- rewrite upd_same. destruct (E x i) as (_ & E0). rewrite E0 by exact N. unfold normal_sample. ring.
        -- rewrite upd_other by (intros ->; contradiction). now apply E.
      * intros Nj. rewrite upd_other by (intros ->; apply Nj; now left). apply E. intros Hj. apply Nj. now right.
Qed.

Lemma half_ln : 1 / 2 * ln (2 * PI) = ln (sqrt (2 * PI)).
Proof.
  assert (H : 0 < 2 * PI) by (pose proof PI_RGT_0; lra). pose proof (sqrt_lt_R0 _ H) as H'.
  rewrite <- (sqrt_sqrt (2 * PI)) at 1 by lra. rewrite ln_mult by assumption. field.
Qed.
Lemma standard_lp t : normal_lp t 0 0 = - (t * t) / 2 - ln (sqrt (2 * PI)).
Proof. unfold normal_lp, square. rewrite <- half_ln. replace (-2 * 0) with 0 by ring. rewrite exp_0. field. Qed.
Lemma sample_lp t m s : normal_lp (normal_sample t m (exp s)) m s = - (t * t) / 2 - ln (sqrt (2 * PI)) - s.
Proof.
  unfold normal_lp, normal_sample, square. rewrite <- half_ln.
  replace (t * exp s + m - m) with (t * exp s) by ring.
  assert (Q : exp (-2 * s) * (exp s * exp s) = 1) by (rewrite <- !exp_plus, <- exp_0; f_equal; ring).
  transitivity (- (1 / 2 * ln (2 * PI)) - s - 1 / 2 * (t * t) * (exp (-2 * s) * (exp s * exp s))); [field|]. rewrite Q. field.
Qed.
Lemma draw_form (m s x : J -> R) l : q_draw (map (fun j => (m j, s j)) l) (map x l) =
  (map (fun j => normal_sample (x j) (m j) (exp (s j))) l, standard_log l x - plus_all l s).
Proof.
  unfold q_draw. f_equal.
  - induction l as [|i l IH]; [reflexivity|]. cbn. f_equal. exact IH.
  - unfold standard_log. induction l as [|i l IH]; [cbn; ring|]. unfold sumR in *. cbn [map combine fold_right fst snd] in *. rewrite IH, sample_lp. ring.
Qed.

Lemma draw_change ps1 ps2 m s : List.Forall (PropFlow.planar_ok (length L)) ps1 -> List.Forall (PropFlow.planar_ok (length L)) ps2 ->
  exists T w S, bimoves dec L T w S /\
    forall x, nf_draw ps1 ps2 (map (fun j => (m j, s j)) L) (map x L) = Some (map (T x) L, standard_log L x - ln (w x)).
Proof.
  intros O1 O2. destruct (scale_moves m s L L_once) as (T0 & S0 & M0 & E0).
  destruct (planar_change dec L L_once L_all ps1 O1) as (T1 & w1 & S1 & M1 & E1).
  destruct (planar_change dec L L_once L_all ps2 O2) as (T2 & w2 & S2 & M2 & E2).
  pose proof (bimoves_comp dec L L_all _ _ _ _ _ _ M0 (bimoves_comp dec L L_all _ _ _ _ _ _ M1 M2)) as B. do 3 eexists. split; [exact B|].
  intros x. unfold nf_draw, nf_row. rewrite draw_form.
  rewrite (map_ext_in _ (T0 x)) by (intros j Hj; symmetry; now apply E0). rewrite E1. cbn [obind]. rewrite E2.
  pose proof M1 as ((_ & _ & P1 & _) & _). pose proof M2 as ((_ & _ & P2 & _) & _).
  rewrite !ln_mult, ln_exp; [|apply P1|apply P2|apply exp_pos|apply Rmult_lt_0_compat; [apply P1|apply P2]].
  f_equal. f_equal. ring.
Qed.

(** Whatever the encoder says and whatever the parameters of the 20 (or any number of) layers: the
    returned log probability is the log density of the returned sample, which has total mass 1. *)
Theorem C88_posterior ps1 ps2 m s : List.Forall (PropFlow.planar_ok (length L)) ps1 -> List.Forall (PropFlow.planar_ok (length L)) ps2 ->
  exists out q, (forall eps, nf_draw ps1 ps2 (map (fun j => (m j, s j)) L) (map eps L) = Some (map (out eps) L, q (out eps))) /\
    (forall f v, cont f ->
      has_integral dec L (fun eps => noise_density L eps * f (out eps)) v <-> has_integral dec L (fun z => exp (q z) * f z) v) /\
    has_integral dec L (fun z => exp (q z)) 1.
Proof.
  intros O1 O2. destruct (draw_change ps1 ps2 m s O1 O2) as (T & w & S & M & E).
  pose proof (carries_bimoves dec L L_once L_all T w S (standard_log L) M (cont_standard L)) as C.
  exists T, (fun y => standard_log L (S y) - ln (w (S y))). split; [|split].
  - intros x. rewrite E. destruct M as (_ & _ & _ & E'). now rewrite E'.
  - intros f v Cf. rewrite <- (C f v Cf).
    replace (fun eps => noise_density L eps * f (T eps)) with (fun eps => exp (standard_log L eps) * f (T eps)); [reflexivity|].
    extensionality e. now rewrite standard_exp.
  - exact (standard_one dec L L_once T _ C).
Qed.

(** ** The model *)
Definition is_bits (x : list R) : Prop := List.Forall (fun b => b = 0 \/ b = 1) x.
Lemma cont_bernoulli b (F : (J -> R) -> R) : cont F -> cont (fun z => bernoulli_lp b (F z)).
Proof.
  apply (cont_fun (bernoulli_lp b)). intros t. apply (ex_derive_continuous (V := R_NormedModule)).
  apply (PropSBN.ex_derive_bernoulli b (fun t => t)). apply ex_derive_id.
Qed.
Lemma cont_bits x : forall g : (J -> R) -> list R, (forall z, length (g z) = length x) -> (forall k, cont (fun z => nth k (g z) 0)) ->
  cont (fun z => log_bits (g z) x).
Proof.
  induction x as [|b x IH]; intros g Lg Cg.
  - apply (cont_ext (fun _ => 0)); [|apply cont_const]. intros z. specialize (Lg z). destruct (g z); [reflexivity|discriminate].
  - apply (cont_ext (fun z => bernoulli_lp b (nth 0 (g z) 0) + log_bits (tl (g z)) x)).
    + intros z. specialize (Lg z). destruct (g z); [discriminate|]. symmetry. apply PropSBN.log_bits_cons.
    + apply cont_plus; [apply cont_bernoulli, Cg|]. apply IH.
      * intros z. specialize (Lg z). destruct (g z); [discriminate|]. now injection Lg.
      * intros k. apply (cont_ext (fun z => nth (S k) (g z) 0)); [|apply Cg]. intros z. specialize (Lg z). now destruct (g z).
Qed.
Lemma bits_le x : is_bits x -> forall l, log_bits l x <= 0.
Proof.
  induction x as [|b x IH]; intros H l; [destruct l; unfold log_bits, sumR; cbn; lra|].
  destruct l as [|a l]; [unfold log_bits, sumR; cbn; lra|]. inversion H as [|? ? Hb Hx]; subst. rewrite PropSBN.log_bits_cons.
  specialize (IH Hx l). enough (bernoulli_lp b a <= 0) by lra. pose proof (PropSupport.sigmoid_range a) as Sr.
  apply Rnot_lt_le. intros P. apply exp_increasing in P. rewrite exp_0 in P.
  destruct Hb as [-> | ->]; [rewrite PropDiscrete.bernoulli_lp_0 in P|rewrite PropDiscrete.bernoulli_lp_1 in P]; lra.
Qed.
Lemma joint_form logits x z : gen_log_joint logits x (map z L) = standard_log L z + log_bits (logits (map z L)) x.
Proof.
  unfold gen_log_joint, standard_log. f_equal. generalize L. intros l. induction l as [|i l IH]; [reflexivity|].
  unfold sumR in *. cbn [map fold_right]. now rewrite standard_lp, IH.
Qed.

(** For every image, continuous decoder, encoder output and layers: p(x) is a number in (0, 1]; the
    importance weight has mean p(x) exactly; and the mean of the bound is at most log p(x). *)
Theorem C88_bound ps1 ps2 m s logits x b :
  List.Forall (PropFlow.planar_ok (length L)) ps1 -> List.Forall (PropFlow.planar_ok (length L)) ps2 ->
  is_bits x -> (forall z, length (logits z) = length x) -> continuous_rows L logits ->
  (forall eps, nf_bound ps1 ps2 (map (fun j => (m j, s j)) L) logits x (map eps L) = Some (b eps)) ->
  exists p, 0 < p <= 1 /\ has_integral dec L (fun z => exp (gen_log_joint logits x (map z L))) p /\
    has_integral dec L (fun eps => noise_density L eps * exp (b eps)) p /\
    forall v, integral dec L (fun eps => noise_density L eps * b eps) v -> v <= ln p.
Proof.
  intros O1 O2 Hx Ll Cl Hb. destruct (draw_change ps1 ps2 m s O1 O2) as (T & w & S & M & E).
  pose proof M as ((CT & Cw & Wp & _) & CS & ET & ES).
  set (lj := fun z => gen_log_joint logits x (map z L)).
  assert (Clj : cont lj).
  { apply (cont_ext (fun z => standard_log L z + log_bits (logits (map z L)) x)); [intros z; symmetry; apply joint_form|].
    apply cont_plus; [apply cont_standard|]. apply (cont_bits x (fun z => logits (map z L))); [intros; apply Ll|exact Cl]. }
  assert (Cx : forall F : (J -> R) -> R, cont F -> cont (fun z => exp (F z))) by (intros F; apply (cont_fun exp); intros t; apply continuous_exp).
  assert (I1 : integral dec L (noise_density L) 1).
  { apply integral_of_total. split; [apply cont_noise|]. split; [intros z; left; apply noise_pos|now apply total_noise]. }
  assert (D : forall z, exp (lj z) <= noise_density L z).
  { intros z. unfold lj. rewrite joint_form, exp_plus, standard_exp. pose proof (noise_pos L z).
    pose proof (bits_le x Hx (logits (map z L))) as Q. assert (exp (log_bits (logits (map z L)) x) <= 1).
    { rewrite <- exp_0. destruct Q as [Q|Q]; [left; now apply exp_increasing|rewrite Q; right; reflexivity]. } nra. }
  destruct (integral_dominated dec L (fun z => exp (lj z)) (noise_density L) 1 (Cx _ Clj)) as (p & Hp); [|exact I1|].
  { intros z. rewrite Rabs_pos_eq by (left; apply exp_pos). apply D. }
  assert (Hle : p <= 1) by exact (integral_le dec L _ _ p 1 D Hp I1).
  assert (Hge : 0 <= p) by (apply (integral_ge dec L (fun z => exp (lj z))); [intros; left; apply exp_pos|exact Hp]).
  assert (H0 : 0 < p).
  { destruct Hge as [?|<-]; [assumption|]. exfalso.
    pose proof (exp_pos (lj (fun _ => 0))). enough (exp (lj (fun _ => 0)) = 0) by lra.
    apply (integral_zero dec L L_all (fun z => exp (lj z))); [intros; left; apply exp_pos|exact Hp]. }
  assert (Hp' : has_integral dec L (fun z => exp (lj z)) p) by (apply integral_total; [intros; left; apply exp_pos|exact Hp]).
  assert (Eb : forall e, b e = lj (T e) - (standard_log L e - ln (w e))).
  { intros e. specialize (Hb e). unfold nf_bound in Hb. rewrite E in Hb. cbn in Hb. injection Hb as <-. reflexivity. }
  set (q := fun y => standard_log L (S y) - ln (w (S y))).
  assert (Cq : cont q).
  { apply cont_minus; [now apply (cont_comp L L_all (standard_log L) S); [apply cont_standard|]|].
    apply (cont_comp L L_all (fun x => ln (w x)) S); [|exact CS]. now apply ProofRatio.cont_ln. }
  assert (U : has_integral dec L (fun eps => noise_density L eps * exp (b eps)) p).
  { pose proof (proj2 (carries_bimoves dec L L_once L_all T w S (standard_log L) M (cont_standard L) (fun z => exp (lj z - q z)) p (Cx _ (cont_minus _ _ Clj Cq)))) as C.
    replace (fun eps => noise_density L eps * exp (b eps)) with (fun e => exp (standard_log L e) * exp (lj (T e) - q (T e))).
    - apply C. replace (fun y => exp (standard_log L (S y) - ln (w (S y))) * exp (lj y - q y)) with (fun z => exp (lj z)); [exact Hp'|].
      extensionality y. fold (q y). rewrite <- exp_plus. f_equal. ring.
    - extensionality e. rewrite standard_exp, Eb. unfold q. now rewrite ES. }
  exists p. split; [lra|]. split; [exact Hp'|]. split; [exact U|].
  intros v V. set (c := ln p - 1).
  assert (G : integral dec L (fun e => / p * (noise_density L e * exp (b e)) + c * noise_density L e) (/ p * p + c * 1)).
  { apply integral_plus; apply integral_scal; [now apply integral_of_total|exact I1]. }
  replace (ln p) with (/ p * p + c * 1) by (unfold c; field; lra).
  apply (integral_le dec L _ _ _ _) with (2 := V) (3 := G).
  intros e. pose proof (noise_pos L e) as Pn. unfold c.
  assert (K : b e - ln p <= exp (b e - ln p) - 1) by (pose proof (exp_ineq1_le (b e - ln p)); lra).
  replace (exp (b e - ln p)) with (/ p * exp (b e)) in K; [nra|].
  unfold Rminus. rewrite exp_plus, exp_Ropp, exp_ln by exact H0. ring.
Qed.
End Row.
Print Assumptions C88_posterior.
Print Assumptions C88_bound.

(** Two dimensions, one layer in each call, a decoder that reads the first entry of z. *)
Example C88_bound_case : exists b p, (forall eps : bool -> R,
    nf_bound [Planar [1; 2] [0; 1] 3] [Planar [0; -1] [5; 1] 0] [(1, 2); (0, -1)] (fun z => [nth 0 z 0; 3]) [1; 0] [eps false; eps true] = Some (b eps)) /\
  0 < p <= 1 /\ has_integral Bool.bool_dec [false; true] (fun eps => noise_density [false; true] eps * exp (b eps)) p.
Proof.
  assert (N : NoDup [false; true]) by (repeat constructor; cbn; intuition discriminate).
  assert (A : forall j, In j [false; true]) by (intros []; cbn; auto).
  pose proof PropFlow.C39_case as O. inversion O as [|? ? O1 O']; subst.
  assert (F1 : List.Forall (PropFlow.planar_ok 2) [Planar [1; 2] [0; 1] 3]) by (constructor; [exact O1|constructor]).
  set (m := fun j : bool => if j then 0 else 1). set (s := fun j : bool => if j then -1 else 2).
  destruct (C88_posterior Bool.bool_dec [false; true] N A _ _ m s F1 O') as (out & q & E & _).
  set (b := fun e => gen_log_joint (fun z => [nth 0 z 0; 3]) [1; 0] (map (out e) [false; true]) - q (out e)).
  assert (Hb : forall e, nf_bound [Planar [1; 2] [0; 1] 3] [Planar [0; -1] [5; 1] 0] (map (fun j => (m j, s j)) [false; true]) (fun z => [nth 0 z 0; 3]) [1; 0] (map e [false; true]) = Some (b e))
    by (intros e; unfold nf_bound; rewrite E; reflexivity).
  assert (X : is_bits [1; 0]) by (constructor; [now right|]; constructor; [now left|constructor]).
  assert (C : continuous_rows [false; true] (fun z => [nth 0 z 0; 3])).
  { unfold continuous_rows. intros k. destruct k as [|[|k]]; [exact (cont_coord false)|exact (cont_const 3)|].
    apply (cont_ext (fun _ => 0)); [now destruct k|apply cont_const]. }
  destruct (C88_bound Bool.bool_dec [false; true] N A _ _ m s (fun z => [nth 0 z 0; 3]) [1; 0] b F1 O' X (fun _ => eq_refl) C Hb) as (p & P & _ & U & _).
  exists b, p. split; [exact Hb|]. split; [exact P|exact U].
Qed.
(** A mean bound that exists, and equals log p(x): no layers and a decoder that ignores z. *)
Example C88_bound_reached : forall eps : bool -> R, nf_bound [] [] [(0, 0); (0, 0)] (fun _ => [0]) [1] [eps false; eps true] = Some (bernoulli_lp 1 0).
Proof.
  intros eps. unfold nf_bound, nf_draw, nf_row, q_draw, gen_log_joint, log_bits, normal_sample, sumR. cbn. f_equal.
  rewrite exp_0, !Rmult_1_r, !Rplus_0_r. ring.
Qed.
Example C88_bound_reached_mean : integral Bool.bool_dec [false; true] (fun eps => noise_density [false; true] eps * bernoulli_lp 1 0) (bernoulli_lp 1 0).
Proof.
  assert (I : integral Bool.bool_dec [false; true] (noise_density [false; true]) 1).
  { apply integral_of_total. split; [apply cont_noise|]. split; [intros z; left; apply noise_pos|apply total_noise].
    repeat constructor; cbn; intuition discriminate. }
  pose proof (integral_scal Bool.bool_dec [false; true] _ (bernoulli_lp 1 0) 1 I) as Q. rewrite Rmult_1_r in Q.
  revert Q. apply integral_ext. intros; ring.
Qed.
