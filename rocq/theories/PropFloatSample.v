(** C58: what the samplers of the distributions return in floating-point arithmetic. *)
From Coq Require Import List Arith Bool Reals ZArith Lra Lia Permutation.
From Flocq Require Import Core Relative Plus_error.
From Verif Require Import ModelExt ModelSpecial ModelNum ModelFloat ModelFloatSample SpecFloat ProofFloat ProofFloatSample PropUtils PropFloat.
Import ListNotations.
Local Open Scope R_scope.

Section Statements.
Variables prec top : Z.
Variables libexp liblog liblog1p libsigmoid : R -> R.
Hypothesis A : ample prec top.
Hypothesis FE : faithful_exp prec top libexp.
Hypothesis FL : faithful_log prec top liblog.
Hypothesis FL1 : faithful_log1p prec top liblog1p.
Hypothesis FS : faithful_sigmoid prec top libsigmoid.
Let W : wide prec top := proj1 A.
Notation u := (unit_roundoff prec).
Notation b e := (bpow radix2 e).
Notation near := (nearest prec top).
Notation float := (is_float prec top).
Notation fmt := (generic_format radix2 (fexpo prec top)).
Notation bits := (bits prec).
Local Instance prec_pos_s : Prec_gt_0 prec := prec_pos prec top W.
Local Instance fexpo_valid_s : Valid_exp (fexpo prec top) := fexpo_valid prec top W.
Local Instance fexpo_mono_s : Monotone_exp (fexpo prec top) := fexpo_mono prec top.

Lemma float_rounded x : Rabs x <= b (top - 1) -> exists v, rounded prec top (Fi x) = Fi v /\ float v /\ v = near x.
Proof.
  intros H. exists (near x). split; [apply rounded_finite; auto|]. split; [|reflexivity]. split; [apply near_fmt, W|]. apply bounded_float. apply near_bpow; auto. destruct W. lia.
Qed.
Lemma rounded_cases x : (exists v, rounded prec top (Fi x) = Fi v /\ float v) \/ rounded prec top (Fi x) = PInf \/ rounded prec top (Fi x) = MInf.
Proof.
  cbn. unfold overflow. destruct (Rlt_dec _ _) as [H|H]; [left; eexists; split; [reflexivity|split; [apply near_fmt, W|exact H]]|]. destruct (Rlt_dec _ _); auto.
Qed.

(** ** Noise *)
(** The uniform noise is strictly between 0 and 1, for all random bits. *)
Theorem C58_open_uniform j : bits j -> exists v, open_interval_standard_uniform prec top j = Fi v /\ float v /\ 0 < v < 1.
Proof.
  intros J. destruct (open_uniform_spec prec top W j J) as (v & E & F & R). destruct (tiny_spec prec top W) as (_ & T & _). pose proof (u_pos prec).
  exists v. split; [exact E|]. split; [|lra]. split; [exact F|]. apply (below_top prec top W). rewrite Rabs_pos_eq; lra.
Qed.
(** Hence the Gumbel and the logistic noise are finite for all random bits. *)
Theorem C58_gumbel j : bits j -> exists g, gumbel prec top liblog j = Fi g /\ float g /\ Rabs g <= IZR prec.
Proof.
  intros J. destruct (gumbel_spec prec top W A liblog j FL J) as (g & E & F & R). exists g. split; [exact E|]. split; [|exact R]. split; [exact F|].
  apply bounded_float. apply (small_top prec top W A). destruct (fmt_top prec top W A) as (_ & T & _). assert (0 <= IZR prec) by (apply IZR_le; destruct W; lia). lra.
Qed.
Theorem C58_logistic j : bits j -> exists g, logistic prec top liblog j = Fi g /\ Rabs g <= 2 * (IZR top + IZR prec).
Proof. intros J. destruct (logistic_spec prec top W A liblog j FL J) as (g & E & _ & R). eauto. Qed.

(** ** Samples *)
Theorem C58_laplace loc scale j : bits j -> float loc -> float scale -> Rabs loc + 2 * IZR prec * Rabs scale <= b (top - 1) ->
  exists v, laplace_sample prec top liblog1p (Fi loc) (Fi scale) j = Fi v /\ float v.
Proof.
  intros J (Fl & _) (Fs & _) H. pose proof W as (w1 & _). assert (P : 2 <= IZR prec) by (apply IZR_le; lia). pose proof (Rabs_pos loc) as L0. pose proof (Rabs_pos scale) as S0.
  destruct (laplace_uniform_spec prec top W j J) as (v & E & Fv & R). unfold laplace_sample. rewrite E.
  destruct (log1p_spec prec top W A liblog1p v FL1 Fv R) as (g & G & Fg & Rg). rewrite G.
  assert (C : exists c, esign (Fi v) = Fi c /\ fmt (scale * c) /\ Rabs (scale * c) <= Rabs scale).
  { cbn. destruct (Rlt_dec 0 v); [|destruct (Rlt_dec v 0)]; eexists; (split; [reflexivity|]).
    - rewrite Rmult_1_r. split; [exact Fs|lra].
    - replace (scale * -1) with (- scale) by ring. split; [apply fmt_opp, Fs|rewrite Rabs_Ropp; lra].
    - rewrite Rmult_0_r. split; [apply fmt_0|rewrite Rabs_R0; lra]. }
  destruct C as (c & -> & Fc & Rc). unfold fmul at 2. cbn [emul]. assert (Rabs scale <= b (top - 1)) by nra.
  rewrite (rounded_finite prec top W) by lra. rewrite (near_id prec top _ Fc). unfold fmul. cbn [emul].
  assert (M : Rabs (scale * c * g) <= IZR prec * Rabs scale).
  { rewrite Rabs_mult, Rmult_comm. apply Rmult_le_compat; try apply Rabs_pos; [|exact Rc]. apply Rabs_le. lra. }
  rewrite (rounded_finite prec top W) by nra. unfold fsub, esub. cbn [eneg eadd]. pose proof (near_double prec top W (scale * c * g)) as D.
  destruct (float_rounded (loc + - near (scale * c * g))) as (r & E1 & F1 & _); [|eauto].
  eapply Rle_trans; [apply Rabs_triang|]. rewrite Rabs_Ropp. lra.
Qed.
Lemma sigmoid_fraction a : a <> NaN -> (forall x, a = Fi x -> float x) -> fraction prec top (fsigmoid top libsigmoid a).
Proof.
  intros N H. assert (X : forall w, fmt w -> 0 <= w <= 1 -> fraction prec top (Fi w)).
  { intros w F R. exists w. split; [reflexivity|]. split; [|exact R]. split; [exact F|]. apply (below_top prec top W). rewrite Rabs_pos_eq; lra. }
  destruct a as [x| | |]; cbn [fsigmoid]; [| | |congruence].
  - pose proof (FS x (H x eq_refl)) as F. cbn beta in F. pose proof (exp_pos (- x)).
    assert (I : 0 < / (1 + exp (- x)) <= 1) by (split; [apply Rinv_0_lt_compat; lra|]; rewrite <- Rinv_1; apply Rinv_le; lra).
    assert (R : 0 <= libsigmoid x <= 1).
    { split; [apply (faithful_ge prec top W _ _ _ 0 F); [apply fmt_0|lra]|apply (faithful_le prec top W _ _ _ 1 F); [apply fmt_1, W|lra]]. }
    rewrite overflow_small; [|apply (below_top prec top W); rewrite Rabs_pos_eq; lra]. apply X; [exact (faithful_fmt prec top W _ _ _ F)|exact R].
  - apply X; [apply fmt_1, W|lra].
  - apply X; [apply fmt_0|lra].
Qed.
(** BinConcrete: never NaN, always in [0, 1], whatever the logits and the temperature. *)
Theorem C58_bin_concrete temperature logits j : bits j -> float logits -> float temperature -> 0 < temperature ->
  fraction prec top (bin_concrete_sample prec top liblog libsigmoid (Fi temperature) (Fi logits) j).
Proof.
  intros J _ _ T. unfold bin_concrete_sample. destruct (logistic_spec prec top W A liblog j FL J) as (g & E & _ & _). rewrite E. unfold fadd. cbn [eadd].
  assert (B : forall s : bool, (if Rlt_dec temperature 0 then if s then MInf else PInf else if s then PInf else MInf) = if s then PInf else MInf) by (intros []; destruct (Rlt_dec _ _); try lra; reflexivity).
  destruct (rounded_cases (logits + g)) as [(y & -> & Fy)|[-> | ->]].
  - rewrite fdiv_fi by lra. destruct (rounded_cases (y / temperature)) as [(z & -> & Fz)|[-> | ->]]; apply sigmoid_fraction; try discriminate. intros x [= <-]. exact Fz.
  - unfold fdiv, ediv2, ediv. rewrite (B true). apply sigmoid_fraction; discriminate.
  - unfold fdiv, ediv2, ediv. destruct (Rlt_dec temperature 0); [lra|]. apply sigmoid_fraction; discriminate.
Qed.

(** Uniform: in [minval, maxval], both ends included, when maxval - minval is a float. *)
Theorem C58_uniform lo hi j : bits j -> float lo -> float hi -> lo < hi -> fsub prec top (Fi hi) (Fi lo) <> PInf ->
  exists v, uniform_sample prec top (Fi lo) (Fi hi) j = Fi v /\ float v /\ lo <= v <= hi.
Proof.
  intros J (Flo & Blo) (Fhi & Bhi) L O. pose proof W as (w1 & w2 & _). pose proof (u_pos prec) as U. pose proof (u_quarter prec top W) as U4.
  destruct (standard_spec prec top W j J) as (Fs & Rs). set (s := standard prec j) in *. pose proof (one_le_top prec top W) as O1.
  assert (E0 : random_uniform prec top (Fi 0) (Fi 1) j = Fi s).
  { unfold random_uniform. fold s. unfold fsub, esub. cbn [eneg eadd]. replace (1 + - 0) with 1 by ring. rewrite (rounded_finite prec top W 1) by (rewrite Rabs_R1; lra).
    rewrite (near_id prec top 1) by apply fmt_1, W. unfold fmul. cbn [emul]. rewrite Rmult_1_r. rewrite (rounded_finite prec top W s), (near_id prec top s Fs) by (rewrite Rabs_pos_eq; lra).
    unfold fadd. cbn [eadd]. rewrite Rplus_0_r. rewrite (rounded_finite prec top W s), (near_id prec top s Fs) by (rewrite Rabs_pos_eq; lra). reflexivity. }
  unfold uniform_sample. rewrite E0. unfold fsub, esub in *. cbn [eneg eadd] in *. set (d := hi + - lo) in *. assert (D : 0 < d) by (unfold d; lra).
  assert (w0 : 0 <= near d) by (apply near_ge_fmt; [exact W|apply fmt_0|lra]).
  assert (Bw : Rabs (near d) < b top).
  { cbn [rounded] in O. unfold overflow in O. destruct (Rlt_dec (Rabs (near d)) (b top)) as [H|H]; [exact H|]. destruct (Rlt_dec 0 (near d)) as [H'|H']; [congruence|].
    assert (Z : near d = 0) by lra. rewrite Z, Rabs_R0. apply bpow_gt_0. }
  assert (Ew : rounded prec top (Fi d) = Fi (near d)) by (cbn; now apply overflow_small). rewrite Ew. set (w := near d) in *. rewrite Rabs_pos_eq in Bw by lra.
  assert (Fw : fmt w) by apply near_fmt, W.
  assert (SW : 0 <= s * w <= w) by nra. assert (P0 : 0 <= near (s * w)) by (apply near_ge_fmt; [exact W|apply fmt_0|lra]).
  assert (Pw : near (s * w) <= w) by (apply near_le_fmt; [exact W|exact Fw|lra]).
  assert (Pd : near (s * w) <= d).
  { destruct (Rle_or_lt w d) as [H|H]; [lra|].
    assert (Big : b (prec + (3 - top - prec)) < d).
    { apply Rnot_le_lt. intros Small. assert (Fd : fmt d).
      { unfold d. apply (FLT_format_plus_small radix2 (3 - top - prec) prec); [exact Fhi|now apply fmt_opp|]. fold d. rewrite Rabs_pos_eq by lra. exact Small. }
      unfold w in H. rewrite (near_id prec top d Fd) in H. lra. }
    pose proof (near_sub prec top W hi lo Fhi Flo) as R. unfold Rminus in R. fold d in R. fold w in R. rewrite (Rabs_pos_eq d) in R by lra. apply Rabs_le_inv in R.
    destruct (Rle_or_lt (b (3 - top - prec + prec - 1)) (s * w)) as [N|N].
    - pose proof (relative_error_N_FLT radix2 (3 - top - prec) prec (prec_pos prec top W) (fun z => negb (Z.even z)) (s * w)) as X. rewrite (Rabs_pos_eq (s * w)) in X by lra. specialize (X N).
      change (round radix2 (FLT_exp (3 - top - prec) prec) ZnearestE (s * w)) with (near (s * w)) in X. rewrite half_bpow in X. apply Rabs_le_inv in X.
      assert (Y : s * w <= (1 - 2 * u) * ((1 + u) * d)) by (apply Rmult_le_compat; lra). assert (Y2 : near (s * w) <= (1 - 2 * u) * ((1 + u) * d) * (1 + u)) by nra.
      assert (Y3 : (1 - 2 * u) * ((1 + u) * d) * (1 + u) <= d) by (replace ((1 - 2 * u) * ((1 + u) * d) * (1 + u)) with (d * (1 - 3 * (u * u) - 2 * (u * u * u))) by ring; assert (0 <= u * u) by nra; assert (0 <= u * u * u) by nra; nra).
      lra.
    - apply Rle_trans with (b (3 - top - prec + prec - 1)); [apply near_le_fmt; [exact W|apply fmt_bpow; [exact W|lia]|lra]|]. left. eapply Rle_lt_trans; [|exact Big]. apply bpow_le. lia. }
  unfold fmul. cbn [emul]. assert (Em : rounded prec top (Fi (s * w)) = Fi (near (s * w))) by (cbn; apply overflow_small; rewrite Rabs_pos_eq; lra). rewrite Em.
  unfold fadd. cbn [eadd]. set (p := near (s * w)) in *. assert (R : lo <= near (p + lo) <= hi).
  { split; [apply near_ge_fmt; [exact W|exact Flo|lra]|apply near_le_fmt; [exact W|exact Fhi|unfold d in Pd; lra]]. }
  exists (near (p + lo)). assert (Bn : Rabs (near (p + lo)) < b top) by (apply Rabs_lt_inv in Blo, Bhi; apply Rabs_lt; lra).
  split; [cbn; now apply overflow_small|]. split; [split; [apply near_fmt, W|exact Bn]|exact R].
Qed.

(** Beta: in [0, 1], also when the sum of the draws overflows. *)
Theorem C58_beta x y : float x -> float y -> 0 < x -> 0 < y -> fraction prec top (beta_sample prec top (Fi x) (Fi y)).
Proof.
  intros (Fx & Bx) (Fy & By) Px Py. unfold beta_sample, fadd. cbn [eadd]. assert (S : x <= near (x + y)) by (apply near_ge_fmt; [exact W|exact Fx|lra]).
  cbn [rounded]. unfold overflow. destruct (Rlt_dec _ _) as [H|H].
  - destruct (div_spec prec top W x (near (x + y))) as (w & E & F & R & _); [lra|lra|]. exists w. auto.
  - destruct (Rlt_dec _ _); [|lra]. exists 0. unfold fdiv. cbn [ediv2]. destruct (rounded_unit prec top W 0) as (E & F); [lra|]. rewrite E. rewrite (near_id prec top 0) in * by apply fmt_0.
    split; [reflexivity|]. split; [exact F|lra].
Qed.
(** InverseGamma: finite and positive. *)
Theorem C58_inverse_gamma g : float g -> tiny top <= g -> exists v, inverse_gamma_sample prec top (Fi g) = Fi v /\ float v /\ 0 < v.
Proof.
  intros (F & B) T. pose proof A as (_ & P3 & _). destruct (tiny_spec prec top W) as (_ & Pt & _). rewrite Rabs_pos_eq in B by lra. unfold inverse_gamma_sample. rewrite fdiv_fi by lra.
  unfold Rdiv. rewrite Rmult_1_l. assert (U : / g <= b (top - 2)).
  { replace (top - 2)%Z with (- (2 - top))%Z by lia. rewrite bpow_opp. apply Rinv_le; [apply bpow_gt_0|exact T]. }
  assert (D : b (- top) <= / g) by (rewrite bpow_opp; apply Rinv_le; lra). pose proof (bpow_gt_0 radix2 (- top)) as Q.
  destruct (float_rounded (/ g)) as (v & E & Fv & ->).
  - rewrite Rabs_pos_eq by lra. eapply Rle_trans; [exact U|]. apply bpow_le. lia.
  - eexists. split; [exact E|]. split; [exact Fv|]. apply Rlt_le_trans with (b (- top)); [exact Q|]. apply near_ge_fmt; [exact W|apply fmt_bpow; [exact W|lia]|exact D].
Qed.
(** Dirichlet: entries in [0, 1] that add up to 1 within 7 n u. *)
Theorem C58_dirichlet p l : l <> [] -> (2 * Z.of_nat (length l) <= 2 ^ prec)%Z -> adds_up p (length l) ->
  Forall (fun e => exists x, e = Fi x /\ float x /\ 0 < x <= b (top - prec - 1)) l ->
  Forall (fraction prec top) (dirichlet_sample prec top p l) /\ length (dirichlet_sample prec top p l) = length l /\
  Rabs (total (dirichlet_sample prec top p l) - 1) <= 7 * INR (length l) * u.
Proof.
  intros NE N P H. pose proof W as (w1 & w2 & _). assert (L : forall i, (i < length l)%nat -> exists x, nth_error l i = Some (Fi x) /\ float x /\ 0 < x <= b (top - prec - 1)).
  { intros i Hi. destruct (nth_error l i) as [e|] eqn:E; [|apply nth_error_None in E; lia]. rewrite Forall_forall in H. destruct (H e (nth_error_In _ _ E)) as (x & -> & X). eauto. }
  destruct (normalized_spec prec top W false (top - prec - 1) (fun i => real_of (nth i l NaN)) l p) as (s & _ & _ & _ & E & Len & T); auto; [lia| | |].
  - intros i Hi. destruct (L i Hi) as (x & X & (F & _) & R). rewrite (nth_error_nth _ _ _ X). cbn. split; [exact X|]. split; [exact F|lra].
  - exists 0%nat. assert (Hi : (0 < length l)%nat) by (destruct l; [congruence|cbn; lia]). destruct (L 0%nat Hi) as (x & X & _ & R). rewrite (nth_error_nth _ _ _ X). cbn. split; [exact Hi|]. split; [lra|discriminate].
  - unfold dirichlet_sample. split; [|split; [exact Len|exact T]]. apply Forall_forall. intros e I. apply In_nth_error in I as (i & I).
    destruct (E i) as (w & X & F & R & _); [rewrite <- Len; apply nth_error_Some; congruence|]. exists w. split; [congruence|auto].
Qed.

(** ** tf.nn.softmax, tf.nn.log_softmax, Concrete and ExpConcrete *)
Lemma terms l m : Forall (entry prec top) l -> largest l m ->
  exists t, forall i, (i < length l)%nat -> nth_error (map (feexp top libexp) (fshifted prec top l)) i = Some (Fi (t i)) /\ fmt (t i) /\ 0 <= t i <= 1 /\
    Rabs (t i - power (nth i l NaN) / exp m) <= 8 / 5 * u /\ (nth i l NaN = Fi m -> t i = 1).
Proof.
  intros H L. destruct (max_is prec top l m H L) as (E & Fm). destruct L as (I & M). pose proof (u_pos prec) as U. set (l' := map (feexp top libexp) (fshifted prec top l)).
  exists (fun i => match nth i l' NaN with Fi r => r | _ => 0 end). intros i Hi.
  assert (X : exists r, nth_error l' i = Some (Fi r) /\ fmt r /\ 0 <= r <= 1 /\ Rabs (r - power (nth i l NaN) / exp m) <= 8 / 5 * u /\ (nth i l NaN = Fi m -> r = 1)).
  { assert (HI : In (nth i l NaN) l) by (apply nth_In; exact Hi). pose proof H as H0. rewrite Forall_forall in H0. specialize (H0 _ HI).
    assert (Y : nth_error l' i = Some (feexp top libexp (fsub prec top (nth i l NaN) (Fi m)))).
    { unfold l', fshifted. rewrite E, map_map, nth_error_map, (nth_error_nth' _ NaN Hi). reflexivity. }
    destruct H0 as [Z|(x & Z & Fx)]; rewrite Z in *.
    - exists 0. split; [exact Y|]. split; [apply generic_format_0|]. split; [lra|]. split; [|discriminate]. cbn. unfold Rdiv. rewrite Rmult_0_l, Rminus_0_r, Rabs_R0. lra.
    - destruct (term_spec prec top W libexp x m FE Fx Fm (M x HI)) as (r & R1 & R2 & R3 & R4 & R5). exists r. split; [now rewrite Y, R1|]. split; [exact R2|]. split; [exact R3|].
      split; [cbn; replace (exp x / exp m) with (exp (x - m)) by (unfold Rminus; rewrite exp_plus, exp_Ropp; reflexivity); exact R4|]. intros D. injection D as ->. now apply R5. }
  destruct X as (r & X & Y). rewrite (nth_error_nth _ _ _ X). now split.
Qed.
Lemma exp_sum_pos l m : In (Fi m) l -> 0 < exp_sum l.
Proof.
  intros I. unfold exp_sum. assert (Z : forall k, 0 <= fold_right Rplus 0 (map power k)) by (induction k as [|e k IH]; cbn; [lra|destruct e; cbn; try lra; pose proof (exp_pos r); lra]).
  induction l as [|e l IH]; [destruct I|]. cbn. destruct I as [->|I]; [cbn; pose proof (exp_pos m); specialize (Z l); lra|]. specialize (IH I). destruct e; cbn; try lra. pose proof (exp_pos r); lra.
Qed.
(** softmax, by division or by multiplication with the inverse: entries in [0, 1], each
    within 9 n u of the exact one, adding up to 1 within 7 n u. *)
Theorem C58_softmax inverse p l m : Forall (entry prec top) l -> largest l m -> (6 * Z.of_nat (length l) <= 2 ^ prec)%Z -> adds_up p (length l) ->
  let r := softmax prec top libexp inverse p l in
  length r = length l /\ Rabs (total r - 1) <= 7 * INR (length l) * u /\
  forall i e, nth_error l i = Some e -> exists w, nth_error r i = Some (Fi w) /\ float w /\ 0 <= w <= 1 /\ Rabs (w - power e / exp_sum l) <= 9 * INR (length l) * u.
Proof.
  intros H L N P r. pose proof (u_pos prec) as U. pose proof (u_quarter prec top W) as U4. destruct (terms l m H L) as (t & T). set (l' := map (feexp top libexp) (fshifted prec top l)) in *.
  assert (Len : length l' = length l) by (unfold l', fshifted; now rewrite !map_length).
  destruct (In_nth _ _ NaN (proj1 L)) as (k & Hk & Ek). assert (n1 : (1 <= length l)%nat) by lia.
  destruct (normalized_spec prec top W inverse 0 t l' p) as (s & Es & Fs & Ps & Each & Len' & Tot); rewrite ?Len in *; auto.
  { destruct W; lia. } { intros Z. rewrite Z in Len. cbn in Len. lia. } { lia. }
  { intros i Hi. destruct (T i Hi) as (X & F & R & _). auto. }
  { exists k. split; [exact Hk|]. destruct (T k Hk) as (_ & _ & _ & _ & O). rewrite (O Ek). split; [lra|]. auto. }
  unfold r, softmax. fold l'. split; [exact Len'|]. split; [exact Tot|]. intros i e He. assert (Hi : (i < length l)%nat) by (apply nth_error_Some; congruence).
  destruct (Each i Hi) as (w & X & F & R & D). exists w. split; [exact X|]. split; [exact F|]. split; [exact R|].
  destruct (T i Hi) as (_ & _ & R1 & D1 & _). rewrite (nth_error_nth _ _ _ He) in D1.
  destruct (sum_of_terms prec top libexp W FE l m p H L ltac:(lia) P) as (s' & Es' & _ & S1 & LS). fold l' in Es'. rewrite Es in Es'. injection Es' as <-.
  pose proof (exp_sum_pos l m (proj1 L)) as PS. pose proof (exp_pos m) as PE. set (n := INR (length l)) in *. assert (rn : 1 <= n) by (apply (le_INR 1); lia).
  set (E := power e / exp m) in *. set (S := exp_sum l / exp m) in *. assert (S0 : 0 < S) by (apply Rdiv_lt_0_compat; assumption).
  assert (EQ : power e / exp_sum l = E / S) by (unfold E, S; field; lra). rewrite EQ.
  assert (LnS : ln (exp_sum l) - m = ln S) by (unfold S, Rdiv; rewrite ln_mult, ln_Rinv, ln_exp by (auto; now apply Rinv_0_lt_compat); ring). rewrite LnS in LS.
  set (c := (n - 1 + 8 / 5 * n) * u) in *.
  assert (nu : 6 * (n * u) <= 1).
  { assert (K2 : 6 * n <= b prec). { unfold n. rewrite INR_IZR_INZ, <- mult_IZR, <- (IZR_Zpower radix2) by (destruct W; lia). apply IZR_le. exact N. }
    assert (Q1 : b prec * u = 1) by (unfold unit_roundoff; rewrite <- bpow_plus; replace (prec + - prec)%Z with 0%Z by lia; reflexivity). nra. }
  assert (un : u <= n * u) by nra. assert (c0 : 0 <= c <= 1 / 2) by (unfold c; split; nra). apply Rabs_le_inv in LS.
  assert (Q : S / s = exp (ln S - ln s)) by (unfold Rminus, Rdiv; rewrite exp_plus, exp_Ropp, !exp_ln by lra; reflexivity).
  assert (Q1 : Rabs (S / s - 1) <= 2 * c).
  { rewrite Q. pose proof (exp_le (ln S - ln s) c ltac:(lra)) as X1. pose proof (exp_upper c c0) as X2. pose proof (exp_ineq1_le (ln S - ln s)). apply Rabs_le. lra. }
  assert (ES : 0 <= E <= S).
  { assert (G : power e <= exp_sum l).
    { unfold exp_sum. apply nth_error_In in He. clear - He. assert (Z : forall k, 0 <= fold_right Rplus 0 (map power k)) by (induction k as [|q k IH]; cbn; [lra|destruct q; cbn; try lra; pose proof (exp_pos r); lra]).
      induction l as [|a l IH]; [destruct He|]. cbn. destruct He as [->|He]; [specialize (Z l); lra|]. specialize (IH He). destruct a; cbn; try lra. pose proof (exp_pos r). lra. }
    assert (0 <= power e) by (destruct e; cbn; try lra; left; apply exp_pos). assert (0 < / exp m) by now apply Rinv_0_lt_compat. unfold E, S, Rdiv. split; nra. }
  pose proof (div_unit E S ES S0) as ES1. assert (is1 : 0 < / s <= 1) by (split; [now apply Rinv_0_lt_compat|]; rewrite <- Rinv_1; apply Rinv_le; lra).
  assert (TS : 0 <= t i / s <= 1) by (unfold Rdiv; split; nra).
  replace (w - E / S) with ((w - t i / s) + ((t i - E) / s + E / S * (S / s - 1))) by (field; lra).
  eapply Rle_trans; [apply Rabs_triang|]. assert (B1 : Rabs (w - t i / s) <= 7 / 2 * u) by nra.
  assert (B2 : Rabs ((t i - E) / s) <= 8 / 5 * u) by (unfold Rdiv; rewrite Rabs_mult, (Rabs_pos_eq (/ s)) by lra; pose proof (Rabs_pos (t i - E)); nra).
  assert (B3 : Rabs (E / S * (S / s - 1)) <= 2 * c) by (rewrite Rabs_mult, (Rabs_pos_eq (E / S)) by lra; pose proof (Rabs_pos (S / s - 1)); nra).
  pose proof (Rabs_triang ((t i - E) / s) (E / S * (S / s - 1))). unfold c in B3. lra.
Qed.
(** log_softmax of numbers below 2^(top-2): finite, not positive, and accurate. *)
Theorem C58_log_softmax p l m : Forall (fun e => exists x, e = Fi x /\ float x /\ Rabs x <= b (top - 2)) l -> largest l m -> (Z.of_nat (length l) <= 2 ^ prec)%Z -> adds_up p (length l) ->
  let r := log_softmax prec top libexp liblog p l in
  length r = length l /\
  forall i x, nth_error l i = Some (Fi x) -> exists v, nth_error r i = Some (Fi v) /\ float v /\ v <= 0 /\ Rabs (v - (x - ln (exp_sum l))) <= (3 * (m - x) + 7 * INR (length l)) * u.
Proof.
  intros H0 L N P r. assert (H : Forall (entry prec top) l) by (eapply Forall_impl; [|exact H0]; intros e (x & -> & F & _); right; eauto).
  pose proof (u_pos prec) as U. pose proof (u_quarter prec top W) as U4. pose proof W as (w1 & w2 & _).
  destruct (max_is prec top l m H L) as (E & Fm). destruct (sum_of_terms prec top libexp W FE l m p H L N P) as (s & Es & Fs & S1 & LS).
  assert (Bs : s <= b prec) by (rewrite <- (IZR_Zpower radix2) by lia; eapply Rle_trans; [apply S1|]; rewrite INR_IZR_INZ; apply IZR_le; exact N).
  assert (FFs : float s). { split; [exact Fs|]. rewrite Rabs_pos_eq by lra. eapply Rle_lt_trans; [exact Bs|]. apply bpow_lt. lia. }
  destruct (lib_log_spec prec top W liblog s FL FFs) as (L1 & L2 & L3 & L4 & L5 & _).
  { split; [|exact Bs]. apply Rle_trans with 1; [apply (bpow_le radix2 _ 0); lia|lra]. }
  unfold r, log_softmax. split; [unfold fshifted; now rewrite !map_length|]. rewrite Es, L1. intros i x Hx.
  assert (I : In (Fi x) l) by now apply nth_error_In in Hx. rewrite Forall_forall in H0. destruct (H0 _ I) as (x' & [= <-] & Fx & Bx).
  destruct (H0 _ (proj1 L)) as (m' & [= <-] & _ & Bm). pose proof (proj2 L x I) as Lx.
  unfold fshifted. rewrite !nth_error_map, Hx. cbn [option_map]. rewrite E. unfold fsub at 2, esub. cbn [eneg eadd].
  assert (B1 : Rabs (x + - m) <= b (top - 1)). { eapply Rle_trans; [apply Rabs_triang|]. rewrite Rabs_Ropp. replace (top - 1)%Z with (top - 2 + 1)%Z by lia. rewrite b_1. lra. }
  destruct (float_rounded _ B1) as (d & Ed & Fd & Dd). rewrite Ed.
  assert (d0 : d <= 0) by (rewrite Dd; apply near_le_fmt; [exact W|apply fmt_0|lra]).
  pose proof (near_sub prec top W x m (proj1 Fx) (proj1 Fm)) as Er. change (near (x - m)) with (near (x + - m)) in Er. rewrite <- Dd in Er. rewrite (Rabs_left1 (x - m)) in Er by lra.
  pose proof (L5 (proj1 S1)) as Lp. rewrite (Rabs_pos_eq (liblog s)) in L3 by exact Lp.
  destruct (add_back prec top W (- liblog s) d) as (v & V1 & V2 & V3 & _ & V5); [now apply fmt_opp|exact Fd|rewrite Rabs_Ropp, Rabs_pos_eq; assumption|].
  exists v. split; [unfold fsub, esub; cbn [eneg eadd]; rewrite Rplus_comm; f_equal; exact V1|]. split; [exact V2|]. assert (v0 : v <= 0) by (specialize (V5 ltac:(lra)); lra). split; [exact v0|].
  set (n := INR (length l)) in *. assert (ls : 0 <= ln s <= n - 1). { split; [rewrite <- ln_1; apply ln_le'; lra|]. pose proof (ln_le_sub s). lra. }
  rewrite (Rabs_pos_eq (ln s)) in L4 by lra. rewrite (Rabs_left1 v v0) in V3. apply Rabs_le_inv in V3, L4, LS, Er.
  set (D := m - x) in *. replace (- (x - m)) with D in Er by (unfold D; ring). assert (ED : D = m - x) by reflexivity. assert (D0 : 0 <= D) by lra. clearbody D.
  assert (ul : u * ln s <= u * (n - 1)) by nra. assert (ul4 : u * ln s <= (n - 1) / 4) by nra. assert (uD4 : u * D <= D / 4) by nra.
  assert (Bv : - v <= 5 / 3 * D + 2 * (n - 1) + 1 / 6) by (assert (u * - v <= - v / 4) by nra; lra).
  assert (uv : u * - v <= u * (5 / 3 * D + 2 * (n - 1) + 1 / 6)) by (apply Rmult_le_compat_l; lra).
  replace (v - (x - ln (exp_sum l))) with (v - (- liblog s + d) + (d + D) - (liblog s - ln s) - (ln s - (ln (exp_sum l) - m))) by (rewrite ED; ring).
  replace ((3 * D + 7 * n) * u) with (3 * (u * D) + 7 * (u * n)) by ring. assert (un : u <= u * n) by nra. apply Rabs_le. lra.
Qed.
Lemma perturbed_spec temperature logits js : 0 < temperature -> length js = length logits -> Forall bits js ->
  Forall (fun e => exists x, e = Fi x /\ float x /\ Rabs x <= b (top - 4) /\ Rabs x + IZR prec <= b (top - 4) * temperature) logits ->
  Forall (fun e => exists x, e = Fi x /\ float x /\ Rabs x <= b (top - 2)) (perturbed prec top liblog (Fi temperature) logits js).
Proof.
  intros T Len J H. apply Forall_forall. intros e I. unfold perturbed in I. apply in_map_iff in I as ((e0 & j) & <- & I). cbn [fst snd].
  rewrite Forall_forall in J, H. specialize (J j (in_combine_r _ _ _ _ I)). destruct (H e0 (in_combine_l _ _ _ _ I)) as (x & -> & Fx & B1 & B2).
  destruct (gumbel_spec prec top W A liblog j FL J) as (g & -> & Fg & Rg). unfold fadd. cbn [eadd]. destruct (fmt_top prec top W A) as (_ & T1 & T2).
  assert (X : Rabs (x + g) <= Rabs x + IZR prec) by (eapply Rle_trans; [apply Rabs_triang|]; lra).
  assert (b4 : b (top - 4) <= b (top - 2)) by (apply bpow_le; lia).
  destruct (float_rounded (x + g)) as (y & -> & Fy & Dy). { replace (top - 1)%Z with (top - 2 + 1)%Z by lia. rewrite b_1. lra. }
  rewrite fdiv_fi by lra. assert (Y : Rabs (y / temperature) <= b (top - 3)).
  { unfold Rdiv. rewrite Rabs_mult, (Rabs_pos_eq (/ temperature)) by (left; now apply Rinv_0_lt_compat). apply (Rmult_le_reg_r temperature); [exact T|]. rewrite Rmult_assoc, Rinv_l, Rmult_1_r by lra.
    rewrite Dy. eapply Rle_trans; [apply (near_double prec top W)|]. replace (top - 3)%Z with (top - 4 + 1)%Z by lia. rewrite b_1. lra. }
  destruct (float_rounded (y / temperature)) as (z & -> & Fz & Dz). { eapply Rle_trans; [exact Y|]. apply bpow_le. lia. }
  exists z. split; [reflexivity|]. split; [exact Fz|]. rewrite Dz. apply near_bpow; [exact W|destruct W; lia|]. eapply Rle_trans; [exact Y|]. apply bpow_le. lia.
Qed.
Lemma some_largest l : l <> [] -> Forall (fun e => exists x, e = Fi x) l -> exists m, largest l m.
Proof.
  induction l as [|e l IH]; [congruence|]. intros _ H. inversion H as [|? ? (x & ->) H']; subst. destruct l as [|e' l'].
  - exists x. split; [now left|]. intros y [[= <-]|[]]. lra.
  - destruct IH as (m & I & M); [discriminate|exact H'|]. destruct (Rle_or_lt x m) as [C|C].
    + exists m. split; [now right|]. intros y [[= <-]|Hy]; auto.
    + exists x. split; [now left|]. intros y [[= <-]|Hy]; [lra|]. specialize (M y Hy). lra.
Qed.
(** Concrete: entries in [0, 1] adding up to 1 within 7 n u, for all random bits. *)
Theorem C58_concrete inverse p temperature logits js : logits <> [] -> (6 * Z.of_nat (length logits) <= 2 ^ prec)%Z -> adds_up p (length logits) ->
  0 < temperature -> length js = length logits -> Forall bits js ->
  Forall (fun e => exists x, e = Fi x /\ float x /\ Rabs x <= b (top - 4) /\ Rabs x + IZR prec <= b (top - 4) * temperature) logits ->
  let r := concrete_sample prec top libexp liblog inverse p (Fi temperature) logits js in
  Forall (fraction prec top) r /\ length r = length logits /\ Rabs (total r - 1) <= 7 * INR (length logits) * u.
Proof.
  intros NE N P T Len J H. pose proof (perturbed_spec temperature logits js T Len J H) as X. set (l := perturbed prec top liblog (Fi temperature) logits js) in *.
  assert (Ll : length l = length logits) by (unfold l, perturbed; rewrite map_length, combine_length; lia).
  destruct (some_largest l) as (m & L). { intros Z. rewrite Z in Ll. destruct logits; [congruence|discriminate]. } { eapply Forall_impl; [|exact X]. intros e (x & -> & _). eauto. }
  assert (X' : Forall (entry prec top) l) by (eapply Forall_impl; [|exact X]; intros e (x & -> & F & _); right; eauto).
  rewrite <- Ll in *. destruct (C58_softmax inverse p l m X' L N P) as (S1 & S2 & S3). cbn zeta. unfold concrete_sample. fold l. split; [|split; [exact S1|exact S2]].
  apply Forall_forall. intros e I. apply In_nth_error in I as (i & I). destruct (nth_error l i) as [e'|] eqn:E; [|apply nth_error_None in E; rewrite <- S1 in E; apply nth_error_None in E; congruence].
  destruct (S3 i e' E) as (w & I' & F & R & _). exists w. split; [congruence|auto].
Qed.
(** ExpConcrete: finite logarithms, not positive. *)
Theorem C58_exp_concrete p temperature logits js : logits <> [] -> (Z.of_nat (length logits) <= 2 ^ prec)%Z -> adds_up p (length logits) ->
  0 < temperature -> length js = length logits -> Forall bits js ->
  Forall (fun e => exists x, e = Fi x /\ float x /\ Rabs x <= b (top - 4) /\ Rabs x + IZR prec <= b (top - 4) * temperature) logits ->
  let r := exp_concrete_sample prec top libexp liblog p (Fi temperature) logits js in
  Forall (fun e => exists v, e = Fi v /\ float v /\ v <= 0) r /\ length r = length logits.
Proof.
  intros NE N P T Len J H. pose proof (perturbed_spec temperature logits js T Len J H) as X. set (l := perturbed prec top liblog (Fi temperature) logits js) in *.
  assert (Ll : length l = length logits) by (unfold l, perturbed; rewrite map_length, combine_length; lia).
  destruct (some_largest l) as (m & L). { intros Z. rewrite Z in Ll. destruct logits; [congruence|discriminate]. } { eapply Forall_impl; [|exact X]. intros e (x & -> & _). eauto. }
  rewrite <- Ll in *. destruct (C58_log_softmax p l m X L N P) as (S1 & S2). cbn zeta. unfold exp_concrete_sample. fold l. split; [|exact S1].
  apply Forall_forall. intros e I. apply In_nth_error in I as (i & I). destruct (nth_error l i) as [e'|] eqn:E; [|apply nth_error_None in E; rewrite <- S1 in E; apply nth_error_None in E; congruence].
  rewrite Forall_forall in X. destruct (X e' (nth_error_In _ _ E)) as (x & -> & _). destruct (S2 i x E) as (v & I' & F & R & _). exists v. split; [congruence|auto].
Qed.
End Statements.

(** ** Samples outside the support *)
Lemma refuted_floats prec top (A : ample prec top) :
  is_float prec top (bpow radix2 prec) /\ is_float prec top (bpow radix2 prec + 2) /\ bits prec (2 ^ (prec - 1) - 1) /\
  standard prec (2 ^ (prec - 1) - 1) = 1 - 2 * unit_roundoff prec /\ unit_roundoff prec <= 1 / 8.
Proof.
  pose proof A as (W & p3 & _). pose proof W as (w1 & w2 & w3). assert (T : (prec + 3 <= top)%Z).
  { destruct (Z.eq_dec top (prec + 2)) as [E|E]; [|lia]. subst top. replace (prec + 2 - prec - 1)%Z with 1%Z in w3 by lia. change (2 ^ 1)%Z with 2%Z in w3. lia. }
  assert (P2 : (2 <= 2 ^ (prec - 1))%Z) by (replace (prec - 1)%Z with (1 + (prec - 2))%Z by lia; rewrite Z.pow_add_r by lia; pose proof (Z.pow_pos_nonneg 2 (prec - 2)); change (2 ^ 1)%Z with 2%Z; lia).
  assert (PP : (2 ^ prec = 2 * 2 ^ (prec - 1))%Z) by (replace prec with (1 + (prec - 1))%Z at 1 by lia; rewrite Z.pow_add_r by lia; reflexivity).
  assert (B0 : bpow radix2 prec = IZR (2 ^ (prec - 1)) * bpow radix2 1).
  { change (2 ^ (prec - 1))%Z with (Zpower radix2 (prec - 1)). rewrite (IZR_Zpower radix2), <- bpow_plus by lia. f_equal. lia. }
  assert (Bt : bpow radix2 (prec + 1) < bpow radix2 top) by (apply bpow_lt; lia). rewrite (b_1 prec) in Bt.
  assert (B8 : 8 <= bpow radix2 prec) by (replace 8 with (bpow radix2 3) by reflexivity; apply bpow_le; lia).
  split; [|split; [|split; [|split]]].
  - split; [apply fmt_bpow; [exact W|lia]|]. rewrite Rabs_pos_eq; lra.
  - split; [|rewrite Rabs_pos_eq; lra]. replace (bpow radix2 prec + 2) with (IZR (2 ^ (prec - 1) + 1) * bpow radix2 1) by (rewrite plus_IZR, Rmult_plus_distr_r, <- B0; cbn; lra).
    apply fmt_grid; [exact W| |lia]. lia.
  - unfold bits. lia.
  - unfold standard. rewrite minus_IZR, Rmult_minus_distr_r. change (2 ^ (prec - 1))%Z with (Zpower radix2 (prec - 1)). rewrite (IZR_Zpower radix2), <- bpow_plus by lia.
    replace (prec - 1 + (1 - prec))%Z with 0%Z by lia. rewrite (b_prec prec). cbn [bpow]. lra.
  - unfold unit_roundoff. replace (1 / 8) with (bpow radix2 (-3)) by (cbn; lra). apply bpow_le. lia.
Qed.
Lemma own_uniform_log_prob lgamma lo hi : lo < hi ->
  log_p lgamma true (Uniform (Fi lo) (Fi hi)) (Fi hi) = Invalid /\ log_p lgamma false (Uniform (Fi lo) (Fi hi)) (Fi hi) = Returns MInf.
Proof.
  intros H. cbn [log_p]. unfold uniform_p. cbn [esub eneg eadd ediv2 ediv eleb eltb]. destruct (Rlt_dec hi hi); [lra|]. rewrite andb_false_r.
  destruct (Req_EM_T (hi + - lo) 0); [lra|]. cbn [checked is_finite bind emul]. rewrite Rmult_0_r. cbn. destruct (Rlt_dec 0 0); [lra|]. destruct (Req_EM_T 0 0); [|lra]. split; reflexivity.
Qed.
(** Uniform: a sample can round up to maxval, where its own density is 0. *)
Theorem C58_uniform_maxval_refuted prec top lgamma : ample prec top -> exists lo hi j, bits prec j /\ is_float prec top lo /\ is_float prec top hi /\ lo < hi /\
  uniform_sample prec top (Fi lo) (Fi hi) j = Fi hi /\
  log_p lgamma true (Uniform (Fi lo) (Fi hi)) (Fi hi) = Invalid /\ log_p lgamma false (Uniform (Fi lo) (Fi hi)) (Fi hi) = Returns MInf.
Proof.
  intros A. pose proof A as (W & p3 & _). pose proof W as (w1 & w2 & w3). destruct (refuted_floats prec top A) as (Fl & Fh & J & S & U8).
  set (lo := bpow radix2 prec) in *. set (j := (2 ^ (prec - 1) - 1)%Z) in *. pose proof (u_pos prec) as U. set (u := unit_roundoff prec) in *.
  exists lo, (lo + 2), j. split; [exact J|]. split; [exact Fl|]. split; [exact Fh|]. split; [lra|]. split; [|apply own_uniform_log_prob; lra].
  pose proof (one_le_top prec top W) as O1. assert (O4 : 4 <= bpow radix2 (top - 1)) by (replace 4 with (bpow radix2 2) by reflexivity; apply bpow_le; lia).
  destruct (standard_spec prec top W j J) as (Fs & Rs). rewrite S in Fs, Rs.
  assert (F1 : generic_format radix2 (fexpo prec top) 1) by apply fmt_1, W.
  assert (F2 : generic_format radix2 (fexpo prec top) 2) by (replace 2 with (bpow radix2 1) by reflexivity; apply fmt_bpow; [exact W|lia]).
  assert (F3 : generic_format radix2 (fexpo prec top) ((1 - 2 * u) * 2)).
  { assert (E : (1 - 2 * u) * 2 = IZR j * bpow radix2 (1 - prec + 1)) by (rewrite (b_1 (1 - prec)); rewrite <- S; unfold standard; ring).
    rewrite E. destruct J as (J0 & J1). apply fmt_grid; [exact W| |lia]. pose proof (Z.pow_le_mono_r 2 (prec - 1) prec). lia. }
  unfold uniform_sample, random_uniform. rewrite S. unfold fsub, esub. cbn [eneg eadd]. replace (1 + - 0) with 1 by ring. replace (lo + 2 + - lo) with 2 by ring.
  rewrite (rounded_finite prec top W 1), (near_id prec top 1 F1) by (rewrite Rabs_R1; lra). unfold fmul at 2. cbn [emul]. rewrite Rmult_1_r.
  rewrite (rounded_finite prec top W (1 - 2 * u)), (near_id prec top _ Fs) by (rewrite Rabs_pos_eq; lra). unfold fadd at 2. cbn [eadd]. rewrite Rplus_0_r.
  rewrite (rounded_finite prec top W (1 - 2 * u)), (near_id prec top _ Fs) by (rewrite Rabs_pos_eq; lra).
  rewrite (rounded_finite prec top W 2), (near_id prec top 2 F2) by (rewrite Rabs_pos_eq; lra). unfold fmul. cbn [emul].
  rewrite (rounded_finite prec top W ((1 - 2 * u) * 2)), (near_id prec top _ F3) by (rewrite Rabs_pos_eq; lra). unfold fadd. cbn [eadd]. 
  assert (N : nearest prec top ((1 - 2 * u) * 2 + lo) = lo + 2).
  { assert (P8 : 8 <= lo) by (replace 8 with (bpow radix2 3) by reflexivity; apply bpow_le; lia).
    assert (L0 : lo = IZR (2 ^ (prec - 1)) * 2).
    { change (2 ^ (prec - 1))%Z with (Zpower radix2 (prec - 1)). rewrite (IZR_Zpower radix2) by lia. replace 2 with (bpow radix2 1) by reflexivity. rewrite <- bpow_plus. unfold lo. f_equal. lia. }
    assert (M : mag radix2 ((1 - 2 * u) * 2 + lo) = (prec + 1)%Z :> Z).
    { apply mag_unique_pos. replace (prec + 1 - 1)%Z with prec by lia. fold lo. rewrite b_1. fold lo. split; lra. }
    unfold nearest, round, F2R, scaled_mantissa, cexp. rewrite M. assert (C : fexpo prec top (prec + 1) = 1%Z) by (unfold fexpo, FLT_exp; lia). rewrite C. cbn [Fnum Fexp].
    assert (Z : ZnearestE (((1 - 2 * u) * 2 + lo) * bpow radix2 (- (1))) = (2 ^ (prec - 1) + 1)%Z).
    { apply Znearest_imp. rewrite plus_IZR. replace (bpow radix2 (- (1))) with (/ 2) by reflexivity. rewrite L0.
      replace (((1 - 2 * u) * 2 + IZR (2 ^ (prec - 1)) * 2) * / 2 - (IZR (2 ^ (prec - 1)) + 1)) with (- (2 * u)) by field. rewrite Rabs_Ropp, Rabs_pos_eq; lra. }
    rewrite Z, plus_IZR, L0. replace (bpow radix2 1) with 2 by reflexivity. ring. }
  cbn [rounded]. rewrite N. apply overflow_small. apply Fh.
Qed.
(** ... and is NaN when maxval - minval overflows and the random bits are 0. *)
Theorem C58_uniform_overflow_refuted prec top : ample prec top -> exists lo hi, is_float prec top lo /\ is_float prec top hi /\ lo < hi /\ bits prec 0 /\
  uniform_sample prec top (Fi lo) (Fi hi) 0 = NaN.
Proof.
  intros A. pose proof A as (W & p3 & _). pose proof W as (w1 & w2 & w3). exists (- bpow radix2 (top - 1)), (bpow radix2 (top - 1)).
  assert (F : is_float prec top (bpow radix2 (top - 1))). { split; [apply fmt_bpow; [exact W|lia]|]. rewrite Rabs_pos_eq by apply bpow_ge_0. apply bpow_lt. lia. }
  split; [now apply float_opp|]. split; [exact F|]. pose proof (bpow_gt_0 radix2 (top - 1)). split; [lra|]. split; [unfold bits; pose proof (Z.pow_pos_nonneg 2 (prec - 1)); lia|].
  pose proof (one_le_top prec top W) as O1. assert (F1 : generic_format radix2 (fexpo prec top) 1) by apply fmt_1, W. assert (F0 : generic_format radix2 (fexpo prec top) 0) by apply fmt_0.
  unfold uniform_sample, random_uniform, standard. rewrite Rmult_0_l. unfold fsub, esub. cbn [eneg eadd]. replace (1 + - 0) with 1 by ring.
  rewrite (rounded_finite prec top W 1), (near_id prec top 1 F1) by (rewrite Rabs_R1; lra). unfold fmul at 2. cbn [emul]. rewrite Rmult_0_l.
  rewrite (rounded_finite prec top W 0), (near_id prec top 0 F0) by (rewrite Rabs_R0; lra). unfold fadd at 2. cbn [eadd]. rewrite Rplus_0_r.
  rewrite (rounded_finite prec top W 0), (near_id prec top 0 F0) by (rewrite Rabs_R0; lra).
  replace (bpow radix2 (top - 1) + - - bpow radix2 (top - 1)) with (bpow radix2 top) by (replace top with (top - 1 + 1)%Z at 1 by lia; rewrite b_1; ring).
  assert (E : rounded prec top (Fi (bpow radix2 top)) = PInf).
  { cbn. rewrite (near_id prec top); [|apply fmt_bpow; [exact W|lia]]. unfold overflow. rewrite Rabs_pos_eq by apply bpow_ge_0. pose proof (bpow_gt_0 radix2 top). destruct (Rlt_dec _ _); [lra|]. destruct (Rlt_dec _ _); [reflexivity|lra]. }
  rewrite E. unfold fmul. cbn [emul]. destruct (Rlt_dec 0 0); [lra|]. reflexivity.
Qed.
Lemma near_zero prec top x : wide prec top -> 0 <= x < bpow radix2 (2 - top - prec) -> nearest prec top x = 0.
Proof.
  intros W (H0 & H1). pose proof (prec_pos prec top W) as P. pose proof (fexpo_valid prec top W) as V. apply Rle_antisym; [|apply near_ge_fmt; [exact W|apply fmt_0|exact H0]].
  apply round_N_le_midp; [exact _|apply fmt_0|]. rewrite succ_0. unfold fexpo at 1. rewrite (ulp_FLT_0 radix2 (3 - top - prec) prec).
  replace (3 - top - prec)%Z with (2 - top - prec + 1)%Z by lia. rewrite b_1. lra.
Qed.
(** Beta: samples can be exactly 0 and exactly 1, which its log density rejects. *)
Theorem C58_beta_boundary_refuted prec top lgamma a b : ample prec top ->
  (exists x y, is_float prec top x /\ is_float prec top y /\ tiny top <= x /\ tiny top <= y /\ beta_sample prec top (Fi x) (Fi y) = Fi 1) /\
  (exists x y, is_float prec top x /\ is_float prec top y /\ tiny top <= x /\ tiny top <= y /\ beta_sample prec top (Fi x) (Fi y) = Fi 0) /\
  log_p lgamma true (Beta a b) (Fi 1) = Invalid /\ log_p lgamma true (Beta a b) (Fi 0) = Invalid.
Proof.
  intros A. pose proof A as (W & p3 & _). pose proof W as (w1 & w2 & w3). pose proof (prec_pos prec top W) as P. pose proof (fexpo_valid prec top W) as V.
  destruct (tiny_spec prec top W) as (Ft & Pt & Ut). pose proof (u_pos prec) as U. pose proof (u_quarter prec top W) as U4.
  assert (T : (prec + 3 <= top)%Z).
  { destruct (Z.eq_dec top (prec + 2)) as [E|E]; [|lia]. subst top. replace (prec + 2 - prec - 1)%Z with 1%Z in w3 by lia. change (2 ^ 1)%Z with 2%Z in w3. lia. }
  assert (FT : is_float prec top (tiny top)) by (split; [exact Ft|]; apply (below_top prec top W); rewrite Rabs_pos_eq; lra).
  assert (F1 : is_float prec top 1) by (split; [apply fmt_1, W|]; apply (below_top prec top W); rewrite Rabs_R1; lra). pose proof (one_le_top prec top W) as O1.
  split; [|split; [|split]].
  - exists 1, (tiny top). split; [exact F1|]. split; [exact FT|]. split; [lra|]. split; [lra|].
    assert (N : nearest prec top (1 + tiny top) = 1).
    { apply Rle_antisym; [|apply near_ge_fmt; [exact W|apply F1|lra]]. apply round_N_le_midp; [exact _|apply F1|]. rewrite succ_eq_pos by lra.
      replace (ulp radix2 (fexpo prec top) 1) with (2 * unit_roundoff prec).
      - assert (tiny top < unit_roundoff prec) by (unfold tiny, unit_roundoff; apply bpow_lt; lia). lra.
      - change 1 with (bpow radix2 0). rewrite ulp_bpow, <- b_prec. f_equal. unfold fexpo, FLT_exp. lia. }
    unfold beta_sample, fadd. cbn [eadd]. rewrite (rounded_finite prec top W) by (rewrite Rabs_pos_eq; lra). rewrite N, fdiv_fi by lra. replace (1 / 1) with 1 by field.
    rewrite (rounded_finite prec top W 1), (near_id prec top 1) by (try apply F1; rewrite Rabs_R1; lra). reflexivity.
  - set (y := bpow radix2 (top - 1)) in *. assert (Fy : is_float prec top y) by (split; [apply fmt_bpow; [exact W|lia]|]; unfold y; rewrite Rabs_pos_eq by apply bpow_ge_0; apply bpow_lt; lia).
    exists (tiny top), y. split; [exact FT|]. split; [exact Fy|]. split; [lra|]. split; [lra|].
    assert (N : nearest prec top (tiny top + y) = y).
    { apply Rle_antisym; [|apply near_ge_fmt; [exact W|apply Fy|lra]]. apply round_N_le_midp; [exact _|apply Fy|]. rewrite succ_eq_pos by lra.
      assert (EU : ulp radix2 (fexpo prec top) y = bpow radix2 (fexpo prec top (top - 1 + 1))) by apply ulp_bpow. rewrite EU. assert (X : 1 <= bpow radix2 (fexpo prec top (top - 1 + 1))) by (apply (bpow_le radix2 0); unfold fexpo, FLT_exp; lia). lra. }
    unfold beta_sample, fadd. cbn [eadd]. assert (R : rounded prec top (Fi (tiny top + y)) = Fi y) by (cbn; rewrite N; apply overflow_small; apply Fy). rewrite R, fdiv_fi by lra.
    cbn [rounded]. rewrite near_zero; [apply overflow_small; rewrite Rabs_R0; apply bpow_gt_0|exact W|].
    unfold tiny, y, Rdiv. rewrite <- bpow_opp, <- bpow_plus. split; [apply bpow_ge_0|apply bpow_lt; lia].
  - cbn [log_p esub eneg eadd]. replace (1 + - (1)) with 0 by ring. cbn [elog]. destruct (Rlt_dec 0 1); [|lra]. cbn [checked is_finite bind]. destruct (Rlt_dec 0 0); [lra|]. destruct (Req_EM_T 0 0); [|lra]. reflexivity.
  - cbn [log_p elog]. destruct (Rlt_dec 0 0); [lra|]. destruct (Req_EM_T 0 0); [|lra]. reflexivity.
Qed.

(** Concrete and BinConcrete with correctly rounded functions in float32: unit temperature and
    logits 1024 apart give samples on the boundary, whatever the random bits; their own
    log density is rejected, or NaN. *)
Lemma far_exp prec top x k : wide prec top -> (0 <= k)%Z -> x <= - IZR k -> exp x <= bpow radix2 (- k).
Proof.
  intros W K H. rewrite bpow_exp. apply exp_le. cbn [radix_val radix2]. rewrite opp_IZR. pose proof ln_2_le. assert (0 <= IZR k) by (apply IZR_le; lia). nra.
Qed.
Section Float32.
Let A : ample 24 128. Proof. unfold ample, wide. repeat split; try lia; cbn; reflexivity || discriminate. Qed.
Let W : wide 24 128 := proj1 A.
Notation near := (nearest 24 128).
Let FL : faithful_log 24 128 (fun x => near (ln x)). Proof. intros x F P. apply round_DN_or_UP; apply valid_rnd_N. Qed.
Let b100 : 100000 <= bpow radix2 (128 - 1). Proof. apply Rle_trans with (bpow radix2 17); [cbn; lra|apply bpow_le; lia]. Qed.

Theorem C58_bin_concrete_boundary_refuted lgamma j : bits 24 j ->
  bin_concrete_sample 24 128 (fun x => near (ln x)) (fun x => near (/ (1 + exp (- x)))) (Fi 1) (Fi 1024) j = Fi 1 /\
  log_p lgamma true (BinConcrete (Fi 1) (Fi 1024)) (Fi 1) = Invalid /\ log_p lgamma false (BinConcrete (Fi 1) (Fi 1024)) (Fi 1) = Returns NaN.
Proof.
  intros J. destruct (logistic_spec 24 128 W A _ j FL J) as (g & E & Fg & R). split; [|split].
  - unfold bin_concrete_sample. rewrite E. unfold fadd. cbn [eadd]. apply Rabs_le_inv in R. 
    rewrite (rounded_finite 24 128 W) by (apply Rabs_le; lra). rewrite fdiv_fi by lra. set (y := near (1024 + g)).
    assert (Y : 512 <= y <= 2048).
    { split; [apply near_ge_fmt|apply near_le_fmt]; try exact W; try lra.
      - replace 512 with (bpow radix2 9) by reflexivity. apply fmt_bpow; [exact W|lia].
      - replace 2048 with (bpow radix2 11) by reflexivity. apply fmt_bpow; [exact W|lia]. }
    replace (y / 1) with y by field. rewrite (rounded_finite 24 128 W) by (rewrite Rabs_pos_eq; lra). rewrite (near_id 24 128) by apply near_fmt, W. cbn [fsigmoid].
    pose proof (far_exp 24 128 (- y) 512 W ltac:(lia) ltac:(lra)) as X. pose proof (exp_pos (- y)) as P. set (e := exp (- y)) in *.
    assert (X2 : e < unit_roundoff 24 / 4). { eapply Rle_lt_trans; [exact X|]. unfold unit_roundoff. change (- (24))%Z with (-24)%Z. replace (bpow radix2 (-24) / 4) with (bpow radix2 (-26)) by (cbn; lra). apply bpow_lt. lia. }
    assert (I : 1 - e <= / (1 + e) <= 1). { split; [apply (Rmult_le_reg_r (1 + e)); [lra|]; rewrite Rinv_l by lra; nra|rewrite <- Rinv_1; apply Rinv_le; lra]. }
    assert (N : near (/ (1 + e)) = 1).
    { pose proof (fexpo_valid 24 128 W) as V. apply Rle_antisym; [apply near_le_fmt; [exact W|apply fmt_1, W|lra]|]. apply round_N_ge_midp; [exact _|apply fmt_1, W|].
      change 1 with (bpow radix2 0) at 2. rewrite pred_bpow. change (fexpo 24 128 0) with (- (24))%Z. fold (unit_roundoff 24). change (bpow radix2 0) with 1. pose proof (u_pos 24). lra. }
    rewrite N. apply overflow_small. rewrite Rabs_R1. apply (bpow_lt radix2 0). lia.
  - cbn [log_p esub eneg eadd]. replace (1 + - (1)) with 0 by ring. cbn [elog]. destruct (Rlt_dec 0 1); [|lra]. cbn [checked is_finite bind]. destruct (Rlt_dec 0 0); [lra|]. destruct (Req_EM_T 0 0); [|lra]. reflexivity.
  - cbn [log_p esub eneg eadd bind checked]. replace (1 + - (1)) with 0 by ring. cbn [elog]. destruct (Rlt_dec 0 1); [|lra]. destruct (Rlt_dec 0 0); [lra|]. destruct (Req_EM_T 0 0); [|lra]. cbn.
    destruct (Rlt_dec 0 1); [|lra]. cbn. destruct (Rlt_dec 0 2); [|lra]. reflexivity.
Qed.
Theorem C58_concrete_boundary_refuted lgamma inverse j1 j2 : bits 24 j1 -> bits 24 j2 ->
  exists w, concrete_sample 24 128 (fun x => near (exp x)) (fun x => near (ln x)) inverse (Plus (Entry 0) (Entry 1)) (Fi 1) [Fi 1024; Fi 0] [j1; j2] = [Fi w; Fi 0] /\
  concrete_log_p lgamma true (Fi 1) [Fi 1024; Fi 0] [Fi w; Fi 0] = Invalid.
Proof.
  intros J1 J2. assert (FE : faithful_exp 24 128 (fun x => near (exp x))) by (intros x _; apply round_DN_or_UP; apply valid_rnd_N).
  assert (F24 : forall k, (0 <= k <= 2 ^ 24)%Z -> generic_format radix2 (fexpo 24 128) (IZR k)) by (intros; now apply fmt_int).
  assert (Y : forall lo hi x j, generic_format radix2 (fexpo 24 128) lo -> generic_format radix2 (fexpo 24 128) hi -> Rabs lo <= 2000 -> Rabs hi <= 2000 -> lo <= x - 24 -> x + 24 <= hi -> bits 24 j ->
    exists y, fdiv 24 128 (fadd 24 128 (Fi x) (gumbel 24 128 (fun x => near (ln x)) j)) (Fi 1) = Fi y /\ is_float 24 128 y /\ lo <= y <= hi).
  { intros lo hi x j Fl Fh Bl Bh Ll Lh J. destruct (gumbel_spec 24 128 W A _ j FL J) as (g & E & _ & R). rewrite E. unfold fadd. cbn [eadd]. apply Rabs_le_inv in R, Bl, Bh.
    rewrite (rounded_finite 24 128 W) by (apply Rabs_le; lra). rewrite fdiv_fi by lra. set (y := near (x + g)).
    assert (Ry : lo <= y <= hi) by (split; [apply near_ge_fmt|apply near_le_fmt]; auto; lra). replace (y / 1) with y by field.
    assert (Ny : near y = y) by (apply near_id, near_fmt, W). rewrite (rounded_finite 24 128 W) by (apply Rabs_le; lra). rewrite Ny.
    exists y. split; [reflexivity|]. split; [|exact Ry]. split; [apply near_fmt, W|]. apply bounded_float. apply Rabs_le. lra. }
  assert (F0 : generic_format radix2 (fexpo 24 128) (- 24)) by (change (- (24)) with (-24); replace (-24) with (- IZR 24) by (cbn; lra); apply fmt_opp, F24; lia).
  destruct (Y 1000 1048 1024 j1) as (y1 & E1 & Fy1 & R1); try (apply F24; lia); try (rewrite Rabs_pos_eq); try lra; [exact J1|].
  destruct (Y (-24) 24 0 j2) as (y2 & E2 & Fy2 & R2); try (apply F24; lia); try exact F0; try (rewrite Rabs_pos_eq; lra); try lra; [rewrite Rabs_left; lra|exact J2|].
  unfold concrete_sample, perturbed. cbn [combine map fst snd]. rewrite E1, E2. set (l := [Fi y1; Fi y2]).
  assert (L : largest l y1) by (split; [now left|intros x [[= <-]|[[= <-]|[]]]; lra]).
  assert (EN : Forall (entry 24 128) l) by (apply Forall_forall; intros x [<-|[<-|[]]]; right; eauto).
  assert (P : adds_up (Plus (Entry 0) (Entry 1)) (length l)) by (cbn; repeat constructor).
  destruct (C58_softmax 24 128 _ A FE inverse _ l y1 EN L ltac:(cbn; lia) P) as (Len & _ & Each). 
  destruct (Each 0%nat (Fi y1) eq_refl) as (w1 & X1 & _). destruct (Each 1%nat (Fi y2) eq_refl) as (w2 & X2 & _).
  assert (S : softmax 24 128 (fun x => near (exp x)) inverse (Plus (Entry 0) (Entry 1)) l = [Fi w1; Fi w2]).
  { destruct (softmax 24 128 (fun x => near (exp x)) inverse (Plus (Entry 0) (Entry 1)) l) as [|a [|c [|]]]; try discriminate Len. cbn in X1, X2. congruence. }
  assert (w2 = 0) as ->.
  { destruct (terms 24 128 _ A FE l y1 EN L) as (t & T). destruct (T 1%nat ltac:(cbn; lia)) as (T1 & _). 
    assert (Z : nth_error (map (feexp 128 (fun x => near (exp x))) (fshifted 24 128 l)) 1 = Some (Fi 0)).
    { destruct (max_is 24 128 l y1 EN L) as (M & _). unfold fshifted. rewrite M. unfold l. cbn [map nth_error]. unfold fsub, esub. cbn [eneg eadd].
      rewrite (rounded_finite 24 128 W) by (apply Rabs_le; lra). cbn [feexp].
      assert (D : near (y2 + - y1) <= - IZR 512) by (apply near_le_fmt; [exact W|apply fmt_opp, F24; lia|lra]).
      rewrite near_zero; [|exact W|].
      - f_equal. apply overflow_small. rewrite Rabs_R0. apply bpow_gt_0.
      - split; [left; apply exp_pos|]. eapply Rle_lt_trans; [apply (far_exp 24 128 _ 512 W); [lia|exact D]|]. apply bpow_lt. lia. }
    rewrite Z in T1. injection T1 as T1. 
    destruct (normalized_spec 24 128 W inverse 0 t (map (feexp 128 (fun x => near (exp x))) (fshifted 24 128 l)) (Plus (Entry 0) (Entry 1))) as (s & Es & Fs & Ps & _); try (cbn; lia); try discriminate; auto.
    { intros i Hi. destruct (T i) as (Ti & Fi' & Ri & _); [unfold fshifted in Hi; rewrite !map_length in Hi; exact Hi|]. auto. }
    { exists 0%nat. destruct (T 0%nat ltac:(cbn; lia)) as (_ & _ & _ & _ & O). split; [cbn; lia|]. rewrite (O eq_refl). split; [lra|auto]. }
    unfold softmax, normalized in X2. rewrite Es, nth_error_map, Z in X2. cbn [option_map] in X2. destruct inverse.
    - rewrite fdiv_fi in X2 by lra. destruct (rounded_cases 24 128 A (1 / s)) as [(v & Ev & _)|[Ev|Ev]]; rewrite Ev in X2; cbn [fmul emul] in X2; unfold fmul in X2; cbn [emul] in X2.
      + rewrite Rmult_0_l, (rounded_finite 24 128 W), (near_id 24 128 0) in X2 by (try apply fmt_0; rewrite Rabs_R0; lra). congruence.
      + destruct (Rlt_dec 0 0); [lra|]. cbn in X2. discriminate.
      + destruct (Rlt_dec 0 0); [lra|]. cbn in X2. discriminate.
    - rewrite fdiv_fi in X2 by lra. replace (0 / s) with 0 in X2 by (unfold Rdiv; ring). rewrite (rounded_finite 24 128 W), (near_id 24 128 0) in X2 by (try apply fmt_0; rewrite Rabs_R0; lra). congruence. }
  exists w1. split; [exact S|]. unfold concrete_log_p. cbn [map checked_all]. cbn [elog checked bind]. destruct (Rlt_dec 0 0); [lra|]. destruct (Req_EM_T 0 0); [|lra]. cbn [is_finite bind].
  destruct (is_finite _); reflexivity.
Qed.
End Float32.

(** ** Examples *)
Example C58_formats : ample 24 128 /\ ample 53 1024 /\ ample 11 16 /\ ample 8 128.
Proof. unfold ample, wide. repeat split; try lia; cbn; reflexivity || discriminate. Qed.
Example C58_library prec top : wide prec top ->
  faithful_log1p prec top (fun x => nearest prec top (ln (1 + x))) /\ faithful_sigmoid prec top (fun x => nearest prec top (/ (1 + exp (- x)))).
Proof. intros W. split; intros x; intros; apply round_DN_or_UP; apply valid_rnd_N. Qed.
(** Ordinary float32 parameters and random bits meet the hypotheses. *)
Example C58_case : let f := is_float 24 128 in let bnd := bpow radix2 (128 - 4) in
  bits 24 12345 /\ f 3 /\ f (-2) /\ Rabs 3 + 2 * IZR 24 * Rabs (-2) <= bpow radix2 (128 - 1) /\ fsub 24 128 (Fi 3) (Fi (-2)) <> PInf /\
  Forall (fun e => exists x, e = Fi x /\ f x /\ Rabs x <= bnd /\ Rabs x + IZR 24 <= bnd * (1 / 2)) [Fi 3; Fi (-2); Fi 3] /\
  (6 * Z.of_nat 3 <= 2 ^ 24)%Z /\ adds_up (Plus (Plus (Entry 2) Zero) (Plus (Entry 0) (Entry 1))) 3.
Proof.
  pose proof (proj1 C58_formats) as A. pose proof (proj1 A) as W. intros f bnd.
  assert (B : 1000 <= bnd) by (unfold bnd; apply Rle_trans with (bpow radix2 10); [cbn; lra|apply bpow_le; lia]).
  assert (B2 : 1000 <= bpow radix2 (128 - 1)) by (apply Rle_trans with (bpow radix2 10); [cbn; lra|apply bpow_le; lia]).
  assert (B3 : 1000 <= bpow radix2 128) by (apply Rle_trans with (bpow radix2 10); [cbn; lra|apply bpow_le; lia]).
  assert (F3 : f 3) by (split; [apply (fmt_int 24 128 W 3); lia|rewrite Rabs_pos_eq; lra]).
  assert (F2 : f (-2)) by (split; [replace (-2) with (- IZR 2) by (cbn; lra); apply fmt_opp, fmt_int; [exact W|lia]|rewrite Rabs_left; lra]).
  split; [unfold bits; lia|]. split; [exact F3|]. split; [exact F2|]. rewrite (Rabs_pos_eq 3), (Rabs_left (-2)) by lra. split; [lra|]. split.
  { unfold fsub, esub. cbn [eneg eadd]. rewrite (rounded_finite 24 128 W) by (rewrite Rabs_pos_eq; lra). discriminate. }
  split; [|split; [lia|]].
  - apply Forall_forall. intros e [<-|[<-|[<-|[]]]]; eexists; (split; [reflexivity|]); (split; [assumption|]); rewrite ?(Rabs_pos_eq 3), ?(Rabs_left (-2)) by lra; lra.
  - cbn. apply (Permutation_cons_append [0; 1]%nat 2%nat).
Qed.

Print Assumptions C58_open_uniform.
Print Assumptions C58_gumbel.
Print Assumptions C58_logistic.
Print Assumptions C58_laplace.
Print Assumptions C58_bin_concrete.
Print Assumptions C58_uniform.
Print Assumptions C58_beta.
Print Assumptions C58_inverse_gamma.
Print Assumptions C58_dirichlet.
Print Assumptions C58_softmax.
Print Assumptions C58_log_softmax.
Print Assumptions C58_concrete.
Print Assumptions C58_exp_concrete.
Print Assumptions C58_uniform_maxval_refuted.
Print Assumptions C58_uniform_overflow_refuted.
Print Assumptions C58_beta_boundary_refuted.
Print Assumptions C58_bin_concrete_boundary_refuted.
Print Assumptions C58_concrete_boundary_refuted.
