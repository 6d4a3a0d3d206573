(** Lemmas for C68. *)
From Coq Require Import List Arith Bool Reals ZArith Lra Lia Permutation.
From Flocq Require Import Core.
From Verif Require Import ModelExt ModelSpecial ModelNum ModelTensor ModelFloat ModelFloatSample ModelDist ModelFlow ModelFloatFlow ModelFloatIaf SpecFloat SpecFloatImportance SpecFloatFlow SpecFloatIaf ProofFlow ProofFloat ProofFloatSample ProofFloatDensity ProofFloatTune ProofFloatImportance ProofFloatFlow.
Import ListNotations.
Local Open Scope R_scope.

Lemma dot_seq f : forall z k, dot z (map f (seq k (length z))) = sumR (map (fun i => nth i z 0 * f (k + i)%nat) (seq 0 (length z))).
Proof.
  induction z as [|a z IH]; intros k; [reflexivity|]. cbn [length seq map]. rewrite dot_cons, IH. unfold sumR. cbn [fold_right nth]. rewrite Nat.add_0_r. f_equal. f_equal. rewrite <- seq_shift, map_map. apply map_ext. intros i. cbn [nth]. f_equal. f_equal. lia.
Qed.
Lemma sigmoid_bound x : 0 < sigmoid x < 1.
Proof. unfold sigmoid. pose proof (exp_pos (- x)). split; [apply Rdiv_lt_0_compat; lra|]. apply (Rmult_lt_reg_r (1 + exp (- x))); [lra|]. unfold Rdiv. rewrite Rmult_assoc, Rinv_l by lra. lra. Qed.

Lemma update_name_eq (w : update_name) : w = OtherName \/ w <> OtherName. Proof. destruct w; [right|right|left]; easy. Qed.

Section Format.
Variables prec top : Z.
Hypothesis A : ample prec top.
Let W : wide prec top := proj1 A.
Notation u := (unit_roundoff prec).
Notation float := (is_float prec top).
Notation fmt := (generic_format radix2 (fexpo prec top)).
Notation near := (nearest prec top).
Notation b e := (bpow radix2 e).
Variables libexp liblog libsigmoid : R -> R.
Hypothesis HE : faithful_exp prec top libexp.
Hypothesis HL : faithful_log prec top liblog.
Hypothesis HS : faithful_sigmoid prec top libsigmoid.

Lemma ulp_normal x : b (2 - top) <= Rabs x -> ulp radix2 (fexpo prec top) x <= 2 * u * Rabs x.
Proof.
  intros H. pose proof A as (_ & p3 & _). unfold fexpo. assert (P : Prec_gt_0 prec) by (unfold Prec_gt_0; lia). eapply Rle_trans; [apply (ulp_FLT_le radix2 (3 - top - prec) prec)|].
  - replace (3 - top - prec + prec - 1)%Z with (2 - top)%Z by lia. exact H.
  - replace (1 - prec)%Z with (1 + - prec)%Z by lia. rewrite bpow_plus. change (b 1) with 2. unfold unit_roundoff. lra.
Qed.
(** Faithful evaluation of a positive number in the normal range, and its logarithm. *)
Lemma lib_scale f g x : faithful_at prec top f g x -> b (2 - top) <= g x -> Rabs (f x - g x) <= 2 * u * g x /\ 0 < f x /\ Rabs (ln (f x) - ln (g x)) <= 3 * u.
Proof.
  intros H G. pose proof (bpow_gt_0 radix2 (2 - top)) as B. pose proof (u_eighth prec top A) as U. pose proof (u_pos prec) as U0. assert (E : Rabs (f x - g x) <= 2 * u * g x). { eapply Rle_trans; [exact (faithful_err prec top W _ _ _ H)|]. eapply Rle_trans; [apply ulp_normal; rewrite Rabs_pos_eq; lra|]. rewrite Rabs_pos_eq by lra. lra. }
  split; [exact E|]. assert (Q : 3 / 4 * g x <= f x) by (apply Rabs_le_inv in E; nra). split; [lra|]. eapply Rle_trans; [apply (ln_close _ _ (3 / 4 * g x)); lra|]. apply (Rmult_le_reg_r (3 / 4 * g x)); [lra|]. unfold Rdiv. rewrite Rmult_assoc, Rinv_l by lra. nra.
Qed.
Lemma lib_log x : float x -> 0 < x -> Rabs (liblog x - ln x) <= 2 * u * Rabs (ln x) + u / 2 /\ fmt (liblog x).
Proof. intros F X. pose proof (HL x F X) as H. split; [|exact (faithful_fmt prec top W _ _ _ H)]. eapply Rle_trans; [exact (faithful_err prec top W _ _ _ H)|]. eapply Rle_trans; [apply (ulp_bound prec top W)|]. pose proof (eta_small prec top W). lra. Qed.
(** The logarithm of a float whose logarithm is within 3 u of [y]. *)
Lemma log_term x y t : (0 <= t)%Z -> (t + prec + 4 <= top)%Z -> float x -> 0 < x -> Rabs (ln x - y) <= 3 * u -> Rabs y <= b t ->
  felog top liblog (Fi x) = Fi (liblog x) /\ fmt (liblog x) /\ Rabs (liblog x) <= b (t + 1) /\ Rabs (liblog x - y) <= 7 * u * b t.
Proof.
  intros T0 TT F X E Y. pose proof A as (_ & p3 & _). destruct (lib_log x F X) as (L & Fm). pose proof (u_eighth prec top A) as U. pose proof (u_pos prec) as U0. assert (t1 : 1 <= b t) by (apply (bpow_le radix2 0); lia).
  assert (Q : Rabs (ln x) <= b t + 3 * u). { replace (ln x) with ((ln x - y) + y) by ring. eapply Rle_trans; [apply Rabs_triang|]. lra. }
  assert (P : Rabs (liblog x - y) <= 7 * u * b t). { replace (liblog x - y) with ((liblog x - ln x) + (ln x - y)) by ring. eapply Rle_trans; [apply Rabs_triang|]. assert (2 * u * Rabs (ln x) <= 2 * u * (b t + 3 * u)) by (apply Rmult_le_compat_l; lra). assert (u * (3 * u) <= u * (3 / 8)) by (apply Rmult_le_compat_l; lra). nra. }
  assert (S : Rabs (liblog x) <= b (t + 1)). { rewrite bpow_plus. change (b 1) with 2. replace (liblog x) with ((liblog x - y) + y) by ring. eapply Rle_trans; [apply Rabs_triang|]. nra. }
  split; [|auto]. unfold felog. destruct (Rlt_dec 0 x); [|lra]. apply overflow_small. eapply Rle_lt_trans; [exact S|]. apply bpow_lt. lia.
Qed.
Lemma sigmoid_at x : float x -> faithful_at prec top libsigmoid sigmoid x.
Proof. intros F. pose proof (HS x F) as H. unfold faithful_at in *. unfold sigmoid. unfold Rdiv. rewrite Rmult_1_l. exact H. Qed.
Lemma sigmoid_lib x : float x -> fsigmoid top libsigmoid (Fi x) = Fi (libsigmoid x) /\ float (libsigmoid x) /\ 0 <= libsigmoid x <= 1 /\ Rabs (libsigmoid x - sigmoid x) <= 5 / 2 * u.
Proof.
  intros F. pose proof (sigmoid_at x F) as H. pose proof (sigmoid_bound x) as S. assert (B : 0 <= libsigmoid x <= 1) by (split; [apply (faithful_ge prec top W _ _ _ _ H (fmt_0 prec top)); lra|apply (faithful_le prec top W _ _ _ _ H (fmt_1 prec top W)); lra]).
  assert (L : Rabs (libsigmoid x) < b top) by (apply (below_top prec top W); rewrite Rabs_pos_eq; lra). split; [cbn [fsigmoid]; now apply overflow_small|]. split; [split; [exact (faithful_fmt prec top W _ _ _ H)|exact L]|]. split; [exact B|].
  eapply Rle_trans; [exact (faithful_err prec top W _ _ _ H)|]. eapply Rle_trans; [apply (ulp_bound prec top W)|]. pose proof (eta_small prec top W). pose proof (u_pos prec). rewrite Rabs_pos_eq by lra. nra.
Qed.

(** ** The log probability *)
Section Log.
Variables (t : Z) (d : nat).
Hypothesis T0 : (0 <= t)%Z.
Hypothesis TT : (t + prec + 4 <= top)%Z.
Hypothesis DP : (Z.of_nat d <= 2 ^ prec)%Z.
(** The scales the device computes from the outputs of the network. *)
Definition device_scale (w : update_name) (x : R) : R := match w with Gru => libsigmoid x | _ => x end.
Lemma terms_sum p w s : w <> OtherName -> adds_up p d -> moderate prec top t d w s -> exists q, fsum prec top p (map (felog top liblog) (map Fi (map (device_scale w) s))) = Fi q /\ float q /\ Rabs (q - log_scales w s) <= log_scales_error prec t d.
Proof.
  intros NW P (L & H). rewrite Forall_forall in H. pose proof (u_pos prec) as U0. pose proof (u_eighth prec top A) as U. assert (t1 : 1 <= b t) by (apply (bpow_le radix2 0); lia).
  assert (E : forall x, In x s -> felog top liblog (Fi (device_scale w x)) = Fi (liblog (device_scale w x)) /\ fmt (liblog (device_scale w x)) /\ Rabs (liblog (device_scale w x)) <= b (t + 1) /\ Rabs (liblog (device_scale w x) - ln (scale w x)) <= 7 * u * b t).
  { intros x I. destruct (H x I) as (F & G & B). pose proof (bpow_gt_0 radix2 (2 - top)) as B0. destruct w; [| |easy]; cbn [device_scale scale] in *.
    - apply log_term; auto; [lra|]. unfold Rminus. rewrite Rplus_opp_r, Rabs_R0. lra.
    - destruct (sigmoid_lib x F) as (_ & FS & _). destruct (lib_scale _ _ x (sigmoid_at x F) G) as (_ & X & Y). apply log_term; auto. }
  destruct (list_sum prec top A (map (fun x => liblog (device_scale w x)) s) p (t + 1)) as (q & Eq & Fq & Bq).
  - apply Forall_forall. intros y I. apply in_map_iff in I as (x & <- & I). apply (E x I).
  - apply Forall_forall. intros y I. apply in_map_iff in I as (x & <- & I). apply (E x I).
  - now rewrite map_length, L.
  - now rewrite map_length, L.
  - lia.
  - exists q. rewrite map_length, L in Bq. split; [|split; [exact Fq|]].
    + rewrite <- Eq. f_equal. rewrite !map_map. apply map_ext_in. intros x I. apply (E x I).
    + assert (D : Rabs (rsum (map (fun x => liblog (device_scale w x)) s) - log_scales w s) <= INR d * (7 * u * b t)).
      { rewrite <- L. unfold rsum, log_scales. clear - E. induction s as [|x s IH]; [cbn; rewrite Rminus_0_r, Rabs_R0; lra|]. cbn [map fold_right length]. rewrite S_INR. destruct (E x (or_introl eq_refl)) as (_ & _ & _ & E1). specialize (IH (fun y I => E y (or_intror I))). match goal with |- Rabs (?p + ?a - (?q + ?c)) <= _ => replace (p + a - (q + c)) with ((p - q) + (a - c)) by ring end. eapply Rle_trans; [apply Rabs_triang|]. lra. }
      replace (q - log_scales w s) with ((q - rsum (map (fun x => liblog (device_scale w x)) s)) + (rsum (map (fun x => liblog (device_scale w x)) s) - log_scales w s)) by ring. eapply Rle_trans; [apply Rabs_triang|]. unfold log_scales_error. rewrite bpow_plus in Bq. change (b 1) with 2 in Bq.
      assert (INR d <= INR d * INR d). { destruct d as [|d']; [cbn; lra|]. rewrite S_INR. pose proof (pos_INR d'). nra. } assert (0 < u * b t) by (apply Rmult_lt_0_compat; lra). assert (INR d * (u * b t) <= INR d * INR d * (u * b t)) by (apply Rmult_le_compat_r; lra). lra.
Qed.
Lemma log_scales_size w s : moderate prec top t d w s -> Rabs (log_scales w s) <= INR d * b t.
Proof.
  intros (L & H). rewrite <- L. unfold log_scales. clear L. induction s as [|x s IH]; [cbn; rewrite Rabs_R0; lra|]. inversion H as [|? ? (_ & _ & X) Y]; subst. cbn [map fold_right length]. rewrite S_INR. eapply Rle_trans; [apply Rabs_triang|]. specialize (IH Y). lra.
Qed.
Lemma layer_log p w nn z l s : adds_up p d -> snd (nn z) = map Fi s -> moderate prec top t d w s -> snd (fiaf_layer prec top liblog libsigmoid p w nn (z, Fi l)) = match w with OtherName => Fi l | _ => fsub prec top (Fi l) (fsum prec top p (map (felog top liblog) (map Fi (map (device_scale w) s)))) end.
Proof.
  intros P E (L & H). unfold fiaf_layer. cbn [fst snd]. rewrite E. destruct w; cbn [snd]; [|f_equal; f_equal; f_equal|reflexivity].
  - f_equal. f_equal. f_equal. cbn [device_scale]. now rewrite map_id.
  - rewrite !map_map. apply map_ext_in. intros x I. rewrite Forall_forall in H. apply (sigmoid_lib x), (H x I).
Qed.
Lemma run_spec p w nn N l0 : (forall i, adds_up (p i) d) -> run_error prec t d N l0 <= 1 ->
  forall iter n zl total, run prec top t d liblog libsigmoid p w nn iter n zl total -> forall j l lx, snd zl = Fi l -> (j + n = N)%nat -> float l -> Rabs (l - lx) <= INR j * run_error prec t d N l0 -> Rabs lx <= Rabs l0 + INR j * (INR d * b t) ->
  exists l', snd (fiaf_row prec top liblog libsigmoid p w nn iter n zl) = Fi l' /\ float l' /\ Rabs (l' - (lx - total)) <= INR N * run_error prec t d N l0.
Proof.
  intros P G iter n zl total R. set (g := run_error prec t d N l0) in *. pose proof (u_pos prec) as U0. pose proof A as (_ & p3 & _). assert (t0 : 0 < b t) by apply bpow_gt_0. pose proof (pos_INR d) as d0. pose proof (pos_INR N) as n0. assert (dt : 0 <= INR d * b t) by (apply Rmult_le_pos; lra).
  assert (E0 : 0 <= log_scales_error prec t d) by (unfold log_scales_error; apply Rmult_le_pos; [apply Rmult_le_pos; [nra|lra]|lra]). assert (B0 : 0 <= run_size t d N l0) by (unfold run_size; pose proof (Rabs_pos l0); nra). assert (uB : 0 <= u * run_size t d N l0) by (apply Rmult_le_pos; lra).
  assert (bp : b prec * u = 1) by (unfold unit_roundoff; rewrite <- bpow_plus; replace (prec + - prec)%Z with 0%Z by lia; reflexivity). assert (bp0 : 0 < b prec) by apply bpow_gt_0. assert (BT : 2 * run_size t d N l0 <= b top). { apply Rle_trans with (b (prec + 1)); [|apply bpow_le; lia]. rewrite bpow_plus. change (b 1) with 2. assert (u * run_size t d N l0 <= 1) by (unfold g, run_error in G; lra). nra. }
  assert (g0 : 0 <= g) by (unfold g, run_error; lra).
  induction R as [iter (z, l1)|iter n (z, l1) s total E M R IH]; intros j l lx El Hj F X Y; cbn [fst snd fiaf_row] in *; subst l1.
  - exists l. split; [reflexivity|]. split; [exact F|]. rewrite Rminus_0_r. replace N with j by lia. exact X.
  - pose proof (layer_log (p iter) w (nn iter) z l s (P iter) E M) as LL. pose proof (log_scales_size w s M) as LS. assert (j1 : INR (S j) <= INR N) by (apply le_INR; lia). rewrite S_INR in j1. pose proof (pos_INR j) as j0.
    assert (Q : exists l2, snd (fiaf_layer prec top liblog libsigmoid (p iter) w (nn iter) (z, Fi l)) = Fi l2 /\ float l2 /\ Rabs (l2 - (l - log_scales w s)) <= g).
    { destruct (update_name_eq w) as [->|NW].
      - exists l. split; [exact LL|]. split; [exact F|]. replace (log_scales OtherName s) with 0; [unfold Rminus; rewrite Ropp_0, Rplus_0_r, Rplus_opp_r, Rabs_R0; exact g0|]. unfold log_scales. clear. induction s as [|x s IH]; [reflexivity|]. cbn [map fold_right]. rewrite <- IH. cbn [scale]. rewrite ln_1. ring.
      - destruct (terms_sum (p iter) w s NW (P iter) M) as (q & Eq & Fq & Bq). assert (LL' : snd (fiaf_layer prec top liblog libsigmoid (p iter) w (nn iter) (z, Fi l)) = fsub prec top (Fi l) (Fi q)) by (rewrite LL, Eq; destruct w; easy).
        assert (E1 : log_scales_error prec t d <= 1) by (unfold g, run_error in G; lra). assert (sz : Rabs (l - q) <= run_size t d N l0). { replace (l - q) with ((l - lx) + (lx + (- log_scales w s + - (q - log_scales w s)))) by ring. eapply Rle_trans; [apply Rabs_triang|]. pose proof (Rabs_triang lx (- log_scales w s + - (q - log_scales w s))) as T1. pose proof (Rabs_triang (- log_scales w s) (- (q - log_scales w s))) as T2. rewrite !Rabs_Ropp in T2. assert (INR j * g <= INR j * 1) by (apply Rmult_le_compat_l; lra). unfold run_size. assert ((INR j + 1) * (INR d * b t + 2) <= INR N * (INR d * b t + 2)) by (apply Rmult_le_compat_r; lra). lra. }
        assert (s1 : 1 <= run_size t d N l0) by (unfold run_size; pose proof (Rabs_pos l0); nra). destruct (near_fi prec top A (l - q) (run_size t d N l0) sz s1 BT) as (N1 & N2 & N3). exists (near (l - q)). split; [rewrite LL'; exact N1|]. split; [exact N2|].
        replace (near (l - q) - (l - log_scales w s)) with ((near (l - q) - (l - q)) + - (q - log_scales w s)) by ring. eapply Rle_trans; [apply Rabs_triang|]. rewrite Rabs_Ropp. unfold g, run_error. lra. }
    destruct Q as (l2 & E2 & F2 & B2). destruct (IH (S j) l2 (lx - log_scales w s) E2 ltac:(lia) F2) as (l' & E' & F' & B').
    + rewrite S_INR. replace (l2 - (lx - log_scales w s)) with ((l2 - (l - log_scales w s)) + (l - lx)) by ring. eapply Rle_trans; [apply Rabs_triang|]. lra.
    + rewrite S_INR. unfold Rminus. eapply Rle_trans; [apply Rabs_triang|]. rewrite Rabs_Ropp. lra.
    + exists l'. split; [exact E'|]. split; [exact F'|]. replace (lx - (log_scales w s + total)) with (lx - log_scales w s - total) by ring. exact B'.
Qed.
End Log.

(** ** The samples *)
Lemma near_rev d e x y : near_vectors d e x y -> near_vectors d e (rev x) (rev y).
Proof. intros (Lx & Ly & H). split; [now rewrite rev_length|]. split; [now rewrite rev_length|]. intros i I. rewrite !rev_nth by lia. rewrite Lx, Ly. apply H. lia. Qed.
Lemma near_map d e f g : (forall k, (k < d)%nat -> Rabs (f k - g k) <= e) -> near_vectors d e (map f (seq 0 d)) (map g (seq 0 d)).
Proof.
  intros H. split; [now rewrite map_length, seq_length|]. split; [now rewrite map_length, seq_length|]. intros i I. assert (Q : forall h : nat -> R, nth i (map h (seq 0 d)) 0 = h i). { intros h. rewrite (nth_indep _ 0 (h 0%nat)) by (rewrite map_length, seq_length; lia). rewrite map_nth, seq_nth by lia. reflexivity. } rewrite !Q. now apply H.
Qed.
Lemma tri5 a c e f g : Rabs (a + (c + (e + (f + g)))) <= Rabs a + Rabs c + Rabs e + Rabs f + Rabs g.
Proof. pose proof (Rabs_triang a (c + (e + (f + g)))). pose proof (Rabs_triang c (e + (f + g))). pose proof (Rabs_triang e (f + g)). pose proof (Rabs_triang f g). lra. Qed.
Section Move.
Variables (d : nat) (r : Z).
Hypothesis R0 : (0 <= r)%Z.
Hypothesis RT : (2 * r + 3 <= top)%Z.
Variables (z m s : list R) (l : R).
Hypothesis Hz : vector prec top r d z.
Hypothesis Hm : vector prec top r d m.
Lemma vec_nth x k : vector prec top r d x -> (k < d)%nat -> float (nth k x 0) /\ Rabs (nth k x 0) <= b r.
Proof. intros (L & H) I. rewrite Forall_forall in H. apply H, nth_In. lia. Qed.
Lemma normal_spec p : vector prec top r d s -> exists z', fst (fiaf_layer prec top liblog libsigmoid p Normal (fun _ => (map Fi m, map Fi s)) (map Fi z, Fi l)) = map Fi z' /\ Forall float z' /\
  near_vectors d (2 * u * b (2 * r)) z' (fst (iaf_layer Normal (fun _ => (m, s)) (z, l))).
Proof.
  intros Hs. pose proof A as (_ & p3 & _). pose proof (top_big prec top A) as TB. pose proof Hz as (Lz & _). pose proof Hm as (Lm & _). pose proof Hs as (Ls & _). set (f := fun k => near (near (nth k s 0 * nth k z 0) + nth k m 0)).
  assert (E : forall k, (k < d)%nat -> fadd prec top (fmul prec top (nth k (map Fi s) NaN) (nth k (map Fi z) NaN)) (nth k (map Fi m) NaN) = Fi (f k) /\ float (f k) /\ Rabs (f k - (nth k s 0 * nth k z 0 + nth k m 0)) <= 2 * u * b (2 * r)).
  { intros k I. rewrite !nth_Fi by lia. destruct (vec_nth s k Hs I) as (_ & B1). destruct (vec_nth z k Hz I) as (_ & B2). destruct (vec_nth m k Hm I) as (_ & B3). assert (r1 : b r <= b (2 * r)) by (apply bpow_le; lia).
    assert (B : Rabs (nth k s 0 * nth k z 0) <= b (2 * r)) by (rewrite Rabs_mult; replace (2 * r)%Z with (r + r)%Z by lia; rewrite bpow_plus; apply Rmult_le_compat; auto using Rabs_pos). destruct (fmul_near prec top A _ _ (2 * r) ltac:(lia) ltac:(lia) B) as (-> & F1 & S1). pose proof (near_binade prec top A _ (2 * r) ltac:(lia) B) as E1.
    assert (B' : Rabs (near (nth k s 0 * nth k z 0) + nth k m 0) <= b (2 * r + 1)) by (rewrite bpow_plus; change (b 1) with 2; eapply Rle_trans; [apply Rabs_triang|]; lra). destruct (fadd_near prec top A _ _ (2 * r + 1) ltac:(lia) ltac:(lia) B') as (-> & F2 & _). pose proof (near_binade prec top A _ (2 * r + 1) ltac:(lia) B') as E2. split; [reflexivity|]. split; [exact F2|]. unfold f.
    rewrite (bpow_plus radix2 (2 * r) 1) in E2. change (b 1) with 2 in E2. match goal with |- Rabs (near (?a + ?c) - (?x + ?c)) <= _ => replace (near (a + c) - (x + c)) with ((near (a + c) - (a + c)) + (a - x)) by ring end. eapply Rle_trans; [apply Rabs_triang|]. assert (0 < u * b (2 * r)) by (apply Rmult_lt_0_compat; [apply u_pos|apply bpow_gt_0]). lra. }
  exists (rev (map f (seq 0 d))). split; [|split].
  - cbn [fiaf_layer fst snd]. rewrite map_length, Lz, map_rev. f_equal. rewrite (map_map f Fi). apply map_ext_in. intros k I. apply in_seq in I. apply (E k). lia.
  - apply Forall_forall. intros x I. apply in_rev, in_map_iff in I as (k & <- & I). apply in_seq in I. apply (E k). lia.
  - cbn [iaf_layer fst snd]. rewrite Lz. apply near_rev, near_map. intros k I. now apply (E k).
Qed.
Lemma gru_spec p : length s = d -> Forall float s -> exists z', fst (fiaf_layer prec top liblog libsigmoid p Gru (fun _ => (map Fi m, map Fi s)) (map Fi z, Fi l)) = map Fi z' /\ Forall float z' /\
  near_vectors d (8 * u * b r) z' (fst (iaf_layer Gru (fun _ => (m, s)) (z, l))).
Proof.
  intros Ls Hs. pose proof A as (_ & p3 & _). pose proof (top_big prec top A) as TB. pose proof Hz as (Lz & _). pose proof Hm as (Lm & _). pose proof (u_pos prec) as U0. assert (br : 0 < b r) by apply bpow_gt_0. set (c := fun k => libsigmoid (nth k s 0)). set (f := fun k => near (near (c k * nth k z 0) + near (near (1 - c k) * nth k m 0))).
  assert (E : forall k, (k < d)%nat -> fadd prec top (fmul prec top (nth k (map (fsigmoid top libsigmoid) (map Fi s)) NaN) (nth k (map Fi z) NaN)) (fmul prec top (fsub prec top (Fi 1) (nth k (map (fsigmoid top libsigmoid) (map Fi s)) NaN)) (nth k (map Fi m) NaN)) = Fi (f k) /\ float (f k) /\
    Rabs (f k - (sigmoid (nth k s 0) * nth k z 0 + (1 - sigmoid (nth k s 0)) * nth k m 0)) <= 8 * u * b r).
  { intros k I. destruct (vec_nth z k Hz I) as (_ & B2). destruct (vec_nth m k Hm I) as (_ & B3). rewrite Forall_forall in Hs. assert (Ik : In (nth k s 0) s) by (apply nth_In; lia). destruct (sigmoid_lib (nth k s 0) (Hs _ Ik)) as (ES & FS & BS & DS). fold (c k) in ES, FS, BS, DS. pose proof (sigmoid_bound (nth k s 0)) as SB. set (g := sigmoid (nth k s 0)) in *.
    change NaN with (fsigmoid top libsigmoid NaN) at 1 3. rewrite map_nth, !nth_Fi by lia. rewrite ES.
    assert (B1 : Rabs (c k * nth k z 0) <= b r) by (rewrite Rabs_mult, (Rabs_pos_eq (c k)) by lra; pose proof (Rabs_pos (nth k z 0)); nra). destruct (fmul_near prec top A _ _ r ltac:(lia) ltac:(lia) B1) as (-> & F1 & S1). pose proof (near_binade prec top A _ r ltac:(lia) B1) as E1.
    assert (B4 : Rabs (1 - c k) <= b 0) by (change (b 0) with 1; rewrite Rabs_pos_eq; lra). destruct (fsub_near prec top A _ _ 0 ltac:(lia) ltac:(lia) B4) as (-> & F4 & S4). pose proof (near_binade prec top A _ 0 ltac:(lia) B4) as E4. change (b 0) with 1 in S4, E4. set (n1 := near (1 - c k)) in *.
    assert (B5 : Rabs (n1 * nth k m 0) <= b r) by (rewrite Rabs_mult; pose proof (Rabs_pos (nth k m 0)); pose proof (Rabs_pos n1); nra). destruct (fmul_near prec top A _ _ r ltac:(lia) ltac:(lia) B5) as (-> & F5 & S5). pose proof (near_binade prec top A _ r ltac:(lia) B5) as E5.
    assert (B6 : Rabs (near (c k * nth k z 0) + near (n1 * nth k m 0)) <= b (r + 1)) by (rewrite bpow_plus; change (b 1) with 2; eapply Rle_trans; [apply Rabs_triang|]; lra). destruct (fadd_near prec top A _ _ (r + 1) ltac:(lia) ltac:(lia) B6) as (-> & F6 & _). pose proof (near_binade prec top A _ (r + 1) ltac:(lia) B6) as E6. rewrite bpow_plus in E6. change (b 1) with 2 in E6.
    split; [reflexivity|]. split; [exact F6|]. unfold f. fold n1. pose proof (mul_close (c k) g (nth k z 0) (nth k z 0)) as M1. pose proof (mul_close n1 (1 - g) (nth k m 0) (nth k m 0)) as M2. replace (nth k z 0 - nth k z 0) with 0 in M1 by ring. replace (nth k m 0 - nth k m 0) with 0 in M2 by ring. rewrite Rabs_R0, Rmult_0_r, Rplus_0_r in M1, M2.
    assert (D1 : Rabs (n1 - (1 - g)) <= 3 * u). { replace (n1 - (1 - g)) with ((n1 - (1 - c k)) + - (c k - g)) by ring. eapply Rle_trans; [apply Rabs_triang|]. rewrite Rabs_Ropp. lra. }
    assert (M1' : Rabs (c k - g) * Rabs (nth k z 0) <= 5 / 2 * u * b r) by (apply Rmult_le_compat; auto using Rabs_pos). assert (M2' : Rabs (n1 - (1 - g)) * Rabs (nth k m 0) <= 3 * u * b r) by (apply Rmult_le_compat; auto using Rabs_pos).
    match goal with |- Rabs (near (?a + ?e) - (?x + ?y)) <= _ => replace (near (a + e) - (x + y)) with ((near (a + e) - (a + e)) + ((a - c k * nth k z 0) + ((c k * nth k z 0 - x) + ((e - n1 * nth k m 0) + (n1 * nth k m 0 - y))))) by ring end.
    eapply Rle_trans; [apply tri5|]. assert (0 < u * b r) by (apply Rmult_lt_0_compat; lra). lra. }
  exists (rev (map f (seq 0 d))). split; [|split].
  - cbn [fiaf_layer fst snd]. rewrite map_length, Lz, map_rev. f_equal. rewrite (map_map f Fi). apply map_ext_in. intros k I. apply in_seq in I. apply (E k). lia.
  - apply Forall_forall. intros x I. apply in_rev, in_map_iff in I as (k & <- & I). apply in_seq in I. apply (E k). lia.
  - cbn [iaf_layer fst snd]. rewrite Lz. apply near_rev, near_map. intros k I. now apply (E k).
Qed.
End Move.

(** ** The linear autoregressive network *)
Lemma fmask_mul i j x : float x -> fmul prec top (fmask i j) (Fi x) = Fi (mask i j * x).
Proof. intros F. unfold fmask, mask. destruct (Nat.ltb i j); [rewrite Rmult_1_l; now apply fmul_1_l|rewrite Rmult_0_l; now apply fmul_0_l]. Qed.
Section Linear.
Variables (d : nat) (r : Z).
Hypothesis D1 : (1 <= d)%nat.
Hypothesis R0 : (0 <= r)%Z.
Hypothesis RT : (2 * r + prec + 5 <= top)%Z.
Hypothesis DP : (Z.of_nat d <= 2 ^ prec)%Z.
Variable z : list R.
Hypothesis Hz : vector prec top r d z.
Let E := 3 * (INR d * u) * dots d r.
Lemma matmul_entry p w : (forall i j, (i < d)%nat -> (j < d)%nat -> float (w i j) /\ Rabs (w i j) <= b r) -> (forall j, (j < d)%nat -> adds_up (p j) d) ->
  forall j, (j < d)%nat -> exists x, fdot prec top (p j) (map Fi z) (map (fun i => fmul prec top (fmask i j) (Fi (w i j))) (seq 0 d)) = Fi x /\ float x /\ Rabs (x - sumR (map (fun i => nth i z 0 * (mask i j * w i j)) (seq 0 d))) <= E.
Proof.
  intros Hw P j J. set (col := map (fun i => mask i j * w i j) (seq 0 d)). pose proof Hz as (Lz & _).
  assert (V : vector prec top r d col). { split; [unfold col; now rewrite map_length, seq_length|]. apply Forall_forall. intros y I. apply in_map_iff in I as (i & <- & I). apply in_seq in I. destruct (Hw i j ltac:(lia) J) as (F & B). unfold mask. destruct (Nat.ltb i j); [rewrite Rmult_1_l; auto|]. rewrite Rmult_0_l. split; [apply float_0|]. rewrite Rabs_R0. apply bpow_ge_0. }
  destruct (fdot_spec prec top A d r D1 R0 RT DP (p j) z col Hz V (P j J)) as (x & Ex & Fx & Dx & _). exists x. split; [|split; [exact Fx|]].
  - rewrite <- Ex. f_equal. unfold col. rewrite map_map. apply map_ext_in. intros i I. apply in_seq in I. apply fmask_mul. apply Hw; lia.
  - pose proof (dot_seq (fun i => mask i j * w i j) z 0) as Q. rewrite Lz in Q. fold col in Q. rewrite Q in Dx. exact Dx.
Qed.
Lemma exp_entry x y : float x -> Rabs (x - y) <= E -> Rabs y + E <= (IZR top - 2) / 2 -> exists s, feexp top libexp (Fi x) = Fi s /\ float s /\ 0 < s /\ Rabs (ln s - y) <= E + 3 * u.
Proof.
  intros F D B. pose proof A as (_ & p3 & _). pose proof (top_big prec top A) as TB. assert (X : Rabs x <= (IZR top - 2) / 2). { replace x with ((x - y) + y) by ring. eapply Rle_trans; [apply Rabs_triang|]. lra. } apply Rabs_le_inv in X. pose proof ln_2_ge as L2. assert (t2 : 0 <= IZR (top - 2)) by (apply IZR_le; lia). rewrite minus_IZR in t2.
  assert (Lo : b (2 - top) <= exp x). { rewrite bpow_exp. cbn [radix_val radix2]. apply exp_le. replace (2 - top)%Z with (- (top - 2))%Z by lia. rewrite opp_IZR, minus_IZR. nra. } assert (Hi : exp x <= b (top - 2)). { rewrite bpow_exp. cbn [radix_val radix2]. apply exp_le. rewrite minus_IZR. nra. }
  destruct (lib_scale libexp exp x (HE x F) Lo) as (_ & S0 & S1). rewrite ln_exp in S1. assert (S2 : libexp x <= b (top - 2)) by (apply (faithful_le prec top W _ _ _ _ (HE x F)); [apply (fmt_bpow prec top W); lia|exact Hi]). assert (S3 : Rabs (libexp x) < b top) by (rewrite Rabs_pos_eq by lra; eapply Rle_lt_trans; [exact S2|]; apply bpow_lt; lia).
  exists (libexp x). split; [cbn; now apply overflow_small|]. split; [split; [exact (faithful_fmt prec top W _ _ _ (HE x F))|exact S3]|]. split; [exact S0|]. replace (ln (libexp x) - y) with ((ln (libexp x) - x) + (x - y)) by ring. eapply Rle_trans; [apply Rabs_triang|]. lra.
Qed.
End Linear.
Lemma fmask_0 i j x : (j <= i)%nat -> float x -> fmul prec top (fmask i j) (Fi x) = Fi 0.
Proof. intros L F. rewrite fmask_mul by exact F. unfold mask. destruct (Nat.ltb_spec i j); [lia|]. now rewrite Rmult_0_l. Qed.
Lemma combine_nth_map {X Y V} (f : X * Y -> V) : forall x y x' y', length x = length y -> length x' = length y' -> length x = length x' -> (forall i dx dy, (i < length x)%nat -> f (nth i x dx, nth i y dy) = f (nth i x' dx, nth i y' dy)) -> map f (combine x y) = map f (combine x' y').
Proof.
  induction x as [|a x IH]; intros [|c y] [|a' x'] [|c' y'] L L' L2 H; try discriminate; [reflexivity|]. cbn [combine map]. f_equal; [exact (H 0%nat a c ltac:(cbn; lia))|]. apply IH; try (cbn in *; lia). intros i dx dy I. exact (H (S i) dx dy ltac:(cbn; lia)).
Qed.
End Format.
