(** C41, C42: effective sample size. *)
From Coq Require Import Reals Lra List Arith Lia Permutation.
From Verif Require Import ModelDist ModelDiag SpecDist SpecDiag ProofDiscrete ProofVI.
Import ListNotations.
Local Open Scope R_scope.

(** ** Lemmas *)
Lemma np_mean_total {X} (f : X -> R) l : np_mean (map f l) = total f l / INR (length l).
Proof. unfold np_mean. now rewrite <- total_sumR, map_length. Qed.
Lemma np_mean_eq s : np_mean s = chain_mean s.
Proof. rewrite <- (map_id s) at 1. apply np_mean_total. Qed.
Lemma np_var_eq s : np_var s = variance s.
Proof. unfold np_var. rewrite np_mean_total. unfold variance. f_equal. apply total_ext. intros x _. unfold Rsqr. now rewrite np_mean_eq. Qed.

Lemma lagged (s : list R) lag : (lag <= length s)%nat ->
  combine (firstn (length s - lag) s) (skipn lag s)
  = map (fun t => (nth t s 0, nth (t + lag) s 0)) (seq 0 (length s - lag)).
Proof.
  intros H.
  assert (L : length (combine (firstn (length s - lag) s) (skipn lag s)) = (length s - lag)%nat).
  { rewrite combine_length, firstn_length, skipn_length. lia. }
  apply (nth_ext _ _ (0, 0) ((fun t => (nth t s 0, nth (t + lag) s 0)) 0%nat)).
  - now rewrite map_length, seq_length.
  - rewrite L. intros k Hk. rewrite (map_nth (fun t => (nth t s 0, nth (t + lag) s 0))), seq_nth by lia. cbn [Nat.add].
    rewrite combine_nth by (rewrite firstn_length, skipn_length; lia). f_equal.
    + pose proof (app_nth1 (firstn (length s - lag) s) (skipn (length s - lag) s) 0 (n := k)) as A.
      rewrite firstn_skipn, firstn_length in A. symmetry. apply A. lia.
    + pose proof (app_nth2 (firstn lag s) (skipn lag s) 0 (n := k + lag)) as A.
      rewrite firstn_skipn, firstn_length, Nat.min_l in A by lia. rewrite A by lia. f_equal. lia.
Qed.
Lemma auto_covariance_eq s lag : (lag <= length s)%nat -> auto_covariance s lag = autocov s lag.
Proof.
  intros H. unfold auto_covariance. rewrite lagged by easy. rewrite map_map, np_mean_total, seq_length.
  unfold autocov. f_equal. apply total_ext. intros t _. cbn [fst snd]. now rewrite np_mean_eq.
Qed.

Lemma total_seq_nth (f : R -> R) (s : list R) : total (fun t => f (nth t s 0)) (seq 0 (length s)) = total f s.
Proof.
  assert (E : map (fun t => nth t s 0) (seq 0 (length s)) = s).
  { apply (nth_ext _ _ ((fun t => nth t s 0) 0%nat) 0); [now rewrite map_length, seq_length|].
    rewrite map_length, seq_length. intros k Hk. now rewrite (map_nth (fun t => nth t s 0)), seq_nth. }
  rewrite <- (total_map f). now rewrite E.
Qed.
Lemma autocov_0 s : autocov s 0 = variance s.
Proof.
  unfold autocov, variance. rewrite Nat.sub_0_r. f_equal.
  rewrite <- (total_seq_nth (fun x => Rsqr (x - chain_mean s))). apply total_ext. intros t _.
  rewrite Nat.add_0_r. reflexivity.
Qed.
Lemma variance_pos s : nonconstant s -> 0 < variance s.
Proof.
  intros [x [y [Hx [Hy N]]]]. assert (0 < INR (length s)).
  { apply lt_0_INR. destruct s; [easy|cbn; lia]. }
  apply Rdiv_lt_0_compat; [|easy].
  assert (G : 0 <= total (fun x => Rsqr (x - chain_mean s)) s) by (apply total_nonneg; intros; apply Rle_0_sqr).
  destruct G as [G | G]; [easy|]. exfalso. symmetry in G. apply N.
  rewrite total_zero_iff in G by (intros; apply Rle_0_sqr).
  pose proof (G x Hx) as G1. pose proof (G y Hy) as G2. cbn in G1, G2.
  apply Rsqr_0_uniq in G1, G2. lra.
Qed.
Lemma nonconstant_dec s : nonconstant s \/ (forall x y, In x s -> In y s -> x = y).
Proof.
  destruct s as [|a s]; [right; easy|].
  assert (D : (exists x, In x s /\ x <> a) \/ (forall x, In x s -> x = a)).
  { induction s as [|b s IH]; [right; easy|]. destruct (Req_dec b a) as [->|N].
    - destruct IH as [[x [H1 H2]] | H].
      + left. exists x. split; [now right|easy].
      + right. intros x [<- | H1]; auto.
    - left. exists b. split; [now left|easy]. }
  destruct D as [[x [H1 H2]] | H].
  - left. exists x, a. repeat split; [now right|now left|easy].
  - right. intros x y Hx Hy. assert (forall z, In z (a :: s) -> z = a) by (intros z [<- | Hz]; auto).
    rewrite (H0 x), (H0 y) by easy. reflexivity.
Qed.
Lemma variance_zero s : (forall x y, In x s -> In y s -> x = y) -> variance s = 0.
Proof.
  intros H. destruct s as [|a s]; [unfold variance; cbn; unfold Rdiv; ring|].
  assert (C : forall x, In x (a :: s) -> x = a) by (intros x Hx; apply H; [easy|now left]).
  assert (M : chain_mean (a :: s) = a).
  { unfold chain_mean. rewrite (total_ext _ (fun _ => a)) by easy. rewrite total_const. field.
    apply not_0_INR. easy. }
  unfold variance. rewrite M. rewrite total_zero; [unfold Rdiv; ring|].
  intros x Hx. rewrite (C x Hx). unfold Rsqr. ring.
Qed.

Lemma loop_spec r fuel : forall t acc, exists T,
  (t <= T <= t + fuel)%nat /\ (forall k, (t <= k < T)%nat -> 0 <= r k) /\
  (T = (t + fuel)%nat \/ r T < 0) /\
  sum_rho_loop r fuel t acc = acc + total r (seq t (T - t)).
Proof.
  induction fuel as [|fuel IH]; intros t acc; cbn [sum_rho_loop].
  - exists t. repeat split; try lia. rewrite Nat.sub_diag. cbn. ring.
  - destruct (Rlt_dec (r t) 0) as [L|L].
    + exists t. repeat split; try lia; [now right|]. rewrite Nat.sub_diag. cbn. ring.
    + destruct (IH (S t) (acc + r t)) as [T [B [P [E S]]]]. exists T. repeat split; try lia.
      * intros k Hk. destruct (Nat.eq_dec k t) as [->|N]; [lra|]. apply P. lia.
      * destruct E as [E | E]; [left; lia|now right].
      * rewrite S. replace (T - t)%nat with (Datatypes.S (T - Datatypes.S t)) by lia. cbn. ring.
Qed.
Lemma loop_ext r r' fuel : forall t acc, (forall k, (t <= k < t + fuel)%nat -> r k = r' k) ->
  sum_rho_loop r fuel t acc = sum_rho_loop r' fuel t acc.
Proof.
  induction fuel as [|fuel IH]; intros t acc H; cbn; [easy|].
  rewrite (H t) by lia. destruct (Rlt_dec _ _); [easy|]. apply IH. intros k Hk. apply H. lia.
Qed.

(** The code's value in terms of the textbook quantities. *)
Lemma ess_eq s : (2 <= length s)%nat -> nonconstant s ->
  effective_sample_size_1d s = Some (INR (length s) / (1 + 2 * sum_rho_loop (rho s) (length s) 0 0)).
Proof.
  intros L N. pose proof (variance_pos s N) as V. unfold effective_sample_size_1d.
  assert (Hn : 2 <= INR (length s)) by (change 2 with (INR 2); now apply le_INR).
  destruct (length s) as [|[|m]] eqn:E; try lia. rewrite <- E in *.
  assert (P : np_var s * INR (length s) / (INR (length s) - 1) * (INR (length s) - 1) / INR (length s) = variance s).
  { rewrite np_var_eq. field. lra. }
  rewrite P. destruct (Req_EM_T _ _); [lra|]. f_equal. f_equal. f_equal. f_equal.
  apply loop_ext. intros k Hk. rewrite auto_covariance_eq by lia. rewrite np_var_eq. unfold rho. field. lra.
Qed.
Lemma ess_constant s : (2 <= length s)%nat -> (forall x y, In x s -> In y s -> x = y) ->
  effective_sample_size_1d s = None.
Proof.
  intros L N. unfold effective_sample_size_1d.
  destruct (length s) as [|[|m]] eqn:E; try lia. rewrite <- E in *.
  rewrite np_var_eq, (variance_zero s N). unfold Rdiv. rewrite !Rmult_0_l.
  destruct (Req_EM_T 0 0); easy.
Qed.

(** ** C41 *)

(** The estimate: n / (1 + 2 (rho_0 + ... + rho_(T-1))), where T is the first lag with a
    negative estimated autocorrelation. *)
Theorem C41_value s : (2 <= length s)%nat -> nonconstant s -> exists T e,
  effective_sample_size_1d s = Some e /\
  (T <= length s)%nat /\ (forall t, (t < T)%nat -> 0 <= rho s t) /\ (T = length s \/ rho s T < 0) /\
  e = INR (length s) / (1 + 2 * total (rho s) (seq 0 T)).
Proof.
  intros L N. rewrite ess_eq by easy.
  destruct (loop_spec (rho s) (length s) 0 0) as [T [B [P [E S]]]].
  exists T. eexists. split; [reflexivity|]. split; [lia|]. split; [intros; apply P; lia|].
  split; [exact E|]. rewrite S. now rewrite Nat.sub_0_r, Rplus_0_l.
Qed.
Print Assumptions C41_value.

(** It is positive, and because lag 0 is counted with weight 2 (n-2)/(n-1), it never
    exceeds n (n-1) / (3 n - 5), which is less than n. *)
Theorem C41_range s : (3 <= length s)%nat -> nonconstant s ->
  let n := INR (length s) in
  exists e, effective_sample_size_1d s = Some e /\ 0 < e <= n * (n - 1) / (3 * n - 5) /\
    n * (n - 1) / (3 * n - 5) < n.
Proof.
  intros L N n. destruct (C41_value s) as [T [e [E [B [P [X Ee]]]]]]; [lia|easy|].
  exists e. split; [exact E|]. pose proof (variance_pos s N) as V.
  assert (Hn : 3 <= n) by (replace 3 with (INR 3) by (cbn; ring); now apply le_INR).
  assert (R0 : rho s 0 = (n - 2) / (n - 1)).
  { unfold rho. rewrite autocov_0. fold n. field. lra. }
  assert (R0p : 0 < rho s 0) by (rewrite R0; apply Rdiv_lt_0_compat; lra).
  assert (S : rho s 0 <= total (rho s) (seq 0 T)).
  { destruct T as [|T]; [destruct X as [X | X]; [lia|lra]|]. cbn [seq total].
    assert (0 <= total (rho s) (seq 1 T)); [|lra].
    apply total_nonneg. intros k Hk. apply in_seq in Hk. apply P. lia. }
  fold n in Ee. rewrite Ee. split; [split|].
  - apply Rdiv_lt_0_compat; lra.
  - replace (n * (n - 1) / (3 * n - 5)) with (n / (1 + 2 * rho s 0)) by (rewrite R0; field; split; lra).
    unfold Rdiv. apply Rmult_le_compat_l; [lra|]. apply Rinv_le_contravar; lra.
  - apply (Rmult_lt_reg_r (3 * n - 5)); [lra|]. unfold Rdiv. rewrite Rmult_assoc, Rinv_l by lra. nra.
Qed.
Print Assumptions C41_range.

(** So an uncorrelated chain is not given about n effective samples: no chain is given more than
    n/2, and for n >= 7 none more than 0.4 n. *)
Theorem C41_uncorrelated_refuted s e : (7 <= length s)%nat -> nonconstant s ->
  effective_sample_size_1d s = Some e -> e <= 2 / 5 * INR (length s).
Proof.
  intros L N E. destruct (C41_range s) as [e' [E' [[_ B] _]]]; [lia|easy|]. rewrite E in E'. injection E' as <-.
  eapply Rle_trans; [exact B|]. set (n := INR (length s)).
  assert (Hn : 7 <= n) by (replace 7 with (INR 7) by (cbn; ring); now apply le_INR).
  apply (Rmult_le_reg_r (3 * n - 5)); [lra|]. unfold Rdiv. rewrite Rmult_assoc, Rinv_l by lra. nra.
Qed.
Print Assumptions C41_uncorrelated_refuted.

Lemma chain_mean_affine a b s : s <> [] -> chain_mean (map (fun x => a * x + b) s) = a * chain_mean s + b.
Proof.
  intros N. unfold chain_mean. rewrite map_length, total_map.
  replace (total (fun x => a * x + b) s) with (a * total (fun x => x) s + b * INR (length s)).
  - field. apply not_0_INR. now destruct s.
  - rewrite total_plus, total_scal, total_const. reflexivity.
Qed.
Lemma nth_map_affine a b s t : (t < length s)%nat -> nth t (map (fun x => a * x + b) s) 0 = a * nth t s 0 + b.
Proof.
  intros H. rewrite (nth_indep _ 0 ((fun x => a * x + b) 0)) by now rewrite map_length.
  now rewrite (map_nth (fun x => a * x + b)).
Qed.
Lemma autocov_affine a b s lag : s <> [] -> autocov (map (fun x => a * x + b) s) lag = a * a * autocov s lag.
Proof.
  intros N. unfold autocov. rewrite map_length, chain_mean_affine by easy.
  unfold Rdiv. rewrite <- Rmult_assoc. f_equal. rewrite <- total_scal. apply total_ext.
  intros t Ht. apply in_seq in Ht. rewrite !nth_map_affine by lia. ring.
Qed.

(** Invariant under any change of origin and unit. *)
Theorem C41_affine a b s : a <> 0 ->
  effective_sample_size_1d (map (fun x => a * x + b) s) = effective_sample_size_1d s.
Proof.
  intros A. destruct (le_lt_dec (length s) 1) as [L|L].
  { unfold effective_sample_size_1d. rewrite map_length. destruct (length s) as [|[|m]]; [easy|easy|lia]. }
  assert (Ne : s <> []) by (intros ->; cbn in L; lia).
  destruct (nonconstant_dec s) as [N | C].
  - assert (N' : nonconstant (map (fun x => a * x + b) s)).
    { destruct N as [x [y [Hx [Hy N]]]]. exists (a * x + b), (a * y + b).
      split; [now apply (in_map (fun x => a * x + b))|]. split; [now apply (in_map (fun x => a * x + b))|].
      intros E. apply N. apply (Rmult_eq_reg_l a); lra. }
    rewrite !ess_eq; try (rewrite ?map_length; easy || lia). rewrite map_length. f_equal. f_equal. f_equal. f_equal.
    apply loop_ext. intros k _. unfold rho. rewrite map_length, <- !(autocov_0 _), !autocov_affine by easy. f_equal.
    pose proof (variance_pos s N) as V. rewrite autocov_0. field. lra.
  - rewrite !ess_constant; rewrite ?map_length; try easy || lia.
    intros x y Hx Hy. apply in_map_iff in Hx, Hy. destruct Hx as [x' [<- Hx]], Hy as [y' [<- Hy]].
    now rewrite (C x' y').
Qed.
Print Assumptions C41_affine.

Lemma total_rev {X} (f : X -> R) l : total f (rev l) = total f l.
Proof. apply total_perm. apply Permutation_sym, Permutation_rev. Qed.
Lemma rev_seq n : rev (seq 0 n) = map (fun t => (n - 1 - t)%nat) (seq 0 n).
Proof.
  apply (nth_ext _ _ 0%nat ((fun t => (n - 1 - t)%nat) 0%nat)).
  - now rewrite rev_length, map_length.
  - rewrite rev_length, seq_length. intros k Hk. rewrite rev_nth by now rewrite seq_length.
    rewrite map_nth, seq_length, !seq_nth by lia. lia.
Qed.
Lemma autocov_rev s lag : (lag <= length s)%nat -> autocov (rev s) lag = autocov s lag.
Proof.
  intros L. unfold autocov. rewrite rev_length. f_equal.
  assert (M : chain_mean (rev s) = chain_mean s) by (unfold chain_mean; now rewrite rev_length, total_rev).
  rewrite M. rewrite <- (total_rev _ (seq 0 _)), rev_seq, total_map. apply total_ext. intros t Ht. apply in_seq in Ht.
  rewrite !rev_nth by lia. rewrite Rmult_comm. f_equal; f_equal; f_equal; lia.
Qed.

(** Invariant under reversing time. *)
Theorem C41_reversal s : effective_sample_size_1d (rev s) = effective_sample_size_1d s.
Proof.
  destruct (le_lt_dec (length s) 1) as [L|L].
  { unfold effective_sample_size_1d. rewrite rev_length. destruct (length s) as [|[|m]]; [easy|easy|lia]. }
  destruct (nonconstant_dec s) as [N | C].
  - assert (N' : nonconstant (rev s)).
    { destruct N as [x [y [Hx [Hy N]]]]. exists x, y. now rewrite <- !in_rev. }
    rewrite !ess_eq; try (rewrite ?rev_length; easy || lia). rewrite rev_length. f_equal. f_equal. f_equal. f_equal.
    apply loop_ext. intros k Hk. unfold rho. rewrite rev_length, <- !(autocov_0 _), !autocov_rev by lia. reflexivity.
  - rewrite !ess_constant; rewrite ?rev_length; try easy || lia.
    intros x y Hx Hy. apply in_rev in Hx, Hy. auto.
Qed.
Print Assumptions C41_reversal.

(** Degenerate chains: NaN for a constant chain or a single sample, 0 for none, and 2
    for any two distinct samples. *)
Theorem C41_degenerate :
  effective_sample_size_1d [] = Some 0 /\
  (forall x, effective_sample_size_1d [x] = None) /\
  (forall s, (2 <= length s)%nat -> (forall x y, In x s -> In y s -> x = y) -> effective_sample_size_1d s = None) /\
  forall x y, x <> y -> effective_sample_size_1d [x; y] = Some 2.
Proof.
  split; [easy|]. split; [easy|]. split; [exact ess_constant|]. intros x y N.
  assert (NC : nonconstant [x; y]) by (exists x, y; cbn; auto).
  rewrite ess_eq; [|cbn; lia|easy]. cbn [length].
  pose proof (variance_pos _ NC) as V.
  assert (R0 : rho [x; y] 0 = 0). { unfold rho. rewrite autocov_0. cbn [length INR]. field. lra. }
  assert (R1 : rho [x; y] 1 < 0).
  { assert (E : autocov [x; y] 1 = - variance [x; y]).
    { unfold autocov, variance, chain_mean, Rsqr. cbn. field. }
    unfold rho. rewrite E. cbn [length INR]. replace (- variance [x; y] / variance [x; y]) with (-1) by (field; lra). lra. }
  cbn [sum_rho_loop]. rewrite R0. destruct (Rlt_dec 0 0); [lra|]. destruct (Rlt_dec (rho [x; y] 1) 0); [|lra].
  f_equal. cbn. field.
Qed.
Print Assumptions C41_degenerate.

(** The bound of C41_range is attained. *)
Example C41_case : (3 <= length [1%R; (-1)%R; 1%R])%nat /\ nonconstant [1; -1; 1] /\
  effective_sample_size_1d [1; -1; 1] = Some (3 / 2).
Proof.
  assert (NC : nonconstant [1; -1; 1]) by (exists 1, (-1); cbn; repeat split; auto; lra).
  split; [cbn; lia|]. split; [exact NC|]. rewrite ess_eq; [|cbn; lia|easy]. cbn [length].
  assert (V : variance [1; -1; 1] = 8 / 9) by (unfold variance, chain_mean, Rsqr; cbn; field).
  assert (R0 : rho [1; -1; 1] 0 = 1 / 2) by (unfold rho; rewrite autocov_0, V; cbn [length INR]; field).
  assert (R1 : rho [1; -1; 1] 1 < 0).
  { unfold rho. rewrite V. unfold autocov, chain_mean. cbn. lra. }
  cbn [sum_rho_loop]. rewrite R0. destruct (Rlt_dec (1 / 2) 0); [lra|]. destruct (Rlt_dec (rho _ 1) 0); [|lra].
  f_equal. cbn. field.
Qed.

(** ** C42 *)
Definition column (samples : list (list R)) (d : nat) : list R := map (fun r => nth d r 0) samples.

Lemma ess_pos s : (2 <= length s)%nat -> nonconstant s -> exists e, effective_sample_size_1d s = Some e /\ 0 < e.
Proof.
  intros L N. destruct (C41_value s L N) as [T [e [E [B [P [X Ee]]]]]]. exists e. split; [easy|].
  rewrite Ee. assert (0 <= total (rho s) (seq 0 T)) by (apply total_nonneg; intros k Hk; apply in_seq in Hk; apply P; lia).
  apply Rdiv_lt_0_compat; [apply lt_0_INR; lia|lra].
Qed.
Lemma columns_spec cs : (forall c, In c cs -> (2 <= length c)%nat /\ nonconstant c) -> forall cur,
  (cs = [] -> cur <> None) ->
  exists m, ess_columns cs cur = Ess m /\
    (forall c e, In c cs -> effective_sample_size_1d c = Some e -> m <= e) /\
    (forall e, cur = Some e -> m <= e) /\
    (cur = Some m \/ exists c, In c cs /\ effective_sample_size_1d c = Some m).
Proof.
  induction cs as [|c cs IH]; intros H cur N; cbn [ess_columns].
  - destruct cur as [e|]; [|now contradiction N]. exists e. repeat split; try easy; [intros e' [= <-]; lra|now left].
  - destruct (H c (or_introl eq_refl)) as [L NC]. destruct (Nat.eqb_spec (length c) 1); [lia|].
    destruct (ess_pos c L NC) as [e [E P]]. rewrite E.
    destruct (Rlt_dec e 0); [lra|]. destruct (Rlt_dec 0 e); [|lra].
    destruct (IH (fun c' Hc' => H c' (or_intror Hc')) (match cur with None => Some e | Some m => Some (Rmin m e) end))
      as [m [Em [M1 [M2 M3]]]]. { intros _. now destruct cur. }
    exists m. split; [exact Em|]. split; [|split].
    + intros c' e' [<- | Hc'] E'; [|eauto]. rewrite E in E'. injection E' as <-.
      destruct cur as [q|]; [|now apply M2]. eapply Rle_trans; [now apply M2|apply Rmin_r].
    + intros q ->. eapply Rle_trans; [now apply M2|apply Rmin_l].
    + destruct M3 as [M3 | [c' [Hc' E']]].
      * destruct cur as [q|]; injection M3 as <-.
        -- unfold Rmin. destruct (Rle_dec q e); [now left|]. right. exists c. split; [now left|easy].
        -- right. exists c. split; [now left|easy].
      * right. exists c'. split; [now right|easy].
Qed.

(** With at least two samples left and no constant dimension, the result is a single
    number: the smallest of the one-dimensional values. *)
Theorem C42_minimum dim samples burn_in : (0 < dim)%nat -> (2 <= length samples - burn_in)%nat ->
  (forall d, (d < dim)%nat -> nonconstant (column (skipn burn_in samples) d)) ->
  exists m, effective_sample_size dim samples burn_in = Ess m /\ 0 < m /\
    (exists d, (d < dim)%nat /\ effective_sample_size_1d (column (skipn burn_in samples) d) = Some m) /\
    forall d e, (d < dim)%nat -> effective_sample_size_1d (column (skipn burn_in samples) d) = Some e -> m <= e.
Proof.
  intros D L N. unfold effective_sample_size.
  assert (H : forall c, In c (map (column (skipn burn_in samples)) (seq 0 dim)) -> (2 <= length c)%nat /\ nonconstant c).
  { intros c Hc. apply in_map_iff in Hc. destruct Hc as [d [<- Hd]]. apply in_seq in Hd. split; [|apply N; lia].
    unfold column. now rewrite map_length, skipn_length. }
  destruct (columns_spec _ H None) as [m [E [M1 [_ M3]]]]. { destruct dim; [lia|easy]. }
  exists m. split; [exact E|]. destruct M3 as [M3 | [c [Hc Ec]]]; [easy|].
  split; [|split].
  - destruct (H c Hc) as [L' N']. destruct (ess_pos c L' N') as [e [E' P]]. congruence.
  - apply in_map_iff in Hc. destruct Hc as [d [<- Hd]]. apply in_seq in Hd. exists d. split; [lia|easy].
  - intros d e Hd. apply M1. apply in_map_iff. exists d. split; [easy|]. apply in_seq. lia.
Qed.
Print Assumptions C42_minimum.

(** The discarded prefix does not matter. *)
Theorem C42_burn_in dim prefix prefix' rest : 
  effective_sample_size dim (prefix ++ rest) (length prefix) =
  effective_sample_size dim (prefix' ++ rest) (length prefix') /\
  effective_sample_size dim (prefix ++ rest) (length prefix) = effective_sample_size dim rest 0.
Proof.
  unfold effective_sample_size. rewrite !skipn_app, !skipn_all, !Nat.sub_diag. split; reflexivity.
Qed.
Print Assumptions C42_burn_in.

(** Adding a dimension never increases the value. *)
Theorem C42_more_dimensions dim samples burn_in m m' :
  effective_sample_size dim samples burn_in = Ess m ->
  effective_sample_size (S dim) samples burn_in = Ess m' -> m' <= m.
Proof.
  unfold effective_sample_size. replace (seq 0 (S dim)) with (seq 0 dim ++ [dim]%nat) by now rewrite seq_S.
  rewrite map_app. generalize (map (fun d => map (fun r => nth d r 0) (skipn burn_in samples)) (seq 0 dim)) as cs.
  intros cs. generalize (None : option R) as cur. induction cs as [|c cs IH]; intros cur H H'; cbn [app map ess_columns] in *.
  - destruct cur as [e|]; [|easy]. injection H as ->. revert H'. destruct (Nat.eqb _ _); [easy|].
    destruct (effective_sample_size_1d _) as [x|]; [|easy]. destruct (Rlt_dec x 0); [easy|].
    destruct (Rlt_dec 0 x); intros [= <-]; [apply Rmin_l|lra].
  - destruct (Nat.eqb _ _); [easy|]. destruct (effective_sample_size_1d c) as [x|]; [|easy].
    destruct (Rlt_dec x 0); [easy|]. destruct (Rlt_dec 0 x); eauto.
Qed.
Print Assumptions C42_more_dimensions.

(** Edge cases. Discarding everything gives infinity, not zero: with the default
    burn_in = 100 every chain of at most 100 samples is reported as having infinitely
    many effective samples. One sample left is an IndexError; a constant dimension an
    AssertionError. *)
Theorem C42_all_discarded_refuted dim samples burn_in : (length samples <= burn_in)%nat ->
  effective_sample_size dim samples burn_in = EssInf.
Proof.
  intros L. unfold effective_sample_size. rewrite skipn_all2 by easy. cbn [map].
  generalize (seq 0 dim) as l. induction l as [|a l IH]; [easy|]. cbn.
  destruct (Rlt_dec 0 0); [lra|]. exact IH.
Qed.
Print Assumptions C42_all_discarded_refuted.
Theorem C42_errors dim samples burn_in : (0 < dim)%nat ->
  (length samples = S burn_in -> effective_sample_size dim samples burn_in = EssIndexError) /\
  ((2 <= length samples - burn_in)%nat ->
   (exists d, (d < dim)%nat /\ ~ nonconstant (column (skipn burn_in samples) d)) ->
   effective_sample_size dim samples burn_in = EssAssertionError).
Proof.
  intros D. unfold effective_sample_size. split.
  - intros L. destruct dim as [|dim]; [lia|]. cbn [seq map ess_columns].
    rewrite map_length, skipn_length, L. replace (S burn_in - burn_in)%nat with 1%nat by lia. reflexivity.
  - intros L [d [Hd C]].
    assert (H : In d (seq 0 dim)) by (apply in_seq; lia). revert H. generalize (None : option R) as cur.
    generalize (seq 0 dim) as l. induction l as [|a l IH]; intros cur H; [easy|]. cbn [map ess_columns].
    fold (column (skipn burn_in samples) a).
    assert (La : length (column (skipn burn_in samples) a) = (length samples - burn_in)%nat)
      by (unfold column; now rewrite map_length, skipn_length).
    destruct (Nat.eqb_spec (length (column (skipn burn_in samples) a)) 1); [lia|].
    destruct (nonconstant_dec (column (skipn burn_in samples) a)) as [N | N].
    + destruct (ess_pos (column (skipn burn_in samples) a)) as [e [E P]]; [lia|easy|]. rewrite E.
      destruct (Rlt_dec e 0); [lra|]. destruct (Rlt_dec 0 e); [|lra].
      apply IH. destruct H as [-> | H]; [easy|exact H].
    + rewrite ess_constant by (lia || easy). reflexivity.
Qed.
Print Assumptions C42_errors.

Example C42_case : let samples := [[9; 9]; [1; 0]; [2; 5]; [3; 1]] in
  (0 < 2)%nat /\ (2 <= length samples - 1)%nat /\
  forall d, (d < 2)%nat -> nonconstant (column (skipn 1 samples) d).
Proof.
  cbn. split; [lia|]. split; [lia|]. intros [|[|d]] H; [|  |lia].
  - exists 1, 2. cbn. repeat split; auto; lra.
  - exists 0, 5. cbn. repeat split; auto; lra.
Qed.
