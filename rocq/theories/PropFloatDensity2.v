(** C70: more log densities in floating-point arithmetic. *)
From Coq Require Import List Arith Bool Reals ZArith Lra Lia.
From Flocq Require Import Core Relative Plus_error.
From Verif Require Import ModelExt ModelSpecial ModelNum ModelFloat ModelFloatSample ModelFloatDensity2 SpecDist SpecFloat SpecFloatDensity2 ProofFloat ProofFloatSample ProofFloatDensity ProofFloatTune ProofFloatFlow ProofFloatDensity2 PropFloatSample ProofGammaFn.
Import ListNotations.
Local Open Scope R_scope.

Section Statements.
Variables prec top : Z.
Variables liblog liblgamma libsoftplus lgamma : R -> R.
Hypothesis A : ample prec top.
Hypothesis P6 : (6 <= prec)%Z.
Hypothesis FL : faithful_log prec top liblog.
Hypothesis FG : accurate_lgamma prec top liblgamma lgamma.
Hypothesis FS : accurate_softplus prec top libsoftplus.
Let W : wide prec top := proj1 A.
Notation u := (unit_roundoff prec).
Notation b e := (bpow radix2 e).
Notation near := (nearest prec top).
Notation float := (is_float prec top).

Lemma cast_count n : (Z.of_nat n < 2 ^ prec)%Z -> fcast prec top (Z.of_nat n) = Fi (INR n) /\ float (INR n) /\ float (INR n + 1) /\ fadd prec top (Fi (INR n)) (Fi 1) = Fi (INR n + 1).
Proof.
  intros H. rewrite INR_IZR_INZ. assert (F : float (IZR (Z.of_nat n))) by (apply (float_count prec top A); lia). assert (F1 : float (IZR (Z.of_nat n) + 1)) by (rewrite <- plus_IZR; apply (float_count prec top A); lia).
  split; [now apply (rounded_float prec top)|]. split; [exact F|]. split; [exact F1|]. unfold fadd. cbn [eadd]. now apply (rounded_float prec top).
Qed.
Lemma finish c c' M x a : tracks prec top c M x a -> c <= c' -> exists v, a = Fi v /\ float v /\ Rabs (v - x) <= c' * u * M.
Proof.
  intros (v & E & F & _ & M1 & D) C. exists v. split; [exact E|]. split; [exact F|]. eapply Rle_trans; [exact D|]. apply Rmult_le_compat_r; [lra|]. apply Rmult_le_compat_r; [left; apply u_pos|exact C].
Qed.
Lemma size_1 x : 1 <= size x.
Proof. unfold size. pose proof (Rabs_pos x). lra. Qed.
Lemma log_size_1 x : 1 <= log_size x.
Proof. apply size_1. Qed.
Lemma ln_fact n : lgamma_factorial lgamma -> lgamma (INR n + 1) = ln (INR (fact n)).
Proof. intros H. apply H. Qed.

(** ** Poisson: counts below 2 ^ prec. The error is relative to the largest of the terms that
    cancel, not to their sum. *)
Theorem C70_poisson rate n : lgamma_factorial lgamma -> float rate -> 0 < rate -> (Z.of_nat n < 2 ^ prec)%Z ->
  let S := 1 + INR n * log_size rate + size rate + size (ln (INR (fact n))) in
  S <= b (top - 2) ->
  exists v, poisson_log_p prec top liblog liblgamma (Fi rate) (Z.of_nat n) = Fi v /\ float v /\
    Rabs (v - ln (poisson_pmf rate n)) <= 6 * u * S.
Proof.
  intros LG Fr Pr Hn S HS. destruct (cast_count n Hn) as (E1 & Fn & Fn1 & E2). unfold poisson_log_p. rewrite E1, E2. pose proof (pos_INR n) as Pn. pose proof (log_size_1 rate). pose proof (size_1 rate). pose proof (size_1 (ln (INR (fact n)))).
  assert (0 <= INR n * log_size rate) by (apply Rmult_le_pos; lra). pose proof (tracks_log prec top A liblog FL rate Fr Pr) as T1.
  assert (T2 : tracks prec top (2 + 4 / 3) (1 + INR n * log_size rate) (INR n * ln rate) (fmul prec top (Fi (INR n)) (felog top liblog (Fi rate)))).
  { pose proof (Rabs_pos_eq _ Pn) as EA. rewrite <- EA at 1. apply (tracks_mul prec top A P6); [exact T1|lra|rewrite EA; unfold S in HS; lra]. }
  pose proof (tracks_exact prec top rate Fr) as T3.
  pose proof (tracks_sub prec top A P6 _ _ (10 / 3) _ _ _ _ _ _ T2 T3 ltac:(lra) ltac:(lra) ltac:(lra) ltac:(unfold S in HS; lra)) as T4.
  pose proof (tracks_lgamma prec top P6 liblgamma lgamma FG (INR n + 1) Fn1 ltac:(lra)) as T5. rewrite (LG n) in T5. specialize (T5 ltac:(unfold S in HS; lra)).
  pose proof (tracks_sub prec top A P6 _ _ (14 / 3) _ _ _ _ _ _ T4 T5 ltac:(lra) ltac:(lra) ltac:(lra) HS) as T6.
  replace (ln (poisson_pmf rate n)) with (INR n * ln rate - rate - ln (INR (fact n))); [apply (finish _ 6 _ _ _ T6); lra|].
  unfold poisson_pmf, Rdiv. pose proof (lt_0_INR _ (lt_O_fact n)) as Pf. assert (0 < rate ^ n) by now apply pow_lt. assert (0 < / INR (fact n)) by now apply Rinv_0_lt_compat.
  rewrite !ln_mult, ln_exp, ln_Rinv, ln_pow by (try apply exp_pos; try apply Rmult_lt_0_compat; assumption). ring.
Qed.

(** ** Binomial. *)
Theorem C70_binomial logits n k : lgamma_factorial lgamma -> float logits -> (Z.of_nat n < 2 ^ prec)%Z -> (k <= n)%nat ->
  2 + Rabs logits <= b (top - 2) ->
  let S := size (ln (INR (fact n))) + size (ln (INR (fact (n - k)))) + size (ln (INR (fact k))) + size (INR k * logits) + (1 + INR n * (2 + Rabs logits)) in
  S <= b (top - 2) ->
  exists v, binomial_log_p prec top liblgamma libsoftplus (Fi logits) (Z.of_nat n) (Z.of_nat k) = Fi v /\ float v /\
    Rabs (v - ln (binomial_pmf n (/ (1 + exp (- logits))) k)) <= 8 * u * S.
Proof.
  intros LG Fl Hn Hk HL S HS. destruct (cast_count n Hn) as (E1 & Fn & Fn1 & E2). destruct (cast_count k ltac:(lia)) as (E3 & Fk & Fk1 & E4). destruct (cast_count (n - k) ltac:(lia)) as (_ & Fd & Fd1 & E6).
  unfold binomial_log_p. rewrite E1, E3, E2, E4. assert (E5 : fsub prec top (Fi (INR n)) (Fi (INR k)) = Fi (INR (n - k))). { unfold fsub, esub. cbn [eneg eadd]. change (INR n + - INR k) with (INR n - INR k). rewrite <- minus_INR by exact Hk. now apply (rounded_float prec top). }
  rewrite E5, E6. pose proof (pos_INR n) as Pn. pose proof (pos_INR k) as Pk. pose proof (pos_INR (n - k)) as Pd. pose proof (size_1 (ln (INR (fact n)))). pose proof (size_1 (ln (INR (fact k)))). pose proof (size_1 (ln (INR (fact (n - k))))). pose proof (size_1 (INR k * logits)).
  pose proof (Rabs_pos logits). assert (0 <= INR n * (2 + Rabs logits)) by (apply Rmult_le_pos; lra).
  pose proof (tracks_lgamma prec top P6 liblgamma lgamma FG (INR n + 1) Fn1 ltac:(lra)) as T1. rewrite (LG n) in T1. specialize (T1 ltac:(unfold S in HS; lra)).
  pose proof (tracks_lgamma prec top P6 liblgamma lgamma FG (INR k + 1) Fk1 ltac:(lra)) as T2. rewrite (LG k) in T2. specialize (T2 ltac:(unfold S in HS; lra)).
  pose proof (tracks_lgamma prec top P6 liblgamma lgamma FG (INR (n - k) + 1) Fd1 ltac:(lra)) as T3. rewrite (LG (n - k)%nat) in T3. specialize (T3 ltac:(unfold S in HS; lra)).
  pose proof (tracks_sub prec top A P6 _ _ 2 _ _ _ _ _ _ T1 T3 ltac:(lra) ltac:(lra) ltac:(lra) ltac:(unfold S in HS; lra)) as T4.
  pose proof (tracks_sub prec top A P6 _ _ (10 / 3) _ _ _ _ _ _ T4 T2 ltac:(lra) ltac:(lra) ltac:(lra) ltac:(unfold S in HS; lra)) as T5.
  pose proof (tracks_product prec top A P6 (INR k) logits ltac:(unfold S in HS; lra)) as T6.
  pose proof (tracks_add prec top A P6 _ _ (14 / 3) _ _ _ _ _ _ T5 T6 ltac:(lra) ltac:(lra) ltac:(lra) ltac:(unfold S in HS; lra)) as T7.
  pose proof (tracks_opp prec top _ _ _ _ (tracks_softplus_exact prec top P6 libsoftplus FS logits Fl HL)) as T8.
  assert (T9 : tracks prec top (2 + 4 / 3) (1 + INR n * (2 + Rabs logits)) (INR n * - ln (1 + exp logits)) (fmul prec top (Fi (INR n)) (eneg (fsoftplus top libsoftplus (Fi logits))))).
  { pose proof (Rabs_pos_eq _ Pn) as EA. rewrite <- EA at 1. apply (tracks_mul prec top A P6); [exact T8|lra|rewrite EA; unfold S in HS; lra]. }
  pose proof (tracks_add prec top A P6 _ _ 6 _ _ _ _ _ _ T7 T9 ltac:(lra) ltac:(lra) ltac:(lra) HS) as T10.
  replace (ln (binomial_pmf n (/ (1 + exp (- logits))) k)) with (ln (INR (fact n)) - ln (INR (fact (n - k))) - ln (INR (fact k)) + INR k * logits + INR n * - ln (1 + exp logits)); [apply (finish _ 8 _ _ _ T10); lra|].
  pose proof (lt_0_INR _ (lt_O_fact n)) as Pf1. pose proof (lt_0_INR _ (lt_O_fact k)) as Pf2. pose proof (lt_0_INR _ (lt_O_fact (n - k))) as Pf3. pose proof (exp_pos logits) as Px. pose proof (exp_pos (- logits)) as Px'.
  assert (EX : exp (- logits) = / exp logits) by apply exp_Ropp.
  assert (Q1 : 1 - / (1 + exp (- logits)) = / (1 + exp logits)) by (rewrite EX; field; lra). assert (Q2 : / (1 + exp (- logits)) = exp logits * / (1 + exp logits)) by (rewrite EX; field; lra).
  unfold binomial_pmf. rewrite Q1, Q2. assert (I : 0 < / (1 + exp logits)) by (apply Rinv_0_lt_compat; lra). assert (I2 : 0 < exp logits * / (1 + exp logits)) by now apply Rmult_lt_0_compat.
  assert (I3 : 0 < / (INR (fact k) * INR (fact (n - k)))) by (apply Rinv_0_lt_compat; now apply Rmult_lt_0_compat). unfold Rdiv.
  rewrite !ln_mult, !ln_pow, ln_Rinv, !ln_mult, ln_exp, ln_Rinv by (repeat apply Rmult_lt_0_compat; try apply pow_lt; try assumption; lra). rewrite minus_INR by exact Hk. ring.
Qed.

(** ** Gamma. *)
Theorem C70_gamma alpha beta x : float alpha -> float beta -> float x -> 0 < alpha -> 0 < beta -> 0 < x ->
  let S := 1 + alpha * log_size beta + size (lgamma alpha) + (1 + Rabs (alpha - 1) * log_size x) + size (beta * x) in
  S <= b (top - 2) ->
  exists v, gamma_log_p prec top liblog liblgamma (Fi alpha) (Fi beta) (Fi x) = Fi v /\ float v /\
    Rabs (v - ln (gamma_pdf lgamma alpha beta x)) <= 8 * u * S.
Proof.
  intros Fa Fb Fx Pa Pb Px S HS. unfold gamma_log_p. pose proof (log_size_1 beta). pose proof (log_size_1 x). pose proof (size_1 (lgamma alpha)). pose proof (size_1 (beta * x)).
  assert (0 <= alpha * log_size beta) by (apply Rmult_le_pos; lra). pose proof (Rabs_pos (alpha - 1)) as PA. assert (PP : Rabs (alpha - 1) * 1 <= Rabs (alpha - 1) * log_size x) by (apply Rmult_le_compat_l; lra).
  destruct (relative_sub prec top A alpha 1 Fa (float_1 prec top A)) as (E1 & F1 & D1). { apply Rle_trans with (b (top - 2)); [unfold S in HS; lra|apply bpow_le; lia]. } rewrite E1.
  assert (T1 : tracks prec top (2 + 4 / 3) (1 + alpha * log_size beta) (alpha * ln beta) (fmul prec top (Fi alpha) (felog top liblog (Fi beta)))).
  { pose proof (Rabs_pos_eq alpha ltac:(lra)) as EA. rewrite <- EA at 1. apply (tracks_mul prec top A P6); [now apply tracks_log|lra|rewrite EA; unfold S in HS; lra]. }
  pose proof (tracks_lgamma prec top P6 liblgamma lgamma FG alpha Fa Pa ltac:(unfold S in HS; lra)) as T2.
  pose proof (tracks_sub prec top A P6 _ _ (10 / 3) _ _ _ _ _ _ T1 T2 ltac:(lra) ltac:(lra) ltac:(lra) ltac:(unfold S in HS; lra)) as T3.
  pose proof (tracks_scale prec top A P6 _ _ _ _ _ _ D1 (tracks_log prec top A liblog FL x Fx Px) ltac:(lra) ltac:(unfold S in HS; lra)) as T4.
  pose proof (tracks_add prec top A P6 _ _ (14 / 3) _ _ _ _ _ _ T3 T4 ltac:(lra) ltac:(lra) ltac:(lra) ltac:(unfold S in HS; lra)) as T5.
  pose proof (tracks_product prec top A P6 beta x ltac:(unfold S in HS; lra)) as T6.
  pose proof (tracks_sub prec top A P6 _ _ 6 _ _ _ _ _ _ T5 T6 ltac:(lra) ltac:(lra) ltac:(lra) ltac:(unfold S in HS; lra)) as T7.
  replace (ln (gamma_pdf lgamma alpha beta x)) with (alpha * ln beta - lgamma alpha + (alpha - 1) * ln x - beta * x); [apply (finish _ 8 _ _ _ T7); lra|].
  unfold gamma_pdf, Rdiv, Rpower. rewrite !ln_mult, ln_Rinv, !ln_exp by (repeat apply Rmult_lt_0_compat; try apply Rinv_0_lt_compat; apply exp_pos). ring.
Qed.

(** ** InverseGamma. *)
Theorem C70_inverse_gamma alpha beta x : float alpha -> float beta -> float x -> 0 < alpha -> 0 < beta -> 0 < x ->
  let S := 1 + alpha * log_size beta + size (lgamma alpha) + (1 + Rabs (alpha + 1) * log_size x) + size (beta / x) in
  S <= b (top - 2) ->
  exists v, inverse_gamma_log_p prec top liblog liblgamma (Fi alpha) (Fi beta) (Fi x) = Fi v /\ float v /\
    Rabs (v - ln (inverse_gamma_pdf lgamma alpha beta x)) <= 8 * u * S.
Proof.
  intros Fa Fb Fx Pa Pb Px S HS. unfold inverse_gamma_log_p. pose proof (log_size_1 beta). pose proof (log_size_1 x). pose proof (size_1 (lgamma alpha)). pose proof (size_1 (beta / x)).
  assert (0 <= alpha * log_size beta) by (apply Rmult_le_pos; lra). pose proof (Rabs_pos (alpha + 1)) as PA. assert (PP : Rabs (alpha + 1) * 1 <= Rabs (alpha + 1) * log_size x) by (apply Rmult_le_compat_l; lra).
  destruct (relative_add prec top A alpha 1 Fa (float_1 prec top A)) as (E1 & F1 & D1). { apply Rle_trans with (b (top - 2)); [unfold S in HS; lra|apply bpow_le; lia]. } rewrite E1.
  assert (T1 : tracks prec top (2 + 4 / 3) (1 + alpha * log_size beta) (alpha * ln beta) (fmul prec top (Fi alpha) (felog top liblog (Fi beta)))).
  { pose proof (Rabs_pos_eq alpha ltac:(lra)) as EA. rewrite <- EA at 1. apply (tracks_mul prec top A P6); [now apply tracks_log|lra|rewrite EA; unfold S in HS; lra]. }
  pose proof (tracks_lgamma prec top P6 liblgamma lgamma FG alpha Fa Pa ltac:(unfold S in HS; lra)) as T2.
  pose proof (tracks_sub prec top A P6 _ _ (10 / 3) _ _ _ _ _ _ T1 T2 ltac:(lra) ltac:(lra) ltac:(lra) ltac:(unfold S in HS; lra)) as T3.
  pose proof (tracks_scale prec top A P6 _ _ _ _ _ _ D1 (tracks_log prec top A liblog FL x Fx Px) ltac:(lra) ltac:(unfold S in HS; lra)) as T4.
  pose proof (tracks_sub prec top A P6 _ _ (14 / 3) _ _ _ _ _ _ T3 T4 ltac:(lra) ltac:(lra) ltac:(lra) ltac:(unfold S in HS; lra)) as T5.
  pose proof (tracks_quotient prec top A P6 beta x ltac:(lra) ltac:(unfold S in HS; lra)) as T6.
  pose proof (tracks_sub prec top A P6 _ _ 6 _ _ _ _ _ _ T5 T6 ltac:(lra) ltac:(lra) ltac:(lra) ltac:(unfold S in HS; lra)) as T7.
  replace (ln (inverse_gamma_pdf lgamma alpha beta x)) with (alpha * ln beta - lgamma alpha - (alpha + 1) * ln x - beta / x); [apply (finish _ 8 _ _ _ T7); lra|].
  unfold inverse_gamma_pdf, Rdiv, Rpower. rewrite !ln_mult, ln_Rinv, !ln_exp by (repeat apply Rmult_lt_0_compat; try apply Rinv_0_lt_compat; apply exp_pos). ring.
Qed.

(** The complement of a float of (0, 1). *)
Lemma complement x : float x -> 0 < x < 1 -> exists y, fsub prec top (Fi 1) (Fi x) = Fi y /\ float y /\ 0 < y /\ Rabs (y - (1 - x)) <= u * (1 - x).
Proof.
  intros Fx (X0 & X1). destruct (relative_sub prec top A 1 x (float_1 prec top A) Fx) as (E & F & D). { rewrite Rabs_pos_eq by lra. apply Rle_trans with 1; [lra|]. apply (bpow_le radix2 0). pose proof (top_big prec top A). lia. }
  rewrite (Rabs_pos_eq (1 - x)) in D by lra. exists (near (1 - x)). split; [exact E|]. split; [exact F|]. split; [|exact D]. apply Rabs_le_inv in D. pose proof (u_pos prec). pose proof (u_64 prec P6).
  assert (u * (1 - x) <= 1 / 64 * (1 - x)) by (apply Rmult_le_compat_r; lra). lra.
Qed.

(** ** Beta, inside the interval. [K] is how far log Gamma moves, in units of roundoff, when
    alpha + beta is rounded: 0 if alpha + beta is a float. *)
Theorem C70_beta alpha beta x K : float alpha -> float beta -> float x -> 0 < alpha -> 0 < beta -> 0 < x < 1 ->
  let s := near (alpha + beta) in
  let S := 1 + Rabs (alpha - 1) * log_size x + (1 + Rabs (beta - 1) * log_size (1 - x)) + (size (lgamma alpha) + size (lgamma beta) + size (lgamma s)) in
  Rabs (lgamma s - lgamma (alpha + beta)) <= K * u -> alpha + beta <= b (top - 1) -> S <= b (top - 2) ->
  exists v, beta_log_p prec top liblog liblgamma (Fi alpha) (Fi beta) (Fi x) = Fi v /\ float v /\
    Rabs (v - ln (beta_pdf lgamma alpha beta x)) <= (10 * S + K) * u.
Proof.
  intros Fa Fb Fx Pa Pb Px s S HK HAB HS. unfold beta_log_p. pose proof (log_size_1 (1 - x)). pose proof (log_size_1 x). pose proof (size_1 (lgamma alpha)). pose proof (size_1 (lgamma beta)). pose proof (size_1 (lgamma s)).
  pose proof (Rabs_pos (alpha - 1)) as PA. pose proof (Rabs_pos (beta - 1)) as PB.
  assert (PP : Rabs (alpha - 1) * 1 <= Rabs (alpha - 1) * log_size x) by (apply Rmult_le_compat_l; lra). assert (PQ : Rabs (beta - 1) * 1 <= Rabs (beta - 1) * log_size (1 - x)) by (apply Rmult_le_compat_l; lra).
  destruct (relative_sub prec top A alpha 1 Fa (float_1 prec top A)) as (E1 & F1 & D1). { apply Rle_trans with (b (top - 2)); [unfold S in HS; lra|apply bpow_le; lia]. } rewrite E1.
  destruct (relative_sub prec top A beta 1 Fb (float_1 prec top A)) as (E2 & F2 & D2). { apply Rle_trans with (b (top - 2)); [unfold S in HS; lra|apply bpow_le; lia]. } rewrite E2.
  destruct (relative_add prec top A alpha beta Fa Fb) as (E3 & F3 & D3). { rewrite Rabs_pos_eq; lra. } rewrite E3. fold s in E3, F3, D3 |- *. 
  assert (Ps : 0 < s). { rewrite (Rabs_pos_eq (alpha + beta)) in D3 by lra. apply Rabs_le_inv in D3. pose proof (u_pos prec). pose proof (u_64 prec P6). assert (u * (alpha + beta) <= 1 / 64 * (alpha + beta)) by (apply Rmult_le_compat_r; lra). lra. }
  destruct (complement x Fx Px) as (y & E4 & F4 & P4 & D4). rewrite E4.
  pose proof (tracks_scale prec top A P6 _ _ _ _ _ _ D1 (tracks_log prec top A liblog FL x Fx (proj1 Px)) ltac:(lra) ltac:(unfold S in HS; lra)) as T1.
  pose proof (tracks_scale prec top A P6 _ _ _ _ _ _ D2 (tracks_log_near prec top A P6 liblog FL (1 - x) y F4 P4 ltac:(lra) D4) ltac:(lra) ltac:(unfold S in HS; lra)) as T2.
  pose proof (tracks_add prec top A P6 _ _ (20 / 3) _ _ _ _ _ _ T1 T2 ltac:(lra) ltac:(lra) ltac:(lra) ltac:(unfold S in HS; lra)) as T3.
  pose proof (tracks_lgamma prec top P6 liblgamma lgamma FG alpha Fa Pa ltac:(unfold S in HS; lra)) as T4.
  pose proof (tracks_lgamma prec top P6 liblgamma lgamma FG beta Fb Pb ltac:(unfold S in HS; lra)) as T5.
  pose proof (tracks_lgamma prec top P6 liblgamma lgamma FG s F3 Ps ltac:(unfold S in HS; lra)) as T6.
  pose proof (tracks_add prec top A P6 _ _ 2 _ _ _ _ _ _ T4 T5 ltac:(lra) ltac:(lra) ltac:(lra) ltac:(unfold S in HS; lra)) as T7.
  pose proof (tracks_sub prec top A P6 _ _ (10 / 3) _ _ _ _ _ _ T7 T6 ltac:(lra) ltac:(lra) ltac:(lra) ltac:(unfold S in HS; lra)) as T8.
  pose proof (tracks_sub prec top A P6 _ _ 8 _ _ _ _ _ _ T3 T8 ltac:(lra) ltac:(lra) ltac:(lra) ltac:(unfold S in HS; lra)) as T9.
  destruct (finish _ 10 _ _ _ T9 ltac:(lra)) as (v & E & F & D). exists v. split; [exact E|]. split; [exact F|].
  replace (ln (beta_pdf lgamma alpha beta x)) with ((alpha - 1) * ln x + (beta - 1) * ln (1 - x) - (lgamma alpha + lgamma beta - lgamma (alpha + beta))).
  - match type of D with Rabs (v - ?e) <= _ => match goal with |- Rabs (v - ?f) <= _ => replace (v - f) with ((v - e) + (lgamma s - lgamma (alpha + beta))) by ring end end.
    eapply Rle_trans; [apply Rabs_triang|]. fold S in D. lra.
  - unfold beta_pdf, Rdiv, Rpower. rewrite !ln_mult, ln_Rinv, ln_mult, !ln_exp by (repeat apply Rmult_lt_0_compat; try apply Rinv_0_lt_compat; repeat apply Rmult_lt_0_compat; apply exp_pos). ring.
Qed.

(** ** BinConcrete, inside the interval. *)
Theorem C70_bin_concrete temperature logits x : float temperature -> float logits -> float x -> 0 < temperature -> 0 < x < 1 ->
  let L := log_size x + log_size (1 - x) in
  let M := 1 + temperature * L + size logits in
  let S := log_size temperature + L + 3 * M + 5 in
  S <= b (top - 2) ->
  exists v, bin_concrete_log_p prec top liblog libsoftplus (Fi temperature) (Fi logits) (Fi x) = Fi v /\ float v /\
    Rabs (v - ln (bin_concrete_pdf temperature logits x)) <= 14 * u * S.
Proof.
  intros Ft Fl Fx Pt Px L M S HS. unfold bin_concrete_log_p. pose proof (log_size_1 (1 - x)). pose proof (log_size_1 x). pose proof (log_size_1 temperature). pose proof (size_1 logits).
  assert (PL : 0 <= temperature * L) by (apply Rmult_le_pos; unfold L; lra). destruct (complement x Fx Px) as (y & E4 & F4 & P4 & D4). rewrite E4.
  assert (T' : b (top - 2) = 2 * b (top - 3)) by (replace (top - 2)%Z with (top - 3 + 1)%Z by lia; rewrite bpow_plus; change (bpow radix2 1) with 2; ring).
  pose proof (tracks_log prec top A liblog FL x Fx (proj1 Px)) as T1. pose proof (tracks_log_near prec top A P6 liblog FL (1 - x) y F4 P4 ltac:(lra) D4) as T2. pose proof (tracks_log prec top A liblog FL temperature Ft Pt) as T3.
  pose proof (tracks_sub prec top A P6 _ _ 4 _ _ _ _ _ _ T1 T2 ltac:(lra) ltac:(lra) ltac:(lra) ltac:(unfold S, M, L in HS, PL; lra)) as T4. fold L in T4.
  assert (T5 : tracks prec top (4 + 4 / 3 + 4 / 3) (1 + temperature * L) (temperature * (ln x - ln (1 - x))) (fmul prec top (Fi temperature) (fsub prec top (felog top liblog (Fi x)) (felog top liblog (Fi y))))).
  { pose proof (Rabs_pos_eq temperature ltac:(lra)) as EA. rewrite <- EA at 1. apply (tracks_mul prec top A P6); [exact T4|lra|rewrite EA; unfold S, M, L in HS, PL |- *; lra]. }
  pose proof (tracks_sub prec top A P6 _ _ (20 / 3) _ _ _ _ _ _ T5 (tracks_exact prec top logits Fl) ltac:(lra) ltac:(lra) ltac:(lra) ltac:(unfold S, M, L in HS, PL |- *; lra)) as T6. fold M in T6.
  pose proof (tracks_softplus prec top P6 libsoftplus FS _ _ _ _ T6 ltac:(lra) ltac:(unfold S, M, L in HS, PL |- *; lra)) as T7.
  pose proof (tracks_mul prec top A P6 _ _ 2 _ _ T7 ltac:(lra)) as T8. rewrite (Rabs_pos_eq 2) in T8 by lra. specialize (T8 ltac:(unfold S, M, L in HS, PL |- *; lra)).
  pose proof (tracks_sub prec top A P6 _ _ 2 _ _ _ _ _ _ T3 T1 ltac:(lra) ltac:(lra) ltac:(lra) ltac:(unfold S, M, L in HS, PL; lra)) as T9.
  pose proof (tracks_sub prec top A P6 _ _ 4 _ _ _ _ _ _ T9 T2 ltac:(lra) ltac:(lra) ltac:(lra) ltac:(unfold S, M, L in HS, PL; lra)) as T10.
  pose proof (tracks_add prec top A P6 _ _ 8 _ _ _ _ _ _ T10 T6 ltac:(lra) ltac:(lra) ltac:(lra) ltac:(unfold S, M, L in HS, PL |- *; lra)) as T11.
  pose proof (tracks_sub prec top A P6 _ _ 12 _ _ _ _ _ _ T11 T8 ltac:(lra) ltac:(lra) ltac:(lra) ltac:(unfold S, M, L in HS, PL |- *; lra)) as T12.
  set (temp := temperature * (ln x - ln (1 - x)) - logits) in *.
  replace (ln (bin_concrete_pdf temperature logits x)) with (ln temperature - ln x - ln (1 - x) + temp - 2 * ln (1 + exp temp)).
  - destruct (finish _ 14 _ _ _ T12 ltac:(lra)) as (v & E & F & D). exists v. split; [exact E|]. split; [exact F|]. replace S with (log_size temperature + log_size x + log_size (1 - x) + M + (1 + 2 * (2 + M))); [exact D|unfold S, L; ring].
  - unfold bin_concrete_pdf. pose proof (exp_pos temp) as P. pose proof (exp_pos logits) as P'.
    assert (Q : exp logits * Rpower x (- temperature) + Rpower (1 - x) (- temperature) = exp logits * Rpower x (- temperature) * (1 + exp temp)).
    { rewrite Rmult_plus_distr_l, Rmult_1_r. f_equal. unfold Rpower. rewrite <- !exp_plus. f_equal. unfold temp. ring. }
    rewrite Q. unfold Rdiv, Rpower. assert (P1 : 0 < exp logits * exp (- temperature * ln x) * (1 + exp temp)) by (repeat apply Rmult_lt_0_compat; try apply exp_pos; lra).
    rewrite !ln_mult, ln_Rinv, ln_pow, !ln_mult, !ln_exp by (repeat apply Rmult_lt_0_compat; try apply Rinv_0_lt_compat; try apply pow_lt; try exact P1; try apply exp_pos; try lra; repeat apply Rmult_lt_0_compat; try apply exp_pos; lra).
    cbn [INR]. unfold temp. ring.
Qed.
End Statements.

(** At the ends of the interval the BinConcrete log density is NaN, for every temperature
    and logits. *)
Theorem C70_bin_concrete_boundary prec top liblog libsoftplus temperature logits : ample prec top -> faithful_log prec top liblog ->
  is_float prec top temperature -> 0 < temperature ->
  bin_concrete_log_p prec top liblog libsoftplus (Fi temperature) (Fi logits) (Fi 0) = NaN /\
  bin_concrete_log_p prec top liblog libsoftplus (Fi temperature) (Fi logits) (Fi 1) = NaN.
Proof.
  intros A FL Ft Pt. pose proof (proj1 A) as W. destruct (log_any prec top A liblog temperature FL Ft Pt) as (E & _). pose proof (float_1 prec top A) as F1. destruct (log_any prec top A liblog 1 FL F1 ltac:(lra)) as (E1 & _).
  assert (L0 : felog top liblog (Fi 0) = MInf) by (cbn; destruct (Rlt_dec 0 0); [lra|]; destruct (Req_EM_T 0 0); [reflexivity|lra]).
  assert (S1 : fsub prec top (Fi 1) (Fi 0) = Fi 1) by (unfold fsub, esub; cbn [eneg eadd]; replace (1 + - 0) with 1 by ring; now apply rounded_float).
  assert (S0 : fsub prec top (Fi 1) (Fi 1) = Fi 0) by (unfold fsub, esub; cbn [eneg eadd]; replace (1 + - (1)) with 0 by ring; apply rounded_float, float_0).
  unfold bin_concrete_log_p. rewrite S1, S0, L0, E, E1. generalize (liblog temperature) as t. generalize (liblog 1) as y. intros y t. unfold fsub, fadd, fmul, esub. cbn [eneg eadd rounded emul].
  destruct (Rlt_dec 0 temperature); [|lra]. cbn [eneg eadd rounded emul fsoftplus]. split; [reflexivity|]. destruct (Rlt_dec 0 2); [|lra].
  now destruct (overflow top (nearest prec top (t + - y))) as [q| | |].
Qed.

Section Float32.
Let A : ample 24 128. Proof. unfold ample, wide. repeat split; try lia; cbn; reflexivity || discriminate. Qed.
Let W : wide 24 128 := proj1 A.
Notation near := (nearest 24 128).
Notation float := (is_float 24 128).
Notation b e := (bpow radix2 e).

(** The most likely count of a Poisson distribution with a rate of 2 ^ 30 has probability
    between exp(-31) and exp(-1). Its log probability comes out as a multiple of 2048, so the
    probability is 1, infinite, or at most the smallest positive float. *)
Theorem C70_poisson_refuted liblog liblgamma libexp lgamma n :
  faithful_log 24 128 liblog -> accurate_lgamma 24 128 liblgamma lgamma -> faithful_exp 24 128 libexp -> lgamma_factorial lgamma -> INR n = b 30 ->
  let l := poisson_log_p 24 128 liblog liblgamma (Fi (b 30)) (Z.of_nat n) in
  -31 <= ln (poisson_pmf (b 30) n) <= -1 /\
  (exists z, l = Fi (IZR z * 2048)) /\
  (of_log 128 libexp l = Fi 1 \/ of_log 128 libexp l = PInf \/ exists p, of_log 128 libexp l = Fi p /\ p <= b (-149)).
Proof.
  intros FL FG FE LG N l. pose proof ln_2_range as L2. assert (EN : b 30 = 1073741824) by (cbn; lra). pose proof (u_pos 24) as U.
  assert (N1 : (1 <= n)%nat) by (apply INR_le; rewrite N, EN; cbn [INR]; lra). pose proof (stirling n N1) as ST. rewrite N in ST. set (L := ln (b 30)) in *.
  assert (HL : 18 <= L <= 30) by (unfold L; rewrite ln_bpow; lra). assert (Pb : 0 < b 30) by apply bpow_gt_0.
  assert (Fb : float (b 30)) by (split; [apply (fmt_bpow 24 128 W); lia|rewrite Rabs_pos_eq by lra; apply bpow_lt; lia]).
  assert (MM : exists z, l = Fi (IZR z * 2048)).
  { unfold l, poisson_log_p. assert (EC : fcast 24 128 (Z.of_nat n) = Fi (b 30)) by (unfold fcast; rewrite <- INR_IZR_INZ, N; now apply rounded_float). rewrite EC.
    destruct (log_any 24 128 A liblog (b 30) FL Fb Pb) as (E1 & F1 & B1 & D1). rewrite E1. fold L in D1. set (x := liblog (b 30)) in *. rewrite (Rabs_pos_eq L) in D1 by lra.
    assert (u24 : unit_roundoff 24 = / 16777216) by (unfold unit_roundoff; cbn; lra). rewrite u24 in D1. apply Rabs_le_inv in D1. assert (X : 17 + 1 / 2 <= x <= 31) by lra.
    destruct (coarse 24 128 x 4 F1) as (z1 & Z1); [rewrite Rabs_pos_eq by lra; cbn; lra|]. change (4 + 1 - 24)%Z with (-19)%Z in Z1.
    assert (b19 : b (-19) = / 524288) by (cbn; lra). rewrite b19 in Z1. assert (R1 : IZR 9175040 <= IZR z1 <= IZR 16252928) by lra. destruct R1 as (R1 & R1'). apply le_IZR in R1, R1'.
    assert (G : forall z, (Z.abs z <= 2 ^ 24)%Z -> rounded 24 128 (Fi (IZR z * 2048)) = Fi (IZR z * 2048)).
    { intros z Hz. apply rounded_float. split; [change 2048 with (b 11); apply (fmt_grid 24 128 W); [exact Hz|lia]|]. rewrite Rabs_mult, <- abs_IZR, (Rabs_pos_eq 2048) by lra. apply Rle_lt_trans with (IZR (2 ^ 24) * 2048); [apply Rmult_le_compat_r; [lra|now apply IZR_le]|].
      replace (IZR (2 ^ 24) * 2048) with (b 35) by (cbn; lra). apply bpow_lt. lia. }
    assert (E2 : fmul 24 128 (Fi (b 30)) (Fi x) = Fi (IZR z1 * 2048)). { unfold fmul. cbn [emul]. rewrite EN, Z1. replace (1073741824 * (IZR z1 * / 524288)) with (IZR z1 * 2048) by lra. apply G. lia. }
    assert (E3 : fsub 24 128 (Fi (IZR z1 * 2048)) (Fi (b 30)) = Fi (IZR (z1 - 524288) * 2048)). { unfold fsub, esub. cbn [eneg eadd]. rewrite EN, <- G by lia. f_equal. f_equal. rewrite minus_IZR. lra. }
    assert (E4 : fadd 24 128 (Fi (b 30)) (Fi 1) = Fi (b 30)).
    { unfold fadd. cbn [eadd rounded]. assert (NR : near (b 30 + 1) = b 30).
      { apply Rle_antisym; [|apply near_ge_fmt; [exact W|apply Fb|lra]]. pose proof (prec_pos 24 128 W). pose proof (fexpo_valid 24 128 W). apply round_N_le_midp; [exact _|apply Fb|]. rewrite succ_eq_pos by lra. rewrite ulp_bpow. replace (fexpo 24 128 (30 + 1)) with 7%Z by reflexivity. change (b 7) with 128. lra. }
      rewrite NR. apply overflow_small. apply Fb. }
    rewrite E2, E3, E4. destruct (FG (b 30) Fb Pb) as (F5 & D5). destruct n as [|m]; [lia|]. assert (EM : INR m + 1 = b 30) by (rewrite <- N, S_INR; reflexivity). rewrite <- EM, (LG m), EM in D5.
    assert (FM : ln (INR (fact (S m))) = L + ln (INR (fact m))). { change (fact (S m)) with (S m * fact m)%nat. rewrite mult_INR, ln_mult by (apply lt_0_INR; try apply lt_O_fact; lia). rewrite N. reflexivity. }
    rewrite FM, EN in ST. set (Gm := ln (INR (fact m))) in *. assert (HG : 18253610000 <= Gm <= 31138512897) by lra. rewrite (Rabs_pos_eq Gm) in D5 by lra. rewrite u24 in D5. apply Rabs_le_inv in D5. set (y := liblgamma (b 30)) in *.
    assert (Y : 18253000000 <= y <= 31139000000) by lra. destruct (coarse 24 128 y 34 F5) as (z2 & Z2); [rewrite Rabs_pos_eq by lra; cbn; lra|]. change (34 + 1 - 24)%Z with 11%Z in Z2. change (b 11) with 2048 in Z2.
    assert (R2 : IZR 8912500 <= IZR z2 <= IZR 15204600) by lra. destruct R2 as (R2 & R2'). apply le_IZR in R2, R2'.
    assert (E5 : felgamma 128 liblgamma (Fi (b 30)) = Fi (IZR z2 * 2048)). { unfold felgamma. rewrite not_pole by exact Pb. fold y. rewrite <- Z2. apply overflow_small. rewrite Rabs_pos_eq by lra. apply Rle_lt_trans with (b 35); [cbn; lra|apply bpow_lt; lia]. }
    rewrite E5. exists (z1 - 524288 - z2)%Z. unfold fsub, esub. cbn [eneg eadd]. rewrite <- G by lia. f_equal. f_equal. rewrite !minus_IZR. ring. }
  split; [|split; [exact MM|]].
  - unfold poisson_pmf, Rdiv. pose proof (lt_0_INR _ (lt_O_fact n)) as Pf. assert (0 < b 30 ^ n) by now apply pow_lt. assert (0 < / INR (fact n)) by now apply Rinv_0_lt_compat.
    pose proof (exp_pos (- b 30)). rewrite ln_mult by (try apply Rmult_lt_0_compat; assumption). rewrite ln_mult, ln_exp, ln_Rinv, ln_pow by assumption. rewrite N. fold L. lra.
  - destruct MM as (z & Ez). assert (Fz : float (IZR z * 2048)).
    { assert (X : exists v, l = Fi v /\ float v). { unfold l, poisson_log_p, fsub in *. revert Ez. match goal with |- rounded _ _ ?e = _ -> _ => destruct e as [r| | |] end; try discriminate. intros Ez. cbn [rounded] in *. revert Ez. unfold overflow. destruct (Rlt_dec (Rabs (near r)) (b 128)) as [H|H]; [|destruct (Rlt_dec 0 (near r)); discriminate]. intros Ez. exists (near r). split; [reflexivity|]. split; [apply near_fmt, W|exact H]. }
      destruct X as (v & Ev & Fv). rewrite Ez in Ev. injection Ev as <-. exact Fv. }
    rewrite Ez. unfold of_log. destruct (Z.lt_trichotomy z 0) as [H|[H|H]].
    + right. right. assert (Hz : IZR z <= -1) by (apply IZR_le; lia). assert (X : exp (IZR z * 2048) <= b (-149)).
      { rewrite (bpow_exp radix2 (-149)). cbn [radix_val radix2]. apply exp_le. lra. }
      pose proof (faithful_le 24 128 W _ _ _ _ (FE _ Fz) (fmt_bpow 24 128 W (-149) ltac:(lia)) X) as LE. pose proof (faithful_ge 24 128 W _ _ _ _ (FE _ Fz) (fmt_0 24 128) (Rlt_le _ _ (exp_pos _))) as GE.
      exists (libexp (IZR z * 2048)). split; [|exact LE]. cbn [feexp]. apply overflow_small. rewrite Rabs_pos_eq by exact GE. eapply Rle_lt_trans; [exact LE|apply bpow_lt; lia].
    + left. subst z. rewrite Rmult_0_l. cbn [feexp]. assert (F0 : float 0) by (apply float_0). pose proof (FE 0 F0) as F. assert (X : libexp 0 = 1).
      { apply Rle_antisym; [apply (faithful_le 24 128 W _ _ _ _ F)|apply (faithful_ge 24 128 W _ _ _ _ F)]; try apply (fmt_1 24 128 W); rewrite exp_0; lra. }
      rewrite X. apply overflow_small. rewrite Rabs_R1. apply (bpow_lt radix2 0). lia.
    + right. left. apply (exp_top 24 128 A libexp FE); [exact Fz|]. assert (1 <= IZR z) by (apply IZR_le; lia). lra.
Qed.

(** With a temperature of 1 and logits 1024 the log density of every sample is NaN. *)
Theorem C70_own_sample_refuted libsoftplus j : bits 24 j ->
  let sample := bin_concrete_sample 24 128 (fun x => near (ln x)) (fun x => near (/ (1 + exp (- x)))) (Fi 1) (Fi 1024) j in
  bin_concrete_log_p 24 128 (fun x => near (ln x)) libsoftplus (Fi 1) (Fi 1024) sample = NaN.
Proof.
  intros J. destruct (C58_bin_concrete_boundary_refuted (fun x => x) j J) as (-> & _). apply C70_bin_concrete_boundary; [exact A| |apply (float_1 24 128 A)|lra].
  intros x F P. apply round_DN_or_UP; apply valid_rnd_N.
Qed.
End Float32.

Print Assumptions C70_poisson.
Print Assumptions C70_binomial.
Print Assumptions C70_gamma.
Print Assumptions C70_inverse_gamma.
Print Assumptions C70_beta.
Print Assumptions C70_bin_concrete.
Print Assumptions C70_bin_concrete_boundary.
Print Assumptions C70_poisson_refuted.
Print Assumptions C70_own_sample_refuted.

(** Correctly rounded functions are accurate, with the logarithm of the Gamma function. *)
Lemma rounded_accurate prec top g x : ample prec top -> (6 <= prec)%Z -> accurate_at prec top (fun x => nearest prec top (g x)) g x.
Proof.
  intros A P6. split; [apply near_fmt, A|]. pose proof (near_err_half prec top A (g x)) as E. pose proof (eta_64 prec top A P6). pose proof (u_pos prec) as U. pose proof (Rabs_pos (g x)) as P. assert (0 <= unit_roundoff prec * Rabs (g x)) by (apply Rmult_le_pos; lra). lra.
Qed.
Example C70_library prec top : ample prec top -> (6 <= prec)%Z ->
  faithful_log prec top (fun x => nearest prec top (ln x)) /\
  accurate_lgamma prec top (fun x => nearest prec top (log_gamma x)) log_gamma /\
  accurate_softplus prec top (fun x => nearest prec top (ln (1 + exp x))) /\ lgamma_factorial log_gamma.
Proof.
  intros A P6. pose proof (prec_pos prec top (proj1 A)). pose proof (fexpo_valid prec top (proj1 A)). split; [intros x F P; apply round_DN_or_UP; apply valid_rnd_N|].
  split; [intros x F P; now apply rounded_accurate|]. split; [intros x F; now apply rounded_accurate|exact log_gamma_factorial].
Qed.

Lemma log_size_30 x : bpow radix2 (-30) <= x <= bpow radix2 30 -> log_size x <= 31.
Proof.
  intros H. unfold log_size. pose proof ln_2_le. pose proof (bpow_gt_0 radix2 (-30)). assert (Rabs (ln x) <= 30); [|lra]. apply Rabs_le. split.
  - apply Rle_trans with (ln (bpow radix2 (-30))); [rewrite ln_bpow; lra|apply ln_le'; lra].
  - apply Rle_trans with (ln (bpow radix2 30)); [apply ln_le'; lra|rewrite ln_bpow; lra].
Qed.
Example C70_case : let f := is_float 24 128 in let bnd := bpow radix2 (128 - 2) in
  (f (5 / 2) /\ (Z.of_nat 3 < 2 ^ 24)%Z /\ 1 + INR 3 * log_size (5 / 2) + size (5 / 2) + size (ln (INR (fact 3))) <= bnd) /\
  (f 1 /\ f 2 /\ f 3 /\ f (1 / 4) /\
   1 + 2 * log_size 3 + size (log_gamma 2) + (1 + Rabs (2 - 1) * log_size (1 / 4)) + size (3 * (1 / 4)) <= bnd /\
   nearest 24 128 (2 + 1) = 2 + 1 /\
   1 + Rabs (2 - 1) * log_size (1 / 4) + (1 + Rabs (1 - 1) * log_size (1 - 1 / 4)) + (size (log_gamma 2) + size (log_gamma 1) + size (log_gamma (2 + 1))) <= bnd) /\
  (let L := log_size (1 / 4) + log_size (1 - 1 / 4) in let M := 1 + 2 * L + size 1 in log_size 2 + L + 3 * M + 5 <= bnd) /\
  (exists n, INR n = bpow radix2 30).
Proof.
  assert (A : ample 24 128) by (unfold ample, wide; repeat split; try lia; cbn; reflexivity || discriminate). intros f bnd.
  assert (B : 100000 <= bnd) by (unfold bnd; apply Rle_trans with (bpow radix2 17); [cbn; lra|apply bpow_le; lia]).
  assert (G : forall x, 1 / 4 <= x <= 8 -> log_size x <= 31) by (intros x X; apply log_size_30; cbn; lra).
  assert (FZ : forall m e, (Z.abs m <= 2 ^ 24)%Z -> (-24 <= e <= 0)%Z -> f (IZR m * bpow radix2 e)).
  { intros m e M E. split; [apply (fmt_grid 24 128 (proj1 A)); [exact M|lia]|]. rewrite Rabs_mult, <- abs_IZR, (Rabs_pos_eq (bpow radix2 e)) by apply bpow_ge_0. apply Rle_lt_trans with (bpow radix2 24 * bpow radix2 0); [|rewrite <- bpow_plus; apply bpow_lt; lia].
    apply Rmult_le_compat; try apply bpow_ge_0; [apply (IZR_le 0); lia|replace (bpow radix2 24) with (IZR (2 ^ 24)) by reflexivity; now apply IZR_le|apply bpow_le; lia]. }
  pose proof (log_gamma_factorial 0%nat) as G1. pose proof (log_gamma_factorial 1%nat) as G2. pose proof (log_gamma_factorial 2%nat) as G3. cbn [INR fact Nat.mul Nat.add] in G1, G2, G3. rewrite Rplus_0_l in G1. replace (1 + 1) with 2 in G2, G3 by ring. rewrite ln_1 in G1, G2. pose proof ln_2_le as L2.
  pose proof (G (5 / 2) ltac:(lra)). pose proof (G 3 ltac:(lra)). pose proof (G 2 ltac:(lra)). pose proof (G (1 / 4) ltac:(lra)). pose proof (G (1 - 1 / 4) ltac:(lra)).
  assert (S6 : size (ln (INR (fact 3))) <= 7). { unfold size. cbn [INR fact Nat.mul Nat.add]. assert (0 <= ln (1 + 1 + 1 + 1 + 1 + 1)) by (rewrite <- ln_1; apply ln_le'; lra). rewrite Rabs_pos_eq by assumption. pose proof (ln_le_sub (1 + 1 + 1 + 1 + 1 + 1) ltac:(lra)). lra. }
  replace (2 + 1) with 3 in * by ring. replace (2 - 1) with 1 by ring. replace (1 - 1) with 0 by ring. rewrite G1, G2, G3. rewrite Rabs_R0, Rabs_R1. unfold size at 1 3 4 5 6 7. rewrite Rabs_R0, (Rabs_pos_eq (ln 2)), (Rabs_pos_eq (5 / 2)), (Rabs_pos_eq (3 * (1 / 4))) by lra.
  split; [split; [|split]|split; [repeat match goal with |- _ /\ _ => split end|split]].
  - replace (5 / 2) with (IZR 5 * bpow radix2 (-1)) by (cbn; lra). apply FZ; lia.
  - reflexivity.
  - replace (INR 3) with 3 by (cbn; lra). lra.
  - replace 1 with (IZR 1 * bpow radix2 0) by (cbn; lra). apply FZ; lia.
  - replace 2 with (IZR 2 * bpow radix2 0) by (cbn; lra). apply FZ; lia.
  - replace 3 with (IZR 3 * bpow radix2 0) by (cbn; lra). apply FZ; lia.
  - replace (1 / 4) with (IZR 1 * bpow radix2 (-2)) by (cbn; lra). apply FZ; lia.
  - lra.
  - apply near_id. replace 3 with (IZR 3 * bpow radix2 0) by (cbn; lra). apply FZ; lia.
  - lra.
  - cbv zeta. unfold size. rewrite Rabs_R1. lra.
  - exists (Z.to_nat (2 ^ 30)). rewrite INR_IZR_INZ, Z2Nat.id by lia. cbn. lra.
Qed.
Example C70_more_cases : let bnd := bpow radix2 (128 - 2) in
  ((3 <= 3)%nat /\ 2 + Rabs 1 <= bnd /\
   size (ln (INR (fact 3))) + size (ln (INR (fact (3 - 3)))) + size (ln (INR (fact 3))) + size (INR 3 * 1) + (1 + INR 3 * (2 + Rabs 1)) <= bnd) /\
  1 + 2 * log_size 3 + size (log_gamma 2) + (1 + Rabs (2 + 1) * log_size (1 / 4)) + size (3 / (1 / 4)) <= bnd.
Proof.
  intros bnd. assert (B : 100000 <= bnd) by (unfold bnd; apply Rle_trans with (bpow radix2 17); [cbn; lra|apply bpow_le; lia]).
  pose proof (log_size_30 3 ltac:(cbn; lra)). pose proof (log_size_30 (1 / 4) ltac:(cbn; lra)). pose proof (log_gamma_factorial 1%nat) as G2. cbn [INR fact Nat.mul Nat.add] in G2. replace (1 + 1) with 2 in G2 by ring. rewrite ln_1 in G2. rewrite G2.
  assert (S6 : size (ln (INR (fact 3))) <= 7). { unfold size. cbn [INR fact Nat.mul Nat.add]. assert (0 <= ln (1 + 1 + 1 + 1 + 1 + 1)) by (rewrite <- ln_1; apply ln_le'; lra). rewrite Rabs_pos_eq by assumption. pose proof (ln_le_sub (1 + 1 + 1 + 1 + 1 + 1) ltac:(lra)). lra. }
  change (fact (3 - 3)) with 1%nat. change (INR 1) with 1. rewrite ln_1, Rabs_R1. replace (INR 3) with 3 by (cbn; lra). replace (3 / (1 / 4)) with 12 by field. unfold size at 2 4 5 6. rewrite Rabs_R0, (Rabs_pos_eq (2 + 1)), (Rabs_pos_eq (3 * 1)), (Rabs_pos_eq 12) by lra.
  split; [split; [lia|]; split; lra|lra].
Qed.
