(** C67: the planar normalizing flow in floating-point arithmetic. *)
From Coq Require Import List Arith Bool Reals ZArith Lra Lia Permutation.
From Flocq Require Import Core.
From Verif Require Import ModelExt ModelSpecial ModelNum ModelTensor ModelFloat ModelFloatSample ModelDist ModelFlow ModelFloatFlow SpecFloat SpecFloatFlow ProofFlow ProofFloat ProofFloatSample ProofFloatDensity ProofFloatTune ProofFloatFlow.
Import ListNotations.
Local Open Scope R_scope.

Section Accuracy.
Variables prec top : Z.
Hypothesis A : ample prec top.
Notation u := (unit_roundoff prec).
Notation float := (is_float prec top).
Notation b e := (bpow radix2 e).
Variable d : nat.
Variable r : Z.
Hypothesis D1 : (1 <= d)%nat.
Hypothesis R0 : (0 <= r)%Z.
Hypothesis RT : (2 * r + prec + 5 <= top)%Z.
Hypothesis DP : (Z.of_nat d <= 2 ^ prec)%Z.
Variables libexp liblog libtanh : R -> R.
Hypothesis HE : faithful_exp prec top libexp.
Hypothesis HL : faithful_log prec top liblog.
Hypothesis HT : faithful_tanh prec top libtanh.

(** The vector u of a layer, from its variables. *)
Theorem C67_parameters k p om : vector prec top r d (p_w p) -> vector prec top r d (p_aux_u p) -> multiplies k d -> 0 < om <= 1 -> b (- r) <= om -> om <= dot (p_w p) (p_w p) ->
  dot (p_w p) (p_aux_u p) + 1 <= (IZR top - 2) / 2 -> (forall i, (i < d)%nat -> Rabs (nth i (planar_u p) 0) <= b r) -> parameter_error prec d r om <= 1 ->
  exists uu, fplanar_u prec top libexp liblog k (float_params p) = map Fi uu /\ Forall float uu /\ near_vectors d (parameter_error prec d r om) uu (planar_u p).
Proof. intros. eapply params_spec; eassumption. Qed.

(** The samples and log probabilities after any number of layers are finite floats, no
    assertion fails, and both are close to the exact ones. *)
Theorem C67_flow ps z l om c h : let N := length ps in
  0 < om <= 1 -> b (- r) <= om -> 0 < c <= 1 -> (0 <= h)%Z -> INR (N + 1) * b h <= b r -> parameter_error prec d r om <= 1 -> 2 * det_error prec d r om N <= c -> 8 * u * log_prob_size d r c N l <= 1 ->
  (forall k p, In (k, p) ps -> sound_layer prec top d r h om c p /\ multiplies k d) -> vector prec top h d z -> float l ->
  exists z' l' zx lx, fplanar_row prec top libexp liblog libtanh (map (fun q => (fst q, float_params (snd q))) ps) (map Fi z, Fi l) = Some (map Fi z', Fi l') /\
    planar_row (map snd ps) (z, l) = Some (zx, lx) /\ Forall float z' /\ float l' /\
    near_vectors d (sample_error prec d r om N) z' zx /\ Rabs (l' - lx) <= log_prob_error prec d r om c N l.
Proof.
  intros N OM OR C1 H0 HN ES CE UB Hps (Lz & Fz) Fl. rewrite Forall_forall in Fz. replace (N + 1)%nat with (S N) in HN by lia.
  refine (row_spec prec top A d r D1 R0 RT DP libexp liblog libtanh HE HL HT om c l h N OM OR C1 H0 HN ES CE UB ps 0 z z l l eq_refl Hps Lz _ _ _ Fl _ _).
  - apply Forall_forall. intros x I. apply Fz, I.
  - intros i I. change (INR 1) with 1. rewrite Rmult_1_l. apply Fz, nth_In. lia.
  - split; [exact Lz|]. split; [exact Lz|]. intros i I. unfold Rminus. rewrite Rplus_opp_r, Rabs_R0. cbn [INR]. lra.
  - unfold Rminus. rewrite Rplus_opp_r, Rabs_R0. cbn [INR]. lra.
  - cbn [INR]. lra.
Qed.
End Accuracy.
Print Assumptions C67_parameters.
Print Assumptions C67_flow.

(** ** Where the invertibility constraint is lost *)
(** The plans of inner products with one term. *)
Definition one_term : flow_plans := FlowPlans (Entry 0) (Entry 0) (Entry 0) (Entry 0).
(** What the exact layer does in one dimension at z = 0 with b = 0. *)
Lemma exact_layer w a l : w <> 0 -> planar_row [Planar [w] [a] 0] ([0], l) = Some ([0], l - ln (ln (1 + exp (w * a)))).
Proof.
  intros W. assert (nz : dot [w] [w] <> 0) by (cbn; assert (w * w <> 0) by (apply Rmult_integral_contrapositive; auto); lra).
  pose proof (planar_scalar (Planar [w] [a] 0) eq_refl nz) as S. cbn [p_w p_aux_u] in S. assert (T : tanh 0 = 0) by (unfold tanh, sinh; rewrite Ropp_0; unfold Rdiv; rewrite Rminus_eq_0; ring). assert (Z : dot [0] [w] + 0 = 0) by (cbn; ring). assert (Y : dot [w] [a] = w * a) by (cbn; ring).
  assert (G : 0 < ln (1 + exp (w * a))) by (rewrite <- ln_1; apply ln_increasing; pose proof (exp_pos (w * a)); lra).
  cbn [planar_row]. unfold planar_layer. cbn [p_w p_b p_aux_u fst snd]. rewrite S, Z, T, Y. destruct (Rlt_dec _ _); [lra|]. cbn [obind]. f_equal. f_equal; [unfold planar_u; cbn; f_equal; ring|]. do 2 f_equal. ring.
Qed.

Section Lost.
Variables prec top : Z.
Hypothesis A : ample prec top.
Variables libexp liblog libtanh : R -> R.
Hypothesis HE : faithful_exp prec top libexp.
Hypothesis HL : faithful_log prec top liblog.
Hypothesis HT : faithful_tanh prec top libtanh.
Notation row p zl := (fplanar_row prec top libexp liblog libtanh [(one_term, float_params p)] zl).

(** w.u > -1 can round to -1. Then the assertion passes, the determinant is 0 and the log
    probability plus infinity, though the exact value is finite. *)
Theorem C67_infinite_refuted n l : (2 * prec <= n <= 2 ^ prec)%Z -> is_float prec top l -> let p := Planar [1] [- IZR n] 0 in
  row p ([Fi 0], Fi l) = Some ([Fi 0], PInf) /\ planar_row [p] ([0], l) = Some ([0], l - ln (ln (1 + exp (- IZR n)))).
Proof.
  intros Hn Fl p. pose proof A as (W & p3 & _). assert (F1 := float_1 prec top A). assert (Fn : is_float prec top (IZR n)) by (apply (float_count prec top A); lia). assert (Fm := float_opp prec top _ Fn). assert (F0 := float_0 prec top).
  split; [|unfold p; rewrite exact_layer by lra; rewrite Rmult_1_l; reflexivity]. unfold p, float_params. cbn [p_w p_aux_u p_b map fplanar_row]. unfold fplanar_layer, fplanar_u, fdot. cbn [f_w f_aux_u f_b combine map fst snd one_term p_dot p_norm fsum nth].
  rewrite (fmul_1_l prec top _ Fm), (fmul_1_l prec top _ F1). rewrite (softplus_lost prec top A libexp liblog HE HL) by (try exact Fm; apply (tiny_exp prec top A), Ropp_le_contravar, IZR_le; lia).
  replace (fsub prec top (Fi 0) (Fi 1)) with (Fi (- (1))) by (unfold fsub, esub; cbn [eneg eadd]; rewrite Rplus_0_l; symmetry; apply rounded_float, float_opp, F1).
  replace (fsub prec top (Fi (- (1))) (Fi (- IZR n))) with (Fi (IZR (n - 1))) by (unfold fsub, esub; cbn [eneg eadd]; replace (- (1) + - - IZR n) with (IZR (n - 1)) by (rewrite minus_IZR; ring); symmetry; apply rounded_float, (float_count prec top A); lia).
  rewrite fdiv_fi by lra. replace (1 / 1) with 1 by lra. rewrite rounded_float by exact F1. rewrite (fmul_1_l prec top) by (apply (float_count prec top A); lia).
  replace (fadd prec top (Fi (- IZR n)) (Fi (IZR (n - 1)))) with (Fi (- (1))) by (unfold fadd; cbn [eadd]; replace (- IZR n + IZR (n - 1)) with (- (1)) by (rewrite minus_IZR; ring); symmetry; apply rounded_float, float_opp, F1).
  unfold fplanar_step, fdot. cbn [f_w f_b combine map fst snd one_term p_scalar p_score fsum nth].
  replace (fmul prec top (Fi (- (1))) (Fi 1)) with (Fi (- (1))) by (unfold fmul; cbn [emul]; rewrite Rmult_1_r; symmetry; apply rounded_float, float_opp, F1).
  cbn [eleb]. destruct (Rle_dec (-1) (- (1))) as [_|X]; [|lra].
  replace (fmul prec top (Fi 0) (Fi 1)) with (Fi 0) by (unfold fmul; cbn [emul]; rewrite Rmult_0_l; symmetry; apply rounded_float, F0). replace (fadd prec top (Fi 0) (Fi 0)) with (Fi 0) by (unfold fadd; cbn [eadd]; rewrite Rplus_0_l; symmetry; apply rounded_float, F0).
  cbn [fetanh]. rewrite (tanh_lib_0 prec top A libtanh HT). rewrite !fmul_0_l by (try exact F0; apply float_opp, F1).
  replace (fadd prec top (Fi 0) (Fi 0)) with (Fi 0) by (unfold fadd; cbn [eadd]; rewrite Rplus_0_l; symmetry; apply rounded_float, F0).
  replace (fsub prec top (Fi 1) (Fi 0)) with (Fi 1) by (unfold fsub, esub; cbn [eneg eadd]; rewrite Ropp_0, Rplus_0_r; symmetry; apply rounded_float, F1).
  replace (fmul prec top (Fi (- (1))) (Fi 1)) with (Fi (- (1))) by (unfold fmul; cbn [emul]; rewrite Rmult_1_r; symmetry; apply rounded_float, float_opp, F1).
  replace (fadd prec top (Fi (- (1))) (Fi 1)) with (Fi 0) by (unfold fadd; cbn [eadd]; rewrite Rplus_opp_l; symmetry; apply rounded_float, F0).
  unfold felog. destruct (Rlt_dec 0 0); [lra|]. destruct (Req_EM_T 0 0); [|lra]. reflexivity.
Qed.

(** When w.aux_u is large, exp overflows: the sample is not a number and the log
    probability minus infinity, though the exact values are finite. *)
Theorem C67_overflow_refuted n l : (top <= n <= 2 ^ prec)%Z -> is_float prec top l -> let p := Planar [1] [IZR n] 0 in
  row p ([Fi 0], Fi l) = Some ([NaN], MInf) /\ planar_row [p] ([0], l) = Some ([0], l - ln (ln (1 + exp (IZR n)))).
Proof.
  intros Hn Fl p. pose proof A as (W & p3 & _). pose proof (top_big prec top A) as TB. assert (F1 := float_1 prec top A). assert (Fn : is_float prec top (IZR n)) by (apply (float_count prec top A); lia). assert (F0 := float_0 prec top).
  split; [|unfold p; rewrite exact_layer by lra; rewrite Rmult_1_l; reflexivity]. unfold p, float_params. cbn [p_w p_aux_u p_b map fplanar_row]. unfold fplanar_layer, fplanar_u, fdot. cbn [f_w f_aux_u f_b combine map fst snd one_term p_dot p_norm fsum nth].
  rewrite (fmul_1_l prec top _ Fn), (fmul_1_l prec top _ F1). rewrite (exp_top prec top A libexp HE) by (try exact Fn; apply IZR_le; lia).
  rewrite fdiv_fi by lra. replace (1 / 1) with 1 by lra. rewrite rounded_float by exact F1. assert (P1 : fmul prec top (Fi 1) PInf = PInf) by (unfold fmul; cbn; destruct (Rlt_dec 0 1); [reflexivity|lra]). assert (P2 : fmul prec top PInf (Fi 1) = PInf) by (unfold fmul; cbn; destruct (Rlt_dec 0 1); [reflexivity|lra]).
  cbn [fadd eadd rounded felog fsub esub eneg]. unfold fadd, fsub, esub. cbn [eneg eadd rounded felog]. rewrite P1. cbn [eadd rounded].
  unfold fplanar_step, fdot. cbn [f_w f_b combine map fst snd one_term p_scalar p_score fsum nth]. rewrite P2. cbn [eleb].
  replace (fmul prec top (Fi 0) (Fi 1)) with (Fi 0) by (unfold fmul; cbn [emul]; rewrite Rmult_0_l; symmetry; apply rounded_float, F0). replace (fadd prec top (Fi 0) (Fi 0)) with (Fi 0) by (unfold fadd; cbn [eadd]; rewrite Rplus_0_l; symmetry; apply rounded_float, F0).
  cbn [fetanh]. rewrite (tanh_lib_0 prec top A libtanh HT). rewrite !fmul_0_l by exact F0.
  replace (fsub prec top (Fi 1) (Fi 0)) with (Fi 1) by (unfold fsub, esub; cbn [eneg eadd]; rewrite Ropp_0, Rplus_0_r; symmetry; apply rounded_float, F1). rewrite P2.
  assert (P3 : fmul prec top (Fi 0) PInf = NaN) by (unfold fmul; cbn; destruct (Rlt_dec 0 0); [lra|]; destruct (Rlt_dec 0 0); [lra|reflexivity]). rewrite P3. reflexivity.
Qed.
End Lost.
Print Assumptions C67_infinite_refuted.
Print Assumptions C67_overflow_refuted.

(** Single precision: w.u can round below -1, and the assertion fails for every input, though
    it holds of the exact layer. *)
Theorem C67_assertion_refuted libexp liblog libtanh z l zx lx : faithful_exp 24 128 libexp -> faithful_log 24 128 liblog -> let p := Planar [5 / 4] [-16] 0 in
  fplanar_row 24 128 libexp liblog libtanh [(one_term, float_params p)] (z, l) = None /\ planar_row [p] (zx, lx) <> None.
Proof.
  intros HE HL p. assert (A : ample 24 128) by (repeat split; lia). pose proof A as (W & _). assert (X : forall x (n : Z) e, x = IZR n * bpow radix2 e -> (3 - 128 - 24 <= e)%Z -> (Z.abs n <= 2 ^ 24)%Z -> Rabs x < 1024 -> rounded 24 128 (Fi x) = Fi x).
  { intros x n e -> E N B. apply rounded_float. split; [|eapply Rlt_trans; [exact B|]; apply (bpow_lt radix2 10 128); lia]. apply (fmt_grid 24 128 W); assumption. }
  split; [|cbn [planar_row p]; rewrite planar_layer_eq by (try reflexivity; cbn; lra); discriminate].
  unfold p, float_params. cbn [p_w p_aux_u p_b map fplanar_row]. unfold fplanar_layer, fplanar_u, fdot. cbn [f_w f_aux_u f_b combine map fst snd one_term p_dot p_norm fsum nth].
  assert (Fx : is_float 24 128 (-20)) by (change (-20) with (- (20)); apply float_opp, (float_count 24 128 A 20); lia). assert (E1 : fmul 24 128 (Fi (5 / 4)) (Fi (-16)) = Fi (-20)) by (unfold fmul; cbn [emul]; replace (5 / 4 * -16) with (-20) by lra; now apply rounded_float).
  assert (E2 : fmul 24 128 (Fi (5 / 4)) (Fi (5 / 4)) = Fi (25 / 16)). { unfold fmul. cbn [emul]. replace (5 / 4 * (5 / 4)) with (25 / 16) by lra. apply (X _ 25%Z (-4)%Z); [cbn; lra|lia|lia|rewrite Rabs_pos_eq; lra]. }
  assert (E3 : fsub 24 128 (Fi 0) (Fi 1) = Fi (-1)). { unfold fsub, esub. cbn [eneg eadd]. replace (0 + - (1)) with (-1) by lra. apply (X _ (-1)%Z 0%Z); [cbn; lra|lia|lia|rewrite Rabs_left; lra]. }
  assert (E4 : fsub 24 128 (Fi (-1)) (Fi (-20)) = Fi 19). { unfold fsub, esub. cbn [eneg eadd]. replace (-1 + - -20) with 19 by lra. apply (X _ 19%Z 0%Z); [cbn; lra|lia|lia|rewrite Rabs_pos_eq; lra]. }
  assert (E5 : fdiv 24 128 (Fi (5 / 4)) (Fi (25 / 16)) = Fi (13421773 / 16777216)). { rewrite fdiv_fi by lra. replace (5 / 4 / (25 / 16)) with (4 / 5) by lra. cbn [rounded]. rewrite (near_real 24 128 _ 13421773 (-24) W); [|lia|cbn; lra|cbn; unfold Rabs; destruct (Rcase_abs _); lra]. change (bpow radix2 (-24)) with (/ 16777216). apply overflow_small. apply (below_top 24 128 W). rewrite Rabs_pos_eq; lra. }
  assert (E6 : fmul 24 128 (Fi (13421773 / 16777216)) (Fi 19) = Fi (15938355 / 1048576)). { unfold fmul. cbn [emul rounded]. rewrite (near_real 24 128 _ 15938355 (-20) W); [|lia|cbn; lra|cbn; unfold Rabs; destruct (Rcase_abs _); lra]. change (bpow radix2 (-20)) with (/ 1048576). apply overflow_small. apply Rlt_trans with 1024; [rewrite Rabs_pos_eq; lra|]. apply (bpow_lt radix2 10 128); lia. }
  assert (E7 : fadd 24 128 (Fi (-16)) (Fi (15938355 / 1048576)) = Fi (-838861 / 1048576)). { unfold fadd. cbn [eadd]. replace (-16 + 15938355 / 1048576) with (-838861 / 1048576) by lra. apply (X _ (-838861)%Z (-20)%Z); [cbn; lra|lia|lia|rewrite Rabs_left; lra]. }
  assert (E8 : fmul 24 128 (Fi (-838861 / 1048576)) (Fi (5 / 4)) = Fi (-4194305 / 4194304)). { unfold fmul. cbn [emul]. replace (-838861 / 1048576 * (5 / 4)) with (-4194305 / 4194304) by lra. apply (X _ (-4194305)%Z (-22)%Z); [cbn; lra|lia|lia|rewrite Rabs_left; lra]. }
  assert (L : exp (-20) <= bpow radix2 (-24 - 1)).
  { rewrite bpow_exp. cbn [radix_val radix2]. apply exp_le. assert (ln 2 <= 4 / 5). { rewrite <- (ln_exp (4 / 5)). apply ln_le'; [lra|]. replace (4 / 5) with (1 / 5 + (1 / 5 + (1 / 5 + 1 / 5))) by lra. rewrite !exp_plus. pose proof (exp_ineq1_le (1 / 5)) as Q. set (y := exp (1 / 5)) in *. assert (36 / 25 <= y * y) by nra. assert (36 / 25 * (36 / 25) <= y * y * (y * y)) by (apply Rmult_le_compat; lra). lra. } cbn. lra. }
  rewrite E1, E2, (softplus_lost 24 128 A libexp liblog HE HL (-20) Fx L), E3, E4, E5, E6, E7. unfold fplanar_step, fdot. cbn [f_w f_b combine map fst snd one_term p_scalar fsum nth]. rewrite E8. cbn [eleb]. destruct (Rle_dec (-1) (-4194305 / 4194304)); [lra|reflexivity].
Qed.
Print Assumptions C67_assertion_refuted.

(** ** Cases *)
(** Library functions that round down. *)
Definition down (prec top : Z) (g : R -> R) (x : R) : R := round radix2 (fexpo prec top) Zfloor (g x).
Example C67_library_case prec top : faithful_exp prec top (down prec top exp) /\ faithful_log prec top (down prec top ln) /\ faithful_tanh prec top (down prec top tanh).
Proof. repeat split; intros x; intros; left; reflexivity. Qed.
(** One layer in two dimensions, in double precision. *)
Definition two_terms : flow_plans := FlowPlans (Plus (Entry 0) (Entry 1)) (Plus (Entry 0) (Entry 1)) (Plus (Entry 0) (Entry 1)) (Plus (Entry 0) (Entry 1)).
Example C67_case : let p := Planar [1; -1] [0; 0] 1 in let prec := 53%Z in let d := 2%nat in let r := 2%Z in
  ample prec 1024 /\ (Z.of_nat d <= 2 ^ prec)%Z /\ (2 * r + prec + 5 <= 1024)%Z /\ bpow radix2 (- r) <= 1 /\ INR (length [p] + 1) * bpow radix2 1 <= bpow radix2 r /\
  parameter_error prec d r 1 <= 1 /\ 2 * det_error prec d r 1 (length [p]) <= 1 / 2 /\ 8 * unit_roundoff prec * log_prob_size d r (1 / 2) (length [p]) (-3) <= 1 /\
  sound_layer prec 1024 d r 1 1 (1 / 2) p /\ multiplies two_terms d /\ vector prec 1024 1 d [1; -1] /\
  sample_error prec d r 1 (length [p]) <= / 100000 /\ log_prob_error prec d r 1 (1 / 2) (length [p]) (-3) <= / 100.
Proof.
  intros p prec d r. assert (A : ample 53 1024) by (repeat split; lia). assert (Dt : dots d r = 32) by (unfold dots; cbn; lra). assert (v : INR d * unit_roundoff prec = 2 * / 9007199254740992) by (unfold unit_roundoff; cbn; lra). assert (uu : unit_roundoff prec = / 9007199254740992) by reflexivity. assert (L : length [p] = 1%nat) by reflexivity.
  assert (PE : parameter_error prec d r 1 = 6553600 * / 9007199254740992) by (unfold parameter_error; rewrite Dt, v; lra).
  assert (SE : sample_error prec d r 1 1 = 1025 * (6584320 * / 9007199254740992)) by (unfold sample_error; rewrite PE, Dt, v; cbn [INR pow]; lra).
  assert (DE : det_error prec d r 1 1 = (67584 + 209715200 + 2048 * 1025 * 6584320) * / 9007199254740992) by (unfold det_error; rewrite SE, PE, Dt, v; lra).
  assert (LS : log_det_size d r (1 / 2) = 164) by (unfold log_det_size; rewrite Dt; lra). assert (LP : log_prob_size d r (1 / 2) 1 (-3) = 169) by (unfold log_prob_size; rewrite LS, Rabs_left by lra; cbn [INR]; lra).
  assert (F1 : is_float 53 1024 1) by apply (float_1 53 1024 A). assert (F0 : is_float 53 1024 0) by apply float_0. pose proof (float_opp 53 1024 1 F1) as F2. assert (b1 : bpow radix2 1 = 2) by reflexivity. assert (b2 : bpow radix2 2 = 4) by reflexivity.
  rewrite L. split; [exact A|]. split; [unfold d, prec; lia|]. split; [unfold r, prec; lia|]. split; [unfold r; cbn; lra|]. split; [unfold r; cbn; lra|]. split; [rewrite PE; lra|]. split; [rewrite DE; lra|]. split; [rewrite LP, uu; lra|].
  assert (l2 : 1 / 2 <= ln 2 <= 1) by (split; [apply ln_2_ge|pose proof (ln_le_sub 2 ltac:(lra)); lra]). split; [|split; [|split; [|split]]].
  - unfold sound_layer, vector, p. cbn [p_w p_aux_u p_b]. unfold r, d, prec. rewrite b1, b2. assert (D0 : dot [1; -1] [0; 0] = 0) by (cbn; ring). rewrite D0, exp_0.
    split; [split; [reflexivity|]|]. { apply Forall_forall; intros y [<-|[<-|[]]]; (split; [assumption|]); unfold Rabs; destruct (Rcase_abs _); lra. } split; [split; [reflexivity|]|]. { apply Forall_forall; intros y [<-|[<-|[]]]; (split; [assumption|]); rewrite Rabs_R0; lra. } split; [exact F1|]. split; [rewrite Rabs_R1; lra|]. split; [cbn; lra|]. split; [lra|]. split; [replace (1 + 1) with 2 by lra; lra|].
    intros i I. unfold planar_u. cbn [p_w p_aux_u]. rewrite D0, exp_0. replace (1 + 1) with 2 by lra. replace (dot [1; -1] [1; -1]) with 2 by (cbn; lra). destruct i as [|[|i]]; [| |lia]; cbn; unfold Rabs; destruct (Rcase_abs _); lra.
  - repeat split; apply Permutation_refl.
  - split; [reflexivity|]. rewrite b1. apply Forall_forall; intros y [<-|[<-|[]]]; (split; [assumption|]); unfold Rabs; destruct (Rcase_abs _); lra.
  - rewrite SE. lra.
  - unfold log_prob_error. rewrite DE, LS, LP, uu. cbn [INR]. lra.
Qed.
(** Such parameters exist in single and double precision. *)
Example C67_refuted_case : (2 * 24 <= 50 <= 2 ^ 24)%Z /\ (128 <= 130 <= 2 ^ 24)%Z /\ (2 * 53 <= 110 <= 2 ^ 53)%Z /\ (1024 <= 1030 <= 2 ^ 53)%Z.
Proof. lia. Qed.
