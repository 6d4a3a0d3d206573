(** Lemmas for C63. *)
From Coq Require Import List Arith Bool Reals ZArith Lra Lia Permutation.
From Flocq Require Import Core.
From Verif Require Import ModelExt ModelSpecial ModelNum ModelFloat ModelFloatSample ModelFloatTune ModelFloatSGMCMC ModelFloatImportance SpecFloat SpecFloatSGMCMC SpecFloatImportance ProofFloat ProofFloatSample ProofFloatDensity ProofFloatTune ProofFloatSGMCMC PropFloat PropFloatSample.
Import ListNotations.
Local Open Scope R_scope.

Section Proofs.
Variables prec top : Z.
Hypothesis A : ample prec top.
Let W : wide prec top := proj1 A.
Notation u := (unit_roundoff prec).
Notation float := (is_float prec top).
Notation fmt := (generic_format radix2 (fexpo prec top)).
Notation near := (nearest prec top).
Notation b e := (bpow radix2 e).
Notation about := (about prec top).

(** ** Sums of numbers of any sign *)
Definition size (t : nat -> R) (l : list nat) : R := total_at (fun i => Rabs (t i)) l.
Lemma size_app t l l' : size t (l ++ l') = size t l + size t l'.
Proof. apply total_at_app. Qed.
Lemma size_nonneg t l : 0 <= size t l.
Proof. induction l as [|i l IH]; unfold size, total_at in *; cbn; [lra|]. pose proof (Rabs_pos (t i)). lra. Qed.
Lemma total_size t l : Rabs (total_at t l) <= size t l.
Proof.
  induction l as [|i l IH]; unfold size, total_at in *; cbn; [rewrite Rabs_R0; lra|]. eapply Rle_trans; [apply Rabs_triang|]. lra.
Qed.
Lemma nu_1 n : (Z.of_nat n <= 2 ^ prec)%Z -> INR n * u <= 1.
Proof.
  intros N. pose proof A as (_ & p3 & _). assert (K : INR n <= b prec) by (rewrite INR_IZR_INZ, <- (IZR_Zpower radix2) by lia; apply IZR_le, N).
  assert (Q : b prec * u = 1) by (unfold unit_roundoff; rewrite <- bpow_plus; replace (prec + - prec)%Z with 0%Z by lia; reflexivity). pose proof (u_pos prec). nra.
Qed.
Lemma exp_chord x : 0 <= x <= 1 -> exp x <= 1 + 2 * x.
Proof.
  intros H. pose proof exp_le_3 as E3. assert (C : exp x <= 1 + x * (exp 1 - 1)).
  { destruct (Req_dec x 0) as [->|N0]; [rewrite exp_0; lra|]. destruct (Req_dec x 1) as [->|N1]; [lra|].
    destruct (MVT_cor2 exp exp 0 x ltac:(lra) ltac:(intros; apply derivable_pt_lim_exp)) as (c & E1 & C1). destruct (MVT_cor2 exp exp x 1 ltac:(lra) ltac:(intros; apply derivable_pt_lim_exp)) as (d & E2 & D1).
    rewrite exp_0 in E1. assert (exp c <= exp d) by (left; apply exp_increasing; lra). assert (0 <= x * (1 - x) * (exp d - exp c)) by (apply Rmult_le_pos; [apply Rmult_le_pos|]; lra).
    replace (exp 1 - 1) with (exp d * (1 - x) + exp c * x) by lra. replace (exp x) with (1 + exp c * x) by lra. nra. }
  nra.
Qed.
Lemma growth n : (Z.of_nat n <= 2 ^ prec)%Z -> (1 + u) ^ n <= 1 + 2 * (INR n * u).
Proof.
  intros N. pose proof (nu_1 n N). pose proof (u_pos prec). pose proof (pos_INR n). eapply Rle_trans; [apply pow_exp; lra|]. apply exp_chord. split; [nra|lra].
Qed.
Lemma signed_sum t l p : (forall i, In i (entries p) -> nth i l NaN = Fi (t i) /\ fmt (t i)) -> (Z.of_nat (length (entries p)) <= 2 ^ prec)%Z -> size t (entries p) <= b (top - 3) ->
  exists s, fsum prec top p l = Fi s /\ float s /\ (entries p = [] -> s = 0) /\
    Rabs (s - total_at t (entries p)) <= ((1 + u) ^ (length (entries p) - 1) - 1) * size t (entries p).
Proof.
  intros H N T. pose proof (u_pos prec) as U. pose proof (top_big prec top A) as TB. pose proof A as (_ & p3 & _).
  induction p as [|i|p IHp q IHq]; cbn [entries fsum] in *.
  - exists 0. split; [reflexivity|]. split; [apply (float_0 prec top)|]. split; [reflexivity|]. unfold size, total_at. cbn. rewrite Rminus_0_r, Rabs_R0. lra.
  - destruct (H i (or_introl eq_refl)) as (E & F). exists (t i). split; [exact E|]. unfold size, total_at in *. cbn in *. split; [split; [exact F|]|].
    + eapply Rle_lt_trans; [|apply (bpow_lt radix2 (top - 3)); lia]. lra.
    + split; [discriminate|]. replace (t i - (t i + 0)) with 0 by ring. rewrite Rabs_R0. lra.
  - rewrite size_app in *. rewrite total_at_app. rewrite app_length in *. pose proof (size_nonneg t (entries p)) as P1. pose proof (size_nonneg t (entries q)) as P2.
    destruct IHp as (a & Ea & Fa & Za & Da); [intros i Hi; apply H, in_or_app; auto|lia|lra|]. destruct IHq as (c & Ec & Fc & Zc & Dc); [intros i Hi; apply H, in_or_app; auto|lia|lra|]. rewrite Ea, Ec.
    destruct (entries p) as [|i1 r1] eqn:Ep; [|destruct (entries q) as [|i2 r2] eqn:Eq].
    + rewrite (Za eq_refl). exists c. split; [unfold fadd; cbn [eadd]; rewrite Rplus_0_l; now apply (rounded_float prec top)|]. split; [exact Fc|]. split; [cbn; exact Zc|]. change (length (@nil nat) + length (entries q))%nat with (length (entries q)).
      change (size t []) with 0. change (total_at t []) with 0. rewrite !Rplus_0_l. exact Dc.
    + rewrite (Zc eq_refl). exists a. split; [unfold fadd; cbn [eadd]; rewrite Rplus_0_r; now apply (rounded_float prec top)|]. split; [exact Fa|]. split; [discriminate|]. cbn [length] in *. rewrite Nat.add_0_r.
      change (size t []) with 0. change (total_at t []) with 0. rewrite !Rplus_0_r. exact Da.
    + set (l1 := i1 :: r1) in *. set (l2 := i2 :: r2) in *. assert (L1 : (1 <= length l1)%nat) by (cbn; lia). assert (L2 : (1 <= length l2)%nat) by (cbn; lia).
      set (m := (Nat.max (length l1) (length l2) - 1)%nat). assert (Hm : (S m <= length l1 + length l2 - 1)%nat) by (unfold m; lia).
      assert (G : forall j, (j <= m)%nat -> (1 + u) ^ j <= (1 + u) ^ m) by (intros j Hj; apply Rle_pow; [lra|exact Hj]). pose proof (G (length l1 - 1)%nat ltac:(unfold m; lia)) as G1. pose proof (G (length l2 - 1)%nat ltac:(unfold m; lia)) as G2.
      assert (G3 : (1 + u) ^ S m <= (1 + u) ^ (length l1 + length l2 - 1)) by (apply Rle_pow; [lra|exact Hm]). cbn [pow] in G3. assert (G0 : 1 <= (1 + u) ^ m) by (apply pow_R1_Rle; lra). set (g := (1 + u) ^ m) in *.
      assert (D1 : Rabs (a - total_at t l1) <= (g - 1) * size t l1) by (eapply Rle_trans; [exact Da|]; apply Rmult_le_compat_r; lra).
      assert (D2 : Rabs (c - total_at t l2) <= (g - 1) * size t l2) by (eapply Rle_trans; [exact Dc|]; apply Rmult_le_compat_r; lra).
      pose proof (total_size t l1) as T1. pose proof (total_size t l2) as T2.
      assert (B : Rabs (a + c) <= g * (size t l1 + size t l2)).
      { replace (a + c) with ((a - total_at t l1) + (c - total_at t l2) + (total_at t l1 + total_at t l2)) by ring. eapply Rle_trans; [apply Rabs_triang|]. pose proof (Rabs_triang (a - total_at t l1) (c - total_at t l2)). pose proof (Rabs_triang (total_at t l1) (total_at t l2)). lra. }
      assert (Gb : (1 + u) * g <= 3).
      { eapply Rle_trans; [exact G3|]. eapply Rle_trans; [apply Rle_pow with (n := (length l1 + length l2)%nat); [lra|lia]|]. eapply Rle_trans; [apply growth; lia|]. pose proof (nu_1 (length l1 + length l2) N). lra. }
      destruct (factor_add prec top A a c (proj1 Fa) (proj1 Fc)) as (f & Ef & Hf). rewrite Rmult_1_l in Hf. assert (Hf' : Rabs f <= 1 + u) by (replace f with (1 + (f - 1)) by ring; eapply Rle_trans; [apply Rabs_triang|]; rewrite Rabs_R1; lra).
      assert (S0 : 0 <= g * (size t l1 + size t l2)) by (apply Rmult_le_pos; lra).
      assert (V : Rabs (near (a + c)) <= (1 + u) * g * (size t l1 + size t l2)).
      { rewrite Ef, Rabs_mult. rewrite Rmult_comm, (Rmult_assoc (1 + u)). apply Rmult_le_compat; auto using Rabs_pos. }
      assert (V' : Rabs (near (a + c)) < b top).
      { eapply Rle_lt_trans; [exact V|]. apply Rle_lt_trans with (3 * b (top - 3)); [apply Rmult_le_compat; try lra; apply Rmult_le_pos; lra|]. replace top with (top - 3 + 3)%Z at 2 by lia. rewrite bpow_plus. pose proof (bpow_gt_0 radix2 (top - 3)). change (b 3) with 8. lra. }
      exists (near (a + c)). split; [unfold fadd; cbn [eadd rounded]; now apply (overflow_small top)|]. split; [split; [apply (near_fmt prec top W)|exact V']|]. split; [discriminate|].
      rewrite Ef. replace ((a + c) * f - (total_at t l1 + total_at t l2)) with ((a - total_at t l1) + (c - total_at t l2) + (a + c) * (f - 1)) by ring. eapply Rle_trans; [apply Rabs_triang|]. rewrite (Rabs_mult (a + c)).
      pose proof (Rabs_triang (a - total_at t l1) (c - total_at t l2)) as TR. assert (M : Rabs (a + c) * Rabs (f - 1) <= g * (size t l1 + size t l2) * u) by (apply Rmult_le_compat; auto using Rabs_pos).
      apply Rle_trans with (((1 + u) * g - 1) * (size t l1 + size t l2)); [nra|]. apply Rmult_le_compat_r; lra.
Qed.
Lemma size_le t c l : (forall i, In i l -> Rabs (t i) <= c) -> size t l <= INR (length l) * c.
Proof.
  induction l as [|i l IH]; intros H; [unfold size, total_at; cbn; lra|]. change (size t (i :: l)) with (Rabs (t i) + size t l). cbn [length]. rewrite S_INR. pose proof (H i (or_introl eq_refl)). specialize (IH (fun j Hj => H j (or_intror Hj))). lra.
Qed.
(** All entries of a list, bounded by 2 ^ r. *)
Lemma list_sum (ts : list R) p r : Forall fmt ts -> Forall (fun x => Rabs x <= b r) ts -> adds_up p (length ts) -> (Z.of_nat (length ts) <= 2 ^ prec)%Z -> (r + prec + 3 <= top)%Z ->
  exists s, fsum prec top p (map Fi ts) = Fi s /\ float s /\ Rabs (s - rsum ts) <= 2 * INR (length ts) * INR (length ts) * u * b r.
Proof.
  intros F B P N RR. pose proof (u_pos prec) as U. pose proof A as (_ & p3 & _). set (n := length ts) in *. pose proof (pos_INR n) as n0. pose proof (bpow_gt_0 radix2 r) as Br. set (t := fun i => nth i ts 0).
  assert (Len : length (entries p) = n) by (rewrite (Permutation_length P); apply seq_length).
  assert (Hin : forall i, In i (entries p) -> (i < n)%nat) by (intros i Hi; apply (Permutation_in _ P) in Hi; apply in_seq in Hi; lia).
  assert (Bt : forall i, In i (entries p) -> Rabs (t i) <= b r) by (intros i Hi; rewrite Forall_forall in B; apply B, nth_In, Hin, Hi).
  assert (Sz : size t (entries p) <= INR n * b r) by (rewrite <- Len; now apply size_le).
  destruct (signed_sum t (map Fi ts) p) as (s & E & Fs & _ & D).
  - intros i Hi. split; [|rewrite Forall_forall in F; apply F, nth_In, Hin, Hi]. rewrite (nth_indep _ NaN (Fi 0)) by (rewrite map_length; now apply Hin). apply (map_nth Fi).
  - now rewrite Len.
  - eapply Rle_trans; [exact Sz|]. apply Rle_trans with (b prec * b r); [apply Rmult_le_compat_r; [lra|]; rewrite INR_IZR_INZ, <- (IZR_Zpower radix2) by lia; apply IZR_le, N|]. rewrite <- bpow_plus. apply bpow_le. lia.
  - exists s. split; [exact E|]. split; [exact Fs|]. rewrite (total_at_perm t _ _ P) in D. fold n in D. pose proof (total_at_nth (fun x : R => x) 0 ts) as Q. rewrite map_id in Q. change (total_at t (seq 0 n) = rsum ts) in Q. rewrite Q in D.
    rewrite Len in D. eapply Rle_trans; [exact D|]. assert (G : (1 + u) ^ (n - 1) - 1 <= 2 * INR n * u) by (pose proof (growth n N); pose proof (Rle_pow (1 + u) (n - 1) n ltac:(lra) ltac:(lia)); lra).
    apply Rle_trans with (2 * INR n * u * (INR n * b r)); [|right; ring]. apply Rmult_le_compat; try lra; [|apply size_nonneg]. pose proof (pow_R1_Rle (1 + u) (n - 1) ltac:(lra)). lra.
Qed.

(** ** The other samples *)
Lemma others_length xs k : (k < length xs)%nat -> length (others xs k) = (length xs - 1)%nat.
Proof. intros H. unfold others. rewrite app_length, firstn_length, skipn_length. lia. Qed.
Lemma rsum_app xs ys : rsum (xs ++ ys) = rsum xs + rsum ys.
Proof. induction xs as [|x xs IH]; cbn; unfold rsum in *; cbn; [lra|]. rewrite IH. lra. Qed.
Lemma rsum_others f xs : forall k, (k < length xs)%nat -> rsum (map f (others xs k)) + f (nth k xs 0) = rsum (map f xs).
Proof.
  induction xs as [|x xs IH]; intros k H; [cbn in H; lia|]. destruct k as [|k]; [unfold others; cbn; lra|]. cbn [length] in H. specialize (IH k ltac:(lia)). unfold others in *. cbn [firstn skipn app map nth]. change (rsum (f x :: map f (firstn k xs ++ skipn (S k) xs)) + f (nth k xs 0) = f x + rsum (map f xs)).
  change (rsum (f x :: map f (firstn k xs ++ skipn (S k) xs))) with (f x + rsum (map f (firstn k xs ++ skipn (S k) xs))). lra.
Qed.
Lemma map_nth_all (xs : list R) : map (fun j => nth j xs 0) (seq 0 (length xs)) = xs.
Proof. induction xs as [|x xs IH]; [reflexivity|]. cbn [length seq map nth]. f_equal. rewrite <- seq_shift, map_map. exact IH. Qed.
Lemma replaced_list m xs : forall k, (k < length xs)%nat -> map (fun j => if (j =? k)%nat then m else nth j xs 0) (seq 0 (length xs)) = firstn k xs ++ m :: skipn (S k) xs.
Proof.
  induction xs as [|x xs IH]; intros k H; [cbn in H; lia|]. cbn [length seq map]. rewrite <- seq_shift, map_map. destruct k as [|k].
  - cbn [Nat.eqb firstn skipn app nth]. f_equal. apply map_nth_all.
  - cbn [Nat.eqb firstn app nth]. f_equal. apply IH. cbn in H. lia.
Qed.
Lemma others_bounded (P : R -> Prop) xs k : Forall P xs -> Forall P (others xs k).
Proof.
  intros H. revert k. induction H as [|x xs X H IH]; intros k; [destruct k; constructor|]. destruct k as [|k]; [exact H|]. unfold others in *. cbn [firstn skipn app]. constructor; [exact X|apply IH].
Qed.
Lemma rsum_bounded c xs : Forall (fun x => Rabs x <= c) xs -> Rabs (rsum xs) <= INR (length xs) * c.
Proof.
  induction 1 as [|x xs X H IH]; [cbn; rewrite Rabs_R0; lra|]. cbn [length rsum fold_right]. rewrite S_INR. eapply Rle_trans; [apply Rabs_triang|]. unfold rsum in IH. lra.
Qed.
Lemma log_mean_bounded c xs : xs <> [] -> Forall (fun x => Rabs x <= c) xs -> Rabs (log_mean xs) <= c.
Proof.
  intros N H. assert (L : 0 < INR (length xs)) by (destruct xs; [easy|]; apply lt_0_INR; cbn; lia). assert (B : INR (length xs) * exp (- c) <= rsum (map exp xs) <= INR (length xs) * exp c).
  { clear N L. induction H as [|x xs X H IH]; [cbn; lra|]. cbn [length map rsum fold_right]. rewrite S_INR. apply Rabs_le_inv in X. pose proof (exp_le (- c) x ltac:(lra)). pose proof (exp_le x c ltac:(lra)). unfold rsum in IH. lra. }
  unfold log_mean. set (q := rsum (map exp xs) / INR (length xs)). assert (Q : exp (- c) <= q <= exp c) by (unfold q, Rdiv; split; apply (Rmult_le_reg_r (INR (length xs))); try lra; rewrite Rmult_assoc, Rinv_l; lra).
  pose proof (exp_pos (- c)). apply Rabs_le. rewrite <- (ln_exp c) at 2. rewrite <- (ln_exp (- c)). split; apply ln_le'; lra.
Qed.
Lemma log_mean_lipschitz m m' ys : Rabs (log_mean (m :: ys) - log_mean (m' :: ys)) <= Rabs (m - m').
Proof.
  assert (P : 0 <= rsum (map exp ys)) by (induction ys as [|y ys IH]; cbn; [lra|]; pose proof (exp_pos y); unfold rsum in IH; lra). set (s := rsum (map exp ys)) in *.
  assert (G : forall a c, log_mean (a :: ys) <= log_mean (c :: ys) + Rabs (a - c)).
  { intros a c. unfold log_mean. cbn [map rsum fold_right length]. change (fold_right Rplus 0 (map exp ys)) with s. set (n := INR (S (length ys))). assert (n0 : 0 < n) by (apply lt_0_INR; lia). assert (0 < / n) by now apply Rinv_0_lt_compat.
    pose proof (exp_pos a). pose proof (exp_pos c). apply ln_ratio; [apply Rdiv_lt_0_compat; lra..|]. unfold Rdiv. rewrite Rmult_assoc, (Rmult_comm (/ n)), <- Rmult_assoc. apply Rmult_le_compat_r; [lra|]. rewrite Rmult_plus_distr_r, <- exp_plus.
    pose proof (exp_le a (c + Rabs (a - c)) ltac:(pose proof (Rle_abs (a - c)); lra)). pose proof (exp_ineq1_le (Rabs (a - c))). pose proof (Rabs_pos (a - c)). nra. }
  pose proof (G m m'). pose proof (G m' m) as G2. rewrite (Rabs_minus_sym m' m) in G2. apply Rabs_le. lra.
Qed.
Lemma log_mean_perm xs ys : Permutation xs ys -> log_mean xs = log_mean ys.
Proof.
  intros P. unfold log_mean. rewrite (Permutation_length P). f_equal. f_equal. apply (Permutation_map exp) in P. induction P; cbn; unfold rsum in *; lra.
Qed.

Lemma term_list (g : nat -> ext) (h : nat -> R) c eps l : (forall k, In k l -> exists t, g k = Fi t /\ float t /\ Rabs t <= c /\ Rabs (t + h k) <= eps) ->
  exists ts, length ts = length l /\ map g l = map Fi ts /\ Forall (fun t => fmt t) ts /\ Forall (fun t => Rabs t <= c) ts /\ Rabs (rsum ts + rsum (map h l)) <= INR (length l) * eps.
Proof.
  induction l as [|k l IH]; intros H.
  - exists []. cbn. repeat split; auto. rewrite Rplus_0_l, Rabs_R0. lra.
  - destruct IH as (ts & Lt & Et & Ft & Bt & Dt); [intros; apply H; now right|]. destruct (H k (or_introl eq_refl)) as (t & E & Fl & Bd & D). exists (t :: ts). cbn [length map]. rewrite E, Et, Lt. repeat split; auto. { constructor; [apply Fl|exact Ft]. }
    cbn [rsum fold_right]. unfold rsum in Dt. rewrite S_INR. match goal with |- Rabs (t + ?x + (?y + ?z)) <= _ => replace (t + x + (y + z)) with ((t + y) + (x + z)) by ring end. eapply Rle_trans; [apply Rabs_triang|]. lra.
Qed.

(** ** Perturbed log weights *)
Notation close d := (Forall2 (fun x y => Rabs (x - y) <= d)).
Lemma close_sym d xs ys : close d xs ys -> close d ys xs.
Proof. induction 1; constructor; auto. now rewrite Rabs_minus_sym. Qed.
Lemma close_others d xs ys : close d xs ys -> forall k, close d (others xs k) (others ys k).
Proof.
  induction 1 as [|x y xs ys X H IH]; intros k; [destruct k; constructor|]. destruct k as [|k]; [exact H|]. unfold others in *. cbn [firstn skipn app]. constructor; [exact X|apply IH].
Qed.
Lemma log_mean_close d xs ys : xs <> [] -> close d xs ys -> Rabs (log_mean xs - log_mean ys) <= d.
Proof.
  assert (G : forall xs ys, xs <> [] -> close d xs ys -> log_mean ys <= log_mean xs + d).
  { clear. intros xs ys N H. assert (L : length xs = length ys) by (clear N; induction H; cbn; auto). assert (n0 : 0 < INR (length xs)) by (destruct xs; [easy|]; apply lt_0_INR; cbn; lia).
    assert (S : rsum (map exp ys) <= rsum (map exp xs) * exp d).
    { clear - H. induction H as [|x y xs ys X H IH]; [cbn; lra|]. cbn [map rsum fold_right]. unfold rsum in IH. apply Rabs_le_inv in X. pose proof (exp_le y (x + d) ltac:(lra)) as E. rewrite exp_plus in E. lra. }
    assert (P : forall zs, zs <> [] -> 0 < rsum (map exp zs)). { clear. intros zs N. destruct zs as [|z zs]; [easy|]. cbn. pose proof (exp_pos z). assert (0 <= fold_right Rplus 0 (map exp zs)) by (clear; induction zs as [|w zs IH]; cbn; [lra|]; pose proof (exp_pos w); lra). lra. }
    unfold log_mean. rewrite <- L. pose proof (P xs N). assert (0 < rsum (map exp ys)) by (apply P; intros ->; destruct xs; [easy|discriminate L]). assert (0 < / INR (length xs)) by now apply Rinv_0_lt_compat.
    apply ln_ratio; [apply Rdiv_lt_0_compat; lra..|]. unfold Rdiv. rewrite Rmult_assoc, (Rmult_comm (/ _)), <- Rmult_assoc. apply Rmult_le_compat_r; lra. }
  intros N H. pose proof (G xs ys N H). assert (N' : ys <> []) by (intros ->; inversion H; subst; easy). pose proof (G ys xs N' (close_sym _ _ _ H)). apply Rabs_le. lra.
Qed.
Lemma mean_close d xs ys : xs <> [] -> close d xs ys -> Rabs (mean_of xs - mean_of ys) <= d.
Proof.
  intros N H. assert (L : length xs = length ys) by (clear N; induction H; cbn; auto). assert (n0 : 0 < INR (length xs)) by (destruct xs; [easy|]; apply lt_0_INR; cbn; lia).
  assert (S : Rabs (rsum xs - rsum ys) <= INR (length xs) * d).
  { clear - H. induction H as [|x y xs ys X H IH]; [cbn; rewrite Rminus_0_r, Rabs_R0; lra|]. cbn [length rsum fold_right]. unfold rsum in IH. rewrite S_INR. match goal with |- Rabs (x + ?a - (y + ?c)) <= _ => replace (x + a - (y + c)) with ((x - y) + (a - c)) by ring end. eapply Rle_trans; [apply Rabs_triang|]. lra. }
  unfold mean_of. rewrite <- L. replace (rsum xs / INR (length xs) - rsum ys / INR (length xs)) with ((rsum xs - rsum ys) * / INR (length xs)) by (unfold Rdiv; ring). assert (0 < / INR (length xs)) by now apply Rinv_0_lt_compat. rewrite Rabs_mult, (Rabs_pos_eq (/ _)) by lra.
  apply (Rmult_le_reg_r (INR (length xs))); [exact n0|]. rewrite Rmult_assoc, Rinv_l by lra. lra.
Qed.
Lemma cost_close d c xs ys es : close d xs ys -> (2 <= length xs)%nat -> length es = length xs -> Forall (fun e => Rabs e <= c) es -> 
  Rabs (vimco_cost xs es - vimco_cost ys es) <= (2 * INR (length xs) * c + 1) * d.
Proof.
  intros H N Le Be. assert (L : length xs = length ys) by (clear - H; induction H; cbn; auto). assert (Nx : xs <> []) by (intros ->; cbn in N; lia). pose proof (log_mean_close d xs ys Nx H) as D0. unfold vimco_cost. rewrite <- L.
  assert (S : forall k, (k < length xs)%nat -> Rabs (vimco_signal xs k - vimco_signal ys k) <= 2 * d).
  { intros k K. unfold vimco_signal. pose proof (close_others d xs ys H k) as O. assert (No : others xs k <> []) by (intros Z; pose proof (others_length xs k K) as Lo; rewrite Z in Lo; cbn in Lo; lia). pose proof (mean_close d _ _ No O) as Mo.
    pose proof (log_mean_close d (mean_of (others xs k) :: others xs k) (mean_of (others ys k) :: others ys k) ltac:(discriminate) ltac:(constructor; assumption)) as D1.
    set (a := log_mean xs) in *. set (a' := log_mean ys) in *. set (e := log_mean (_ :: others xs k)) in *. set (e' := log_mean (_ :: others ys k)) in *. replace (a - e - (a' - e')) with ((a - a') + - (e - e')) by ring. eapply Rle_trans; [apply Rabs_triang|]. rewrite Rabs_Ropp. lra. }
  assert (G : forall l, (forall k, In k l -> (k < length xs)%nat) -> Rabs (rsum (map (fun k => nth k es 0 * vimco_signal xs k) l) - rsum (map (fun k => nth k es 0 * vimco_signal ys k) l)) <= INR (length l) * (c * (2 * d))).
  { clear D0. induction l as [|k l IH]; intros Hl; [cbn; rewrite Rminus_0_r, Rabs_R0; lra|]. cbn [length map rsum fold_right]. specialize (IH ltac:(intros; apply Hl; now right)). unfold rsum in IH. rewrite S_INR.
    match goal with |- Rabs (?x + ?a - (?y + ?z)) <= _ => replace (x + a - (y + z)) with ((x - y) + (a - z)) by ring end. eapply Rle_trans; [apply Rabs_triang|]. rewrite <- Rmult_minus_distr_l, Rabs_mult. specialize (S k (Hl k (or_introl eq_refl))).
    assert (Rabs (nth k es 0) <= c) by (rewrite Forall_forall in Be; apply Be, nth_In; rewrite Le; apply Hl; now left). assert (Rabs (nth k es 0) * Rabs (vimco_signal xs k - vimco_signal ys k) <= c * (2 * d)) by (apply Rmult_le_compat; auto using Rabs_pos). lra. }
  specialize (G (seq 0 (length xs)) ltac:(intros k I; apply in_seq in I; lia)). rewrite seq_length in G. set (a := rsum _) in *. set (a' := rsum _) in G |- *. replace (a - log_mean xs - (a' - log_mean ys)) with ((a - a') + - (log_mean xs - log_mean ys)) by ring. eapply Rle_trans; [apply Rabs_triang|]. rewrite Rabs_Ropp. lra.
Qed.

(** ** The largest of a list, and log_mean_exp of finite numbers *)
Lemma largest_exists xs : xs <> [] -> exists m, largest (map Fi xs) m.
Proof.
  induction xs as [|x xs IH]; intros N; [easy|]. destruct xs as [|y xs]; [exists x; split; [now left|]; intros z [E|[]]; injection E as ->; lra|]. destruct IH as (m & I & M); [discriminate|].
  destruct (Rle_dec x m) as [L|L].
  - exists m. split; [now right|]. intros z [E|I']; [injection E as <-; exact L|now apply M].
  - exists x. split; [now left|]. intros z [E|I']; [injection E as <-; lra|specialize (M z I'); lra].
Qed.
Lemma exp_sum_map xs : exp_sum (map Fi xs) = rsum (map exp xs).
Proof. unfold exp_sum. rewrite map_map. reflexivity. Qed.
Section Estimators.
Variables libexp liblog : R -> R.
Hypothesis FE : faithful_exp prec top libexp.
Hypothesis FL : faithful_log prec top liblog.
Lemma mean_exp_spec p p1 keepdims xs r c : (0 <= r)%Z -> Forall float xs -> Forall (fun x => Rabs x <= c * b r) xs -> 0 <= c -> xs <> [] -> (Z.of_nat (length xs) <= 2 ^ prec)%Z -> adds_up p (length xs) -> adds_up p1 1 ->
  exists v, flog_mean_exp prec top libexp liblog p p1 keepdims (map Fi xs) = Fi v /\ float v /\ Rabs v <= 8 / 7 * (c + 5) * b r /\ Rabs (v - log_mean xs) <= (8 / 7 * (c + 5) + 5 * INR (length xs)) * u * b r.
Proof.
  intros Hr F B C0 N L P P1. destruct (largest_exists xs N) as (m & M). assert (U : 0 < u) by apply u_pos. pose proof (u_eighth prec top A) as U8.
  destruct (C55_log_mean_exp prec top libexp liblog W FE FL p p1 keepdims (map Fi xs) m) as (v & E & Fv & _ & D); rewrite ?map_length; auto.
  { apply Forall_forall. intros e He. apply in_map_iff in He as (x & <- & Hx). right. exists x. split; [reflexivity|]. rewrite Forall_forall in F. now apply F. }
  exists v. split; [exact E|]. split; [exact Fv|]. rewrite map_length, exp_sum_map in D. change (ln (rsum (map exp xs) / INR (length xs))) with (log_mean xs) in D.
  pose proof (log_mean_bounded (c * b r) xs N B) as Q. assert (B1 : 1 <= b r) by (change 1 with (b 0); apply bpow_le; lia). pose proof (nu_1 (length xs) L) as NU. set (n := INR (length xs)) in *. assert (n0 : 0 <= n) by apply pos_INR.
  assert (V : Rabs v <= 8 / 7 * (c + 5) * b r).
  { assert (Rabs v <= Rabs (v - log_mean xs) + Rabs (log_mean xs)) by (replace v with (v - log_mean xs + log_mean xs) at 1 by ring; apply Rabs_triang). assert (Rabs v * u <= Rabs v * (1 / 8)) by (apply Rmult_le_compat_l; [apply Rabs_pos|exact U8]). nra. }
  split; [exact V|]. eapply Rle_trans; [exact D|]. rewrite !Rmult_plus_distr_r. apply Rplus_le_compat; [nra|]. assert (0 <= n * u) by (apply Rmult_le_pos; lra). nra.
Qed.
Section Samples.
Variables (xs : list R) (r : Z).
Notation n := (length xs).
Hypothesis F : Forall float xs.
Hypothesis B : Forall (fun x => Rabs x <= b r) xs.
Hypothesis R0' : (0 <= r)%Z.
Hypothesis R1 : (r + prec + 3 <= top)%Z.
Hypothesis N2 : (2 <= n)%nat.
Hypothesis N1 : (Z.of_nat n <= 2 ^ prec)%Z.
Lemma mean_except_spec p k : adds_up p n -> (k < n)%nat ->
  exists m, fmean_except prec top p (map Fi xs) k = Fi m /\ float m /\ Rabs m <= 8 * b r /\ Rabs (m - mean_of (others xs k)) <= 10 * INR n * u * b r.
Proof.
  intros P K. pose proof (top_big prec top A) as TB. pose proof A as (_ & p3 & _). assert (U : 0 < u) by apply u_pos. pose proof (u_eighth prec top A) as U8. pose proof (nu_1 n N1) as NU. assert (n2 : 2 <= INR n) by (apply (le_INR 2); exact N2). pose proof (bpow_gt_0 radix2 r) as Br.
  destruct (list_sum xs p r) as (s & Es & Fs & Ds); try assumption. { eapply Forall_impl; [|exact F]. intros x (H & _). exact H. }
  set (x := nth k xs 0). assert (Fx : float x) by (rewrite Forall_forall in F; apply F, nth_In, K). assert (Bx : Rabs x <= b r) by (rewrite Forall_forall in B; apply (B x), nth_In, K).
  pose proof (rsum_bounded (b r) xs B) as SB. pose proof (rsum_others (fun x => x) xs k K) as RO. rewrite !map_id in RO. fold x in RO. pose proof (rsum_bounded (b r) _ (others_bounded _ xs k B)) as OB. rewrite (others_length xs k K) in OB. rewrite minus_INR in OB by lia. change (INR 1) with 1 in OB.
  assert (Ds' : Rabs (s - rsum xs) <= 2 * INR n * b r).
  { eapply Rle_trans; [exact Ds|]. replace (2 * INR n * INR n * u * b r) with (2 * INR n * b r * (INR n * u)) by ring. rewrite <- (Rmult_1_r (2 * INR n * b r)) at 2. apply Rmult_le_compat_l; [|exact NU]. apply Rmult_le_pos; lra. }
  assert (Bd : Rabs (s - x) <= (3 * INR n + 1) * b r) by (replace (s - x) with ((s - rsum xs) + rsum (others xs k)) by lra; eapply Rle_trans; [apply Rabs_triang|]; lra).
  assert (np : INR n <= b prec) by (rewrite INR_IZR_INZ, <- (IZR_Zpower radix2) by lia; apply IZR_le, N1).
  assert (Bd' : Rabs (s - x) <= b (r + prec + 2)).
  { eapply Rle_trans; [exact Bd|]. replace (b (r + prec + 2)) with (4 * b prec * b r) by (rewrite !bpow_plus; change (b 2) with 4; ring). apply Rmult_le_compat_r; lra. }
  destruct (fsub_near prec top A s x (r + prec + 2) ltac:(lia) ltac:(lia) Bd') as (E1 & F1 & _). destruct (factor_sub prec top A s x (proj1 Fs) (proj1 Fx)) as (f & Ef & Hf). set (d := near (s - x)) in *.
  assert (Dd : Rabs (d - (s - x)) <= u * ((3 * INR n + 1) * b r)).
  { rewrite Ef. replace ((s - x) * f - (s - x)) with ((f - 1) * (s - x)) by ring. rewrite Rabs_mult. rewrite Rmult_1_l in Hf. apply Rmult_le_compat; auto using Rabs_pos. }
  set (n1 := INR n - 1). assert (n1p : 1 <= n1) by (unfold n1; lra). assert (in1 : 0 < / n1) by (apply Rinv_0_lt_compat; lra).
  assert (In1 : INR n * / n1 <= 2) by (apply (Rmult_le_reg_r n1); [lra|]; rewrite Rmult_assoc, Rinv_l by lra; unfold n1; lra). assert (i1 : / n1 <= 1) by (rewrite <- Rinv_1; apply Rinv_le; lra).
  set (ex := mean_of (others xs k)). assert (Eex : ex = rsum (others xs k) * / n1) by (unfold ex, mean_of; rewrite (others_length xs k K), minus_INR by lia; reflexivity).
  assert (Bex : Rabs ex <= b r). { rewrite Eex, Rabs_mult, (Rabs_pos_eq (/ n1)) by lra. apply (Rmult_le_reg_r n1); [lra|]. rewrite Rmult_assoc, Rinv_l by lra. unfold n1 in *. lra. }
  assert (UB : 0 < u * b r) by (apply Rmult_lt_0_compat; lra).
  assert (Dq : Rabs (d / n1 - ex) <= (4 * INR n + 7) * u * b r).
  { rewrite Eex. unfold Rdiv. replace (d * / n1 - rsum (others xs k) * / n1) with (((d - (s - x)) + (s - rsum xs)) * / n1) by (rewrite <- RO; ring). rewrite Rabs_mult, (Rabs_pos_eq (/ n1)) by lra.
    apply Rle_trans with ((u * ((3 * INR n + 1) * b r) + 2 * INR n * INR n * u * b r) * / n1); [apply Rmult_le_compat_r; [lra|]; eapply Rle_trans; [apply Rabs_triang|]; lra|].
    replace ((u * ((3 * INR n + 1) * b r) + 2 * INR n * INR n * u * b r) * / n1) with ((3 * (INR n * / n1) + / n1 + 2 * INR n * (INR n * / n1)) * (u * b r)) by ring. rewrite (Rmult_assoc _ u (b r)). apply Rmult_le_compat_r; [lra|].
    assert (INR n * (INR n * / n1) <= INR n * 2) by (apply Rmult_le_compat_l; lra). lra. }
  assert (Bq : Rabs (d / n1) <= b (r + 3)).
  { replace (d / n1) with (d / n1 - ex + ex) by ring. eapply Rle_trans; [apply Rabs_triang|]. rewrite bpow_plus. change (b 3) with 8. assert ((4 * INR n + 7) * u * b r <= (4 + 7 / 8) * b r) by (apply Rmult_le_compat_r; lra). lra. }
  pose proof (near_binade prec top A _ (r + 3) ltac:(lia) Bq) as Nq. assert (Bm : Rabs (near (d / n1)) <= b (r + 3)) by (apply (near_bpow prec top W); [lia|exact Bq]).
  assert (B8 : b (r + 3) = 8 * b r) by (rewrite bpow_plus; change (b 3) with 8; ring).
  assert (Om : Rabs (near (d / n1)) < b top) by (eapply Rle_lt_trans; [exact Bm|apply bpow_lt; lia]).
  exists (near (d / n1)). split.
  - unfold fmean_except. rewrite Es, map_length. replace (nth k (map Fi xs) NaN) with (Fi x) by (rewrite (nth_indep _ NaN (Fi 0)) by (rewrite map_length; exact K); symmetry; apply (map_nth Fi)). rewrite E1. unfold fdivn. cbn [ediv]. rewrite minus_INR by lia. change (INR 1) with 1. fold n1. destruct (Req_EM_T n1 0); [lra|]. cbn [rounded]. now apply (overflow_small top).
  - split; [split; [apply (near_fmt prec top W)|exact Om]|]. split; [rewrite <- B8; exact Bm|]. replace (near (d / n1) - ex) with ((near (d / n1) - d / n1) + (d / n1 - ex)) by ring. eapply Rle_trans; [apply Rabs_triang|]. rewrite B8 in Nq. assert (11 * (u * b r) <= 6 * INR n * (u * b r)) by (apply Rmult_le_compat_r; lra). lra.
Qed.
Lemma nth_Fi (ys : list R) j : (j < length ys)%nat -> nth j (map Fi ys) NaN = Fi (nth j ys 0).
Proof. intros H. rewrite (nth_indep _ NaN (Fi 0)) by (rewrite map_length; exact H). apply (map_nth Fi). Qed.
Lemma column_spec p k m : (k < n)%nat -> fmean_except prec top p (map Fi xs) k = Fi m -> float m ->
  fx_ex prec top p (map Fi xs) k = map Fi (firstn k xs ++ m :: skipn (S k) xs).
Proof.
  intros K E Fm. unfold fx_ex. rewrite E, map_length, <- (replaced_list m xs k K), map_map. apply map_ext_in. intros j J. apply in_seq in J. rewrite !nth_Fi by lia.
  assert (Fj : float (nth j xs 0)) by (rewrite Forall_forall in F; apply F, nth_In; lia). destruct (Nat.eqb_spec j k) as [->|Nj]; unfold fadd, fsub, esub; cbn [eneg eadd].
  - replace (nth k xs 0 + - nth k xs 0) with 0 by ring. rewrite (rounded_float prec top 0 (float_0 prec top)). cbn [eadd]. rewrite Rplus_0_l. now apply rounded_float.
  - replace (nth j xs 0 + - 0) with (nth j xs 0) by ring. rewrite (rounded_float prec top _ Fj). cbn [eadd]. rewrite Rplus_0_r. now apply rounded_float.
Qed.
Lemma control_spec p p2 p1 k : adds_up p n -> adds_up (p2 k) n -> adds_up p1 1 -> (k < n)%nat ->
  exists v, fcontrol_variate prec top libexp liblog p p2 p1 (map Fi xs) k = Fi v /\ float v /\ Rabs v <= 15 * b r /\
    Rabs (v - log_mean (mean_of (others xs k) :: others xs k)) <= (15 + 15 * INR n) * u * b r.
Proof.
  intros P P2 P1 K. destruct (mean_except_spec p k P K) as (m & E & Fm & Bm & Dm). pose proof (bpow_gt_0 radix2 r) as Br. assert (U : 0 < u) by apply u_pos. set (ys := firstn k xs ++ m :: skipn (S k) xs).
  assert (PM : Permutation ys (m :: others xs k)) by (unfold ys, others; symmetry; apply Permutation_middle). assert (Ly : length ys = n) by (rewrite (Permutation_length PM); cbn [length]; rewrite (others_length xs k K); lia).
  destruct (mean_exp_spec (p2 k) p1 false ys r 8) as (v & Ev & Fv & Bv & Dv); rewrite ?Ly; auto; try lra.
  { apply (Permutation_Forall (Permutation_sym PM)). constructor; [exact Fm|apply others_bounded, F]. }
  { apply (Permutation_Forall (Permutation_sym PM)). constructor; [exact Bm|]. eapply Forall_impl; [|apply others_bounded, B]. cbn. intros x X. lra. }
  { intros Z. rewrite Z in Ly. cbn in Ly. lia. }
  exists v. split; [unfold fcontrol_variate; rewrite (column_spec p k m K E Fm); exact Ev|]. split; [exact Fv|]. rewrite Ly in Dv. rewrite (log_mean_perm _ _ PM) in Dv. split; [lra|].
  pose proof (log_mean_lipschitz m (mean_of (others xs k)) (others xs k)) as Lip. set (a := log_mean (m :: others xs k)) in *. set (a' := log_mean (mean_of (others xs k) :: others xs k)) in *.
  replace (v - a') with ((v - a) + (a - a')) by ring. eapply Rle_trans; [apply Rabs_triang|]. assert (0 < u * b r) by (apply Rmult_lt_0_compat; lra). lra.
Qed.
Lemma signal_spec p p2 p1 pm k : adds_up p n -> adds_up (p2 k) n -> adds_up p1 1 -> adds_up pm n -> (k < n)%nat ->
  exists v, fsignal prec top libexp liblog p p2 p1 pm (map Fi xs) k = Fi v /\ float v /\ Rabs v <= 32 * b r /\ Rabs (v - vimco_signal xs k) <= 42 * INR n * u * b r.
Proof.
  intros P P2 P1 Pm K. pose proof (top_big prec top A) as TB. pose proof A as (_ & p3 & _). pose proof (bpow_gt_0 radix2 r) as Br. assert (U : 0 < u) by apply u_pos. assert (n2 : 2 <= INR n) by (apply (le_INR 2); exact N2).
  destruct (control_spec p p2 p1 k P P2 P1 K) as (c & Ec & Fc & Bc & Dc).
  destruct (mean_exp_spec pm p1 true xs r 1) as (a & Ea & Fa & Ba & Da); auto; try lra. { eapply Forall_impl; [|exact B]. cbn. intros x X. lra. } { intros Z. rewrite Z in N2. cbn in N2. lia. }
  assert (Bs : Rabs (a - c) <= 22 * b r) by (unfold Rminus; eapply Rle_trans; [apply Rabs_triang|]; rewrite Rabs_Ropp; lra). assert (B32 : b (r + 5) = 32 * b r) by (rewrite bpow_plus; change (b 5) with 32; ring).
  destruct (fsub_near prec top A a c (r + 5) ltac:(lia) ltac:(lia) ltac:(rewrite B32; lra)) as (E & Fv & Bv). rewrite B32 in Bv. destruct (factor_sub prec top A a c (proj1 Fa) (proj1 Fc)) as (f & Ef & Hf).
  exists (near (a - c)). split; [unfold fsignal; rewrite Ea, Ec; exact E|]. split; [exact Fv|]. split; [exact Bv|].
  assert (D : Rabs (near (a - c) - (a - c)) <= u * (22 * b r)). { rewrite Ef. replace ((a - c) * f - (a - c)) with ((f - 1) * (a - c)) by ring. rewrite Rabs_mult. rewrite Rmult_1_l in Hf. apply Rmult_le_compat; auto using Rabs_pos. }
  unfold vimco_signal. set (a' := log_mean xs) in *. set (c' := log_mean (mean_of (others xs k) :: others xs k)) in *.
  replace (near (a - c) - (a' - c')) with ((near (a - c) - (a - c)) + ((a - a') + - (c - c'))) by ring. eapply Rle_trans; [apply Rabs_triang|]. eapply Rle_trans; [apply Rplus_le_compat_l, Rabs_triang|]. rewrite Rabs_Ropp.
  assert (0 < u * b r) by (apply Rmult_lt_0_compat; lra). assert (2 * (u * b r) <= INR n * (u * b r)) by (apply Rmult_le_compat_r; lra). lra.
Qed.
(** The cost, for log weights [xs] given and finite values of minus log q. *)
Lemma cost_spec p p2 p1 pm pm' pf es q : adds_up p n -> (forall k, adds_up (p2 k) n) -> adds_up p1 1 -> adds_up pm n -> adds_up pm' n -> adds_up pf n ->
  length es = n -> Forall float es -> Forall (fun e => Rabs e <= b q) es -> (0 <= q)%Z -> (q + r + prec + 9 <= top)%Z ->
  exists c, fsub prec top (eneg (ffake_term prec top libexp liblog p p2 p1 pm pf (map Fi xs) (map Fi es))) (flog_mean_exp prec top libexp liblog pm' p1 false (map Fi xs)) = Fi c /\ float c /\
    Rabs (c - vimco_cost xs es) <= 172 * INR n * INR n * u * b q * b r.
Proof.
  intros P P2 P1 Pm Pm' Pf Le Fe Be Q0 Q1. pose proof (top_big prec top A) as TB. pose proof A as (_ & p3 & _). pose proof (bpow_gt_0 radix2 r) as Br. pose proof (bpow_gt_0 radix2 q) as Bq. assert (U : 0 < u) by apply u_pos. pose proof (u_eighth prec top A) as U8. assert (n2 : 2 <= INR n) by (apply (le_INR 2); exact N2). pose proof (nu_1 n N1) as NU.
  assert (Bqr : b (q + r + 5) = 32 * (b q * b r)) by (rewrite !bpow_plus; change (b 5) with 32; ring). set (EM := b q * b r) in *. assert (EM0 : 0 < EM) by (apply Rmult_lt_0_compat; lra). assert (ME : b r <= EM) by (unfold EM; assert (1 <= b q) by (change 1 with (b 0); apply bpow_le; lia); nra).
  assert (T : forall k, (k < n)%nat -> exists t, fmul prec top (eneg (nth k (map Fi es) NaN)) (fsignal prec top libexp liblog p p2 p1 pm (map Fi xs) k) = Fi t /\ float t /\ Rabs t <= b (q + r + 5) /\ Rabs (t + nth k es 0 * vimco_signal xs k) <= 50 * INR n * u * EM).
  { intros k K. destruct (signal_spec p p2 p1 pm k P (P2 k) P1 Pm K) as (v & Ev & Fv & Bv & Dv). assert (Ee : nth k (map Fi es) NaN = Fi (nth k es 0)) by (rewrite (nth_indep _ NaN (Fi 0)) by (rewrite map_length, Le; exact K); apply (map_nth Fi)). set (e := nth k es 0) in *.
    assert (Bek : Rabs e <= b q) by (rewrite Forall_forall in Be; apply (Be e), nth_In; rewrite Le; exact K). rewrite Ee, Ev. cbn [eneg].
    assert (Bp : Rabs (- e * v) <= b (q + r + 5)) by (rewrite Rabs_mult, Rabs_Ropp, Bqr; unfold EM; replace (32 * (b q * b r)) with (b q * (32 * b r)) by ring; apply Rmult_le_compat; auto using Rabs_pos).
    destruct (fmul_near prec top A (- e) v (q + r + 5) ltac:(lia) ltac:(lia) Bp) as (E & Ft & Bt). pose proof (near_binade prec top A _ (q + r + 5) ltac:(lia) Bp) as Nt. exists (near (- e * v)). split; [exact E|]. split; [exact Ft|]. split; [exact Bt|].
    replace (near (- e * v) + e * vimco_signal xs k) with ((near (- e * v) - - e * v) + - (e * (v - vimco_signal xs k))) by ring. eapply Rle_trans; [apply Rabs_triang|]. rewrite Rabs_Ropp, Rabs_mult.
    assert (Rabs e * Rabs (v - vimco_signal xs k) <= b q * (42 * INR n * u * b r)) by (apply Rmult_le_compat; auto using Rabs_pos). rewrite Bqr in Nt. replace (b q * (42 * INR n * u * b r)) with (42 * INR n * (u * EM)) in H by (unfold EM; ring).
    assert (0 < u * EM) by (apply Rmult_lt_0_compat; lra). assert (2 * (u * EM) <= INR n * (u * EM)) by (apply Rmult_le_compat_r; lra). lra. }
  destruct (term_list (fun k => fmul prec top (eneg (nth k (map Fi es) NaN)) (fsignal prec top libexp liblog p p2 p1 pm (map Fi xs) k)) (fun k => nth k es 0 * vimco_signal xs k) (b (q + r + 5)) (50 * INR n * u * EM) (seq 0 n)) as (ts & Lt & Et & Ft & Bt & Dt).
  { intros k I. apply in_seq in I. apply T. lia. }
  rewrite seq_length in Lt, Dt.
  destruct (list_sum ts pf (q + r + 5)) as (s & Es & Fs & Ds); rewrite ?Lt; try assumption; try lia. rewrite Lt in Ds. rewrite Bqr in Ds.
  destruct (mean_exp_spec pm' p1 false xs r 1) as (a & Ea & Fa & Ba & Da); auto; try lra. { eapply Forall_impl; [|exact B]. cbn. intros x X. lra. } { intros Z. rewrite Z in N2. cbn in N2. lia. }
  pose proof (rsum_bounded _ _ Bt) as SB. rewrite Lt, Bqr in SB.
  assert (Bs : Rabs s <= 96 * INR n * EM).
  { replace s with (s - rsum ts + rsum ts) by ring. eapply Rle_trans; [apply Rabs_triang|]. assert (2 * INR n * INR n * u * (32 * EM) <= 64 * INR n * EM) by (replace (2 * INR n * INR n * u * (32 * EM)) with (64 * INR n * EM * (INR n * u)) by ring; rewrite <- (Rmult_1_r (64 * INR n * EM)) at 2; apply Rmult_le_compat_l; [apply Rmult_le_pos; lra|exact NU]). lra. }
  assert (nEM : 2 * EM <= INR n * EM) by (apply Rmult_le_compat_r; lra).
  assert (Bc : Rabs (- s - a) <= 103 * INR n * EM) by (unfold Rminus; eapply Rle_trans; [apply Rabs_triang|]; rewrite !Rabs_Ropp; lra).
  assert (np : INR n <= b prec) by (rewrite INR_IZR_INZ, <- (IZR_Zpower radix2) by lia; apply IZR_le, N1).
  assert (Bc' : Rabs (- s - a) <= b (q + r + prec + 7)). { eapply Rle_trans; [exact Bc|]. replace (b (q + r + prec + 7)) with (128 * b prec * EM) by (unfold EM; rewrite !bpow_plus; change (b 7) with 128; ring). apply Rmult_le_compat_r; lra. }
  destruct (fsub_near prec top A (- s) a (q + r + prec + 7) ltac:(lia) ltac:(lia) Bc') as (E & Fc & _). destruct (factor_sub prec top A (- s) a) as (f & Ef & Hf); [apply fmt_opp, Fs|apply Fa|].
  exists (near (- s - a)). split; [unfold ffake_term; rewrite map_length, Et, Es, Ea; exact E|]. split; [exact Fc|].
  assert (D : Rabs (near (- s - a) - (- s - a)) <= u * (103 * INR n * EM)). { rewrite Ef. replace ((- s - a) * f - (- s - a)) with ((f - 1) * (- s - a)) by ring. rewrite Rabs_mult. rewrite Rmult_1_l in Hf. apply Rmult_le_compat; auto using Rabs_pos. }
  unfold vimco_cost. set (V := rsum (map (fun k => nth k es 0 * vimco_signal xs k) (seq 0 n))) in *. set (a' := log_mean xs) in *.
  replace (near (- s - a) - (V - a')) with ((near (- s - a) - (- s - a)) + (- (s - rsum ts) + (- (rsum ts + V) + - (a - a')))) by ring.
  eapply Rle_trans; [apply Rabs_triang|]. eapply Rle_trans; [apply Rplus_le_compat_l, Rabs_triang|]. eapply Rle_trans; [apply Rplus_le_compat_l, Rplus_le_compat_l, Rabs_triang|]. rewrite !Rabs_Ropp.
  replace (172 * INR n * INR n * u * b q * b r) with (172 * INR n * INR n * (u * EM)) by (unfold EM; ring). assert (uEM : 0 < u * EM) by (apply Rmult_lt_0_compat; lra). assert (u * b r <= u * EM) by (apply Rmult_le_compat_l; lra).
  assert (N4 : 2 * (INR n * (u * EM)) <= INR n * (INR n * (u * EM))) by (apply Rmult_le_compat_r; [apply Rmult_le_pos; lra|lra]).
  assert (N5 : 2 * (u * EM) <= INR n * (u * EM)) by (apply Rmult_le_compat_r; lra).
  assert (N6 : (8 / 7 * (1 + 5) + 5 * INR n) * u * b r <= (7 + 5 * INR n) * (u * EM)) by (rewrite Rmult_assoc; apply Rmult_le_compat; try lra; apply Rmult_le_pos; lra).
  lra.
Qed.
End Samples.
End Estimators.
End Proofs.
