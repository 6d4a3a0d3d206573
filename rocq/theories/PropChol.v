(** C21 (and the Cholesky part of C11): MultivariateNormalCholesky and
    MatrixVariateNormalCholesky. *)
From Coq Require Import List Arith Lia Bool Reals Lra.
From Verif Require Import ModelShape SpecShape ProofShape ModelTensor SpecTensor ProofTensor ModelDist SpecDist ProofDist ProofDiscrete.
From Verif Require Import ModelChol SpecChol ProofChol.
Import ListNotations.
Local Open Scope R_scope.

(** The constructor accepts exactly the documented shapes. *)
Theorem C21_mvn_accepts mean cov : mvn_accepts mean cov = true <->
  exists b n, t_shape mean = b ++ [n] /\ t_shape cov = b ++ [n; n].
Proof.
  unfold mvn_accepts. destruct (t_shape mean) as [|d s] eqn:S.
  - split; [discriminate|]. intros [b [n [E _]]]. destruct b; discriminate.
  - destruct (exists_last (l := d :: s) ltac:(discriminate)) as [b [n E]]. rewrite E, last_last.
    destruct list_eq_dec as [Q|Q].
    + split; [intros _|auto]. exists b, n. split; [reflexivity|]. now rewrite Q, snoc2.
    + split; [discriminate|]. intros [b' [n' [E1 E2]]]. apply app_inj_tail in E1. destruct E1; subst.
      exfalso. apply Q. now rewrite E2, snoc2.
Qed.
Print Assumptions C21_mvn_accepts.

Theorem C21_mvmn_accepts mean u v : mvmn_accepts mean u v = true <->
  exists b r c, t_shape mean = b ++ [r; c] /\ t_shape u = b ++ [r; r] /\ t_shape v = b ++ [c; c].
Proof.
  unfold mvmn_accepts. split.
  - destruct (split2 (t_shape mean)) as [[[b r] c]|] eqn:S; [|discriminate]. apply split2_inv in S.
    destruct list_eq_dec; [|discriminate]. destruct list_eq_dec; [|discriminate]. intros _. exists b, r, c. auto.
  - intros [b [r [c [-> [-> ->]]]]]. rewrite split2_snoc. now repeat eqdec.
Qed.
Print Assumptions C21_mvmn_accepts.

(** ** Samplers *)

(** sample(n): n draws mean + L z, of shape [n] + batch_shape + [n_dim]. *)
Theorem C21_mvn_sample mean cov b n (noise : nat -> tensor R) :
  t_shape mean = b ++ [n] -> t_shape cov = b ++ [n; n] ->
  (forall N, t_shape (noise N) = mvn_noise_shape mean N) ->
  sample_contract (fun N => mvn_sample mean cov N (noise N)) (b ++ [n])
    (fun N s ir v => forall i r, ir = i ++ [r] ->
       v = t_at mean (i ++ [r]) + rsum n (fun k => mat cov i r k * mat (noise N) (s :: i) k 0)).
Proof.
  intros Sm Sc Sz. apply sample_contract_intro. intros N. unfold mvn_sample.
  assert (Sz' : t_shape (noise N) = (N :: b) ++ [n; 1%nat]).
  { rewrite Sz. unfold mvn_noise_shape. simpl. rewrite Sm. simpl. now rewrite <- app_assoc. }
  destruct (matmul_ok (tile0 N cov) (noise N) (N :: b) n n 1) as [z [Ez [Tz Vz]]].
  { simpl. now rewrite Sc. } { exact Sz'. }
  rewrite Ez. cbn [obind]. unfold elementwise. rewrite Tz. cbn [t_shape expand_last tile0]. rewrite Sm.
  replace ((N :: b ++ [n]) ++ [1%nat]) with ((N :: b) ++ [n; 1%nat]) by (simpl; now rewrite <- app_assoc).
  rewrite bshape_refl. cbn [obind].
  match goal with |- context[squeeze_last ?t] => destruct (squeeze_last_ok t ((N :: b) ++ [n])) as [q [Eq [Tq Vq]]] end.
  { cbn [t_shape]. apply snoc2. }
  exists q. split; [exact Eq|]. split; [exact Tq|]. intros s ir Hs Vir i r ->.
  destruct (valid_snoc_inv _ _ _ Vir) as [i' [r' [E [Vi Hr]]]]. apply app_inj_tail in E. destruct E; subst i' r'.
  rewrite Vq. cbn [t_at]. change (s :: i ++ [r]) with ((s :: i) ++ [r]). rewrite <- app_assoc. cbn [app].
  change (N :: b ++ [n; 1%nat]) with ((N :: b) ++ [n; 1%nat]).
  change (s :: i ++ [r; 0%nat]) with ((s :: i) ++ [r; 0%nat]).
  rewrite bindex_self by (apply valid2; [now apply valid_cons|assumption|lia]).
  specialize (Vz (s :: i) r 0%nat). unfold mat at 1 in Vz. rewrite Vz.
  cbn [t_at expand_last tile0]. rewrite (snoc2 (s :: i)), removelast_last. cbn [app tl]. rewrite Rplus_comm. f_equal.
Qed.
Print Assumptions C21_mvn_sample.

(** sample(n): n draws mean + U Z V^T. *)
Theorem C21_mvmn_sample mean u v b r c (noise : nat -> tensor R) :
  t_shape mean = b ++ [r; c] -> t_shape u = b ++ [r; r] -> t_shape v = b ++ [c; c] ->
  (forall N, t_shape (noise N) = N :: t_shape mean) ->
  sample_contract (fun N => mvmn_sample mean u v N (noise N)) (b ++ [r; c])
    (fun N s ixy e => forall i x y, ixy = i ++ [x; y] ->
       e = t_at mean (i ++ [x; y]) +
           rsum c (fun q => rsum r (fun p => mat u i x p * mat (noise N) (s :: i) p q) * mat v i y q)).
Proof.
  intros Sm Su Sv Sz. apply sample_contract_intro. intros N. unfold mvmn_sample.
  assert (Sz' : t_shape (noise N) = (N :: b) ++ [r; c]) by (rewrite Sz, Sm; reflexivity).
  destruct (matmul_ok (tile0 N u) (noise N) (N :: b) r r c) as [a [Ea [Ta Va]]].
  { simpl. now rewrite Su. } { exact Sz'. }
  rewrite Ea. cbn [obind].
  destruct (transpose_ok (tile0 N v) (N :: b) c c) as [vt [Et [Tt Vt]]]. { simpl. now rewrite Sv. }
  rewrite Et. cbn [obind].
  destruct (matmul_ok a vt (N :: b) r c c Ta Tt) as [z [Ez [Tz Vz]]]. rewrite Ez. cbn [obind].
  unfold elementwise. rewrite Tz, Sm. cbn [app].
  assert (F : bshape (b ++ [r; c]) (N :: b ++ [r; c]) = Some (N :: b ++ [r; c])) by apply fits_cons, fits_refl.
  rewrite F. eexists. split; [reflexivity|]. split; [reflexivity|]. intros s ixy Hs Vi i x y ->. cbn [t_at].
  rewrite (bindex_cons _ (b ++ [r; c])) by (auto using fits_refl; apply Vi).
  rewrite bindex_self by assumption. f_equal.
  rewrite bindex_self by (apply valid_cons; auto).
  specialize (Vz (s :: i) x y). unfold mat at 1 in Vz. cbn [app] in Vz. rewrite Vz.
  apply rsum_ext. intros q Hq. rewrite Va, Vt. f_equal.
Qed.
Print Assumptions C21_mvmn_sample.

(** ** Densities *)

(** log_prob of a value that is mean + L z is the reference density at z, for a
    [given] of any shape that broadcasts with the mean. *)
Theorem C21_mvn_log_prob mean cov given b n w :
  t_shape mean = b ++ [n] -> t_shape cov = b ++ [n; n] ->
  broadcast_all [t_shape given; t_shape mean] (w ++ [n]) ->
  exists t, mvn_log_prob mean cov given = Some t /\ t_shape t = w /\
    forall i j z lg lm, valid w i -> shows b i j -> shown_row given n i lg -> shown_row mean n i lm ->
      cholesky_factor n (mat cov j) ->
      (forall r, (r < n)%nat -> nth r lg 0 = nth r lm 0 + rsum n (fun k => mat cov j r k * z k)) ->
      t_at t i = mvn_reference n (mat cov j) z.
Proof.
  intros Sm Sc B. destruct (mvn_lp_raw mean cov given b n w Sm Sc B) as [t [E [T V]]].
  exists t. split; [exact E|]. split; [exact T|]. intros i j z lg lm Vi Sj Rg Rm Fac H.
  rewrite (V i j lg lm Vi Sj Rg Rm).
  rewrite (fsub_factor n (mat cov j) _ z Fac) by (intros r Hr; rewrite H by assumption; lra).
  unfold mvn_reference. do 2 f_equal. apply rsum_ext. intros k Hk. now rewrite nth_map_seq.
Qed.
Print Assumptions C21_mvn_log_prob.

Theorem C21_mvmn_log_prob mean u v given b nr nc w :
  t_shape mean = b ++ [nr; nc] -> t_shape u = b ++ [nr; nr] -> t_shape v = b ++ [nc; nc] ->
  broadcast_all [t_shape given; t_shape mean] (w ++ [nr; nc]) ->
  exists t, mvmn_log_prob mean u v given = Some t /\ t_shape t = w /\
    forall i j Z, valid w i -> shows b i j ->
      cholesky_factor nr (mat u j) -> cholesky_factor nc (mat v j) ->
      (forall x y vg vm, (x < nr)%nat -> (y < nc)%nat ->
         shown given (i ++ [x; y]) vg -> shown mean (i ++ [x; y]) vm ->
         vg = vm + rsum nc (fun q => rsum nr (fun p => mat u j x p * Z p q) * mat v j y q)) ->
      t_at t i = mvmn_reference nr nc (mat u j) (mat v j) Z.
Proof.
  intros Sm Su Sv B. pose proof (all_fits _ _ B) as F.
  assert (Fb : fits b w).
  { assert (Fm : fits (b ++ [nr; nc]) (w ++ [nr; nc])) by (apply F; rewrite Sm; simpl; auto).
    rewrite !snoc2 in Fm.
    destruct (fits_snoc_inv _ _ _ Fm) as [w' [n' [E [H _]]]]. apply app_inj_tail in E. destruct E; subst.
    destruct (fits_snoc_inv _ _ _ H) as [w'' [n'' [E [H' _]]]]. apply app_inj_tail in E. destruct E; now subst. }
  unfold mvmn_log_prob. rewrite Sm, split2_snoc. cbn [obind].
  destruct (diag_ok u b nr Su) as [du [Edu [Tdu Vdu]]]. rewrite Edu. cbn [obind].
  destruct (diag_ok v b nc Sv) as [dv [Edv [Tdv Vdv]]]. rewrite Edv. cbn [obind].
  destruct (flat_runs (Leaf given ⊖ Leaf mean) (w ++ [nr; nc])) as [y [Ey [Ty Vy]]]. { simpl. auto. } { exact B. }
  rewrite Ey. cbn [obind]. rewrite Ty, split2_snoc. cbn [obind].
  match goal with |- context[eval (bcast (Leaf u) (Leaf ?o))] =>
    destruct (bcast_factor u o b w nr Su eq_refl Fb) as [Lu [ELu [TLu VLu]]] end.
  rewrite ELu. cbn [obind].
  match goal with |- context[eval (bcast (Leaf v) (Leaf ?o))] =>
    destruct (bcast_factor v o b w nc Sv eq_refl Fb) as [Lv [ELv [TLv VLv]]] end.
  rewrite ELv. cbn [obind].
  destruct (solve_ok Lu y w nr nc TLu Ty) as [x [Ex [Tx Vx]]]. rewrite Ex. cbn [obind].
  destruct (transpose_ok x w nr nc Tx) as [xt [Ext [Txt Vxt]]]. rewrite Ext. cbn [obind].
  destruct (solve_ok Lv xt w nc nr TLv Txt) as [xs [Exs [Txs Vxs]]]. rewrite Exs. cbn [obind].
  match goal with |- exists t, eval ?e = Some t /\ _ => destruct (eval_of_eshape e w) as [t [Et [Tt Vt]]] end.
  { apply eshape_bin with (s := b) (t := w); [| |exact Fb].
    - apply eshape_bin_same.
      + apply eshape_bin_scalar_l; [reflexivity|]. apply eshape_bin_scalar_l; [reflexivity|].
        apply eshape_bin_scalar_l; [reflexivity|]. eapply eshape_row. cbn. now rewrite Tdv.
      + apply eshape_bin_scalar_l; [reflexivity|].
        apply eshape_bin_scalar_l; [reflexivity|]. eapply eshape_row. cbn. now rewrite Tdu.
    - apply eshape_bin_scalar_l; [reflexivity|]. eapply eshape_row, eshape_row. cbn.
      now rewrite Txs, snoc2. }
  exists t. split; [exact Et|]. split; [exact Tt|].
  intros i j Z Vi Sj FU FV H. rewrite Vt by assumption.
  assert (Li : (length b <= length i)%nat) by (apply fits_length in Fb; destruct Vi; lia).
  assert (Ej : j = bindex b i) by (eapply shows_unique; [exact Sj|]; now apply bindex_shows).
  assert (Wu : width (Un ln (Leaf du)) = nr) by (apply (width_snoc _ b); cbn; now rewrite Tdu).
  assert (Wv : width (Un ln (Leaf dv)) = nc) by (apply (width_snoc _ b); cbn; now rewrite Tdv).
  assert (E1 : eshape (Un square (Leaf xs)) = Some ((w ++ [nc]) ++ [nr])) by (cbn; now rewrite Txs, snoc2).
  pose proof (width_snoc _ _ _ E1) as W1.
  pose proof (width_snoc _ _ _ (eshape_row sumR _ _ _ E1)) as W2.
  cbn [den]. rewrite Wu, Wv, W1, W2, !sumR_map_seq.
  assert (Sol1 : forall y0, (y0 < nc)%nat -> fsub (mat Lu i) (fun q => mat y i q y0) nr =
            map (fun p => rsum nc (fun q => Z p q * mat v j y0 q)) (seq 0 nr)).
  { intros y0 Hy0. rewrite (fsub_ext _ (mat u j) _ (fun q => mat y i q y0)); auto.
    - apply fsub_factor; [assumption|]. intros r Hr. unfold mat at 1.
      rewrite Vy by now apply valid2. cbn [den].
      rewrite (H r y0 (view given (i ++ [r; y0])) (view mean (i ++ [r; y0]))); auto.
      + transitivity (rsum nc (fun q => rsum nr (fun p => mat u j r p * Z p q) * mat v j y0 q)); [lra|].
        rewrite (rsum_ext nc _ (fun q => rsum nr (fun p => mat u j r p * (Z p q * mat v j y0 q)))).
        * rewrite rsum_swap. apply rsum_ext. intros p Hp. rewrite <- rsum_scal. reflexivity.
        * intros q Hq. rewrite Rmult_comm, <- rsum_scal. apply rsum_ext. intros; lra.
      + apply view_shown; [|reflexivity].
        assert (G : fits (t_shape given) (w ++ [nr; nc])) by (apply F; simpl; auto).
        apply fits_length in G. rewrite app_length in G |- *. simpl in *. destruct Vi. lia.
      + apply view_shown; [|reflexivity]. rewrite Sm, !app_length. simpl. lia.
    - intros r c Hr Hc. rewrite VLu, Ej by (auto; lia). reflexivity. }
  assert (Sol2 : forall p, (p < nr)%nat -> fsub (mat Lv i) (fun q => mat xt i q p) nc =
            map (fun q => Z p q) (seq 0 nc)).
  { intros p Hp. rewrite (fsub_ext _ (mat v j) _ (fun q => mat xt i q p)); auto.
    - apply fsub_factor; [assumption|]. intros r Hr. rewrite Vxt, Vx, Sol1 by assumption.
      rewrite nth_map_seq by assumption. apply rsum_ext. intros; lra.
    - intros r c Hr Hc. rewrite VLv, Ej by (auto; lia). reflexivity. }
  assert (Q : rsum nc (fun k => sumR (map (fun k0 => square (view xs ((i ++ [k]) ++ [k0]))) (seq 0 nr)))
            = rsum nr (fun p => rsum nc (fun q => Z p q * Z p q))).
  { rewrite rsum_swap. apply rsum_ext. intros k Hk. rewrite sumR_map_seq. apply rsum_ext. intros p Hp.
    rewrite view_self by (rewrite Txs, <- snoc2; now apply valid2). rewrite <- snoc2.
    specialize (Vxs i k p). unfold mat at 1 in Vxs. rewrite Vxs, Sol2, nth_map_seq by assumption. reflexivity. }
  rewrite Q.
  assert (D : forall f d n, t_shape d = b ++ [n] -> (forall i k, t_at d (i ++ [k]) = mat f i k k) ->
            rsum n (fun k => ln (view d (i ++ [k]))) = rsum n (fun k => ln (mat f j k k))).
  { intros f d n Td Vd. apply rsum_ext. intros k Hk. f_equal. unfold view. rewrite Td, bindex_snoc by assumption.
    replace (if Nat.eqb n 1 then 0%nat else k) with k by (destruct (Nat.eqb_spec n 1); lia).
    now rewrite Vd, Ej. }
  rewrite (D u du nr), (D v dv nc) by assumption. unfold mvmn_reference. field.
Qed.
Print Assumptions C21_mvmn_log_prob.

(** ** Whitening undoes sampling *)

Lemma row_of_full (t : tensor R) u n i : t_shape t = u ++ [n] -> valid u i ->
  shown_row t n i (map (fun k => t_at t (i ++ [k])) (seq 0 n)).
Proof.
  intros S V. split; [now rewrite map_length, seq_length|]. intros k d Hk. rewrite nth_map_seq by assumption.
  apply view_shown. { rewrite S, !app_length. simpl. destruct V. lia. }
  symmetry. apply view_self. rewrite S. now apply valid_snoc.
Qed.
Lemma shows_cons (b : shape) s i : valid b i -> shows b (s :: i) i.
Proof.
  intros V. assert (E : bindex b (s :: i) = i).
  { rewrite (bindex_cons b b) by (auto using fits_refl; apply V). now apply bindex_self. }
  rewrite <- E at 2. apply bindex_shows. destruct V. simpl. lia.
Qed.
Lemma shown_row_cons (t : tensor R) (b : shape) n s i : t_shape t = b ++ [n] -> valid b i ->
  shown_row t n (s :: i) (map (fun k => t_at t (i ++ [k])) (seq 0 n)).
Proof.
  intros S V. split; [now rewrite map_length, seq_length|]. intros k d Hk. rewrite nth_map_seq by assumption.
  exists (i ++ [k]). split; [|reflexivity]. rewrite S. cbn [app]. apply shows_cons. now apply valid_snoc.
Qed.
Lemma broadcast_batch N s : broadcast_all [N :: s; s] (N :: s).
Proof. apply broadcast_all_cons, broadcast_all_one. Qed.

(** log_prob(sample(N)) is the standard normal log density of the noise that was
    drawn, minus the log determinant of the factor. *)
Theorem C21_mvn_log_prob_of_sample mean cov b n N noise :
  t_shape mean = b ++ [n] -> t_shape cov = b ++ [n; n] -> t_shape noise = mvn_noise_shape mean N ->
  exists x lp, mvn_sample mean cov N noise = Some x /\ mvn_log_prob mean cov x = Some lp /\
    t_shape lp = N :: b /\
    forall s i, (s < N)%nat -> valid b i -> cholesky_factor n (mat cov i) ->
      t_at lp (s :: i) = - (INR n / 2) * ln (2 * PI) - rsum n (fun k => ln (t_at cov (i ++ [k; k])))
                         - rsum n (fun k => (t_at noise (s :: i ++ [k; 0%nat])) ^ 2) / 2.
Proof.
  intros Sm Sc Sz.
  destruct (C21_mvn_sample mean cov b n (fun N' => if Nat.eqb N' N then noise else Tensor (mvn_noise_shape mean N') (fun _ => 0)) Sm Sc) as [HS _].
  { intros N'. destruct (Nat.eqb_spec N' N); subst; auto. }
  destruct (HS N) as [x [E [T V]]]. cbn [sample] in E. rewrite Nat.eqb_refl in E, V.
  destruct (C21_mvn_log_prob mean cov x b n (N :: b) Sm Sc) as [lp [El [Tl Vl]]].
  { rewrite T, Sm. apply broadcast_batch. }
  exists x, lp. split; [exact E|]. split; [exact El|]. split; [exact Tl|]. intros s i Hs Vi Fac.
  rewrite (Vl (s :: i) i (fun k => mat noise (s :: i) k 0) (map (fun k => t_at x ((s :: i) ++ [k])) (seq 0 n))
     (map (fun k => t_at mean (i ++ [k])) (seq 0 n))).
  - unfold mvn_reference. do 2 f_equal. apply rsum_ext. intros k Hk. unfold mat. cbn [app]. ring.
  - now apply valid_cons.
  - now apply shows_cons.
  - apply (row_of_full _ (N :: b)); [exact T|now apply valid_cons].
  - now apply (shown_row_cons _ b).
  - exact Fac.
  - intros r Hr. rewrite !nth_map_seq by assumption. cbn [app]. rewrite (V s (i ++ [r])) with (i := i) (r := r); auto.
    now apply valid_snoc.
Qed.
Print Assumptions C21_mvn_log_prob_of_sample.

Theorem C21_mvmn_log_prob_of_sample mean u v b r c N noise :
  t_shape mean = b ++ [r; c] -> t_shape u = b ++ [r; r] -> t_shape v = b ++ [c; c] ->
  t_shape noise = N :: t_shape mean ->
  exists x lp, mvmn_sample mean u v N noise = Some x /\ mvmn_log_prob mean u v x = Some lp /\
    t_shape lp = N :: b /\
    forall s i, (s < N)%nat -> valid b i -> cholesky_factor r (mat u i) -> cholesky_factor c (mat v i) ->
      t_at lp (s :: i) = - (INR r * INR c / 2) * ln (2 * PI)
        - INR r * rsum c (fun k => ln (t_at v (i ++ [k; k]))) - INR c * rsum r (fun k => ln (t_at u (i ++ [k; k])))
        - rsum r (fun p => rsum c (fun q => (t_at noise (s :: i ++ [p; q])) ^ 2)) / 2.
Proof.
  intros Sm Su Sv Sz.
  destruct (C21_mvmn_sample mean u v b r c (fun N' => if Nat.eqb N' N then noise else Tensor (N' :: t_shape mean) (fun _ => 0)) Sm Su Sv) as [HS _].
  { intros N'. destruct (Nat.eqb_spec N' N); subst; auto. }
  destruct (HS N) as [x [E [T V]]]. cbn [sample] in E. rewrite Nat.eqb_refl in E, V.
  destruct (C21_mvmn_log_prob mean u v x b r c (N :: b) Sm Su Sv) as [lp [El [Tl Vl]]].
  { rewrite T, Sm. apply broadcast_batch. }
  exists x, lp. split; [exact E|]. split; [exact El|]. split; [exact Tl|]. intros s i Hs Vi Fu Fv.
  rewrite (Vl (s :: i) i (mat noise (s :: i))).
  - unfold mvmn_reference. do 2 f_equal. apply rsum_ext. intros p Hp. apply rsum_ext. intros q Hq.
    unfold mat. cbn [app]. ring.
  - now apply valid_cons.
  - now apply shows_cons.
  - exact Fu.
  - exact Fv.
  - intros p q vg vm Hp Hq Sg Sv'.
    assert (Vpq : valid (b ++ [r; c]) (i ++ [p; q])) by now apply valid2.
    apply view_shown in Sg; [|rewrite T; cbn; rewrite !app_length; simpl; destruct Vi; lia].
    rewrite view_self in Sg by (rewrite T; now apply valid_cons).
    apply view_shown in Sv'; [|rewrite Sm; cbn; rewrite !app_length; simpl; destruct Vi; lia].
    cbn [app] in Sv'. rewrite (view_cons _ (t_shape mean)), view_self in Sv'; auto using fits_refl.
    + subst. cbn [app]. now rewrite (V s (i ++ [p; q])) with (i := i) (x := p) (y := q).
    + now rewrite Sm.
    + rewrite Sm. apply Vpq.
Qed.
Print Assumptions C21_mvmn_log_prob_of_sample.

(** ** Diagonal factor: a product of univariate Normals *)
Theorem C21_mvn_diagonal mean cov given b n w :
  t_shape mean = b ++ [n] -> t_shape cov = b ++ [n; n] ->
  broadcast_all [t_shape given; t_shape mean] (w ++ [n]) ->
  exists t, mvn_log_prob mean cov given = Some t /\ t_shape t = w /\
    forall i j lg lm, valid w i -> shows b i j -> shown_row given n i lg -> shown_row mean n i lm ->
      (forall r c, (r < n)%nat -> (c < n)%nat -> r <> c -> mat cov j r c = 0) ->
      (forall r, (r < n)%nat -> 0 < mat cov j r r) ->
      t_at t i = rsum n (fun k => normal_lp (nth k lg 0) (nth k lm 0) (ln (mat cov j k k))).
Proof.
  intros Sm Sc B. destruct (C21_mvn_log_prob mean cov given b n w Sm Sc B) as [t [E [T V]]].
  exists t. split; [exact E|]. split; [exact T|]. intros i j lg lm Vi Sj Rg Rm Off Pos.
  rewrite (V i j (fun k => (nth k lg 0 - nth k lm 0) / mat cov j k k) lg lm Vi Sj Rg Rm).
  - unfold mvn_reference. clear V. 
    assert (G : forall m, (m <= n)%nat ->
      - (INR m / 2) * ln (2 * PI) - rsum m (fun k => ln (mat cov j k k)) -
      rsum m (fun k => (nth k lg 0 - nth k lm 0) / mat cov j k k * ((nth k lg 0 - nth k lm 0) / mat cov j k k)) / 2 =
      rsum m (fun k => normal_lp (nth k lg 0) (nth k lm 0) (ln (mat cov j k k)))).
    { induction m; intros Hm.
      - unfold rsum. simpl. lra.
      - rewrite !rsum_S, <- IHm by lia. rewrite S_INR. unfold normal_lp, square.
        pose proof (Pos m ltac:(lia)) as P.
        assert (X : exp (-2 * ln (mat cov j m m)) = / (mat cov j m m * mat cov j m m)).
        { replace (-2 * ln (mat cov j m m)) with (- (ln (mat cov j m m) + ln (mat cov j m m))) by ring.
          rewrite exp_Ropp, exp_plus, exp_ln by assumption. reflexivity. }
        rewrite X. field. lra. }
    apply G. lia.
  - split; [|exact Pos]. intros r c H1 H2. apply Off; lia.
  - intros r Hr. pose proof (Pos r Hr) as P.
    assert (S1 : rsum n (fun k => mat cov j r k * ((nth k lg 0 - nth k lm 0) / mat cov j k k)) = nth r lg 0 - nth r lm 0).
    { clear - Off P Hr. 
      transitivity (rsum (S r) (fun k => mat cov j r k * ((nth k lg 0 - nth k lm 0) / mat cov j k k))).
      - apply rsum_cut; [lia|]. intros k Hk. rewrite Off by lia. lra.
      - rewrite rsum_S, rsum_zero; [field; lra|]. intros k Hk. rewrite Off by lia. lra. }
    rewrite S1. lra.
Qed.
Print Assumptions C21_mvn_diagonal.

(** ** Grouping: the shape contract (C11) of the Cholesky normals *)
Lemma broadcast_prefix pre s : broadcast_all [pre ++ s; s] (pre ++ s).
Proof.
  change [pre ++ s; s] with ([pre ++ s] ++ [s]). eapply broadcast_all_app; eauto using broadcast_all_one.
  rewrite bshape_comm. induction pre as [|a pre IH]; [apply bshape_refl|]. now apply fits_cons.
Qed.
Theorem C11_mvn_log_prob mean cov given b n pre g :
  t_shape mean = b ++ [n] -> t_shape cov = b ++ [n; n] -> t_shape given = pre ++ b ++ [n] ->
  (g <= length (pre ++ b))%nat ->
  exists t, obind (mvn_log_prob mean cov given) (fun t => log_prob g (Leaf t)) = Some t /\
    t_shape t = firstn (length (pre ++ b) - g) (pre ++ b).
Proof.
  intros Sm Sc Sg L. destruct (C21_mvn_log_prob mean cov given b n (pre ++ b) Sm Sc) as [t [E [T _]]].
  { rewrite Sg, Sm, <- app_assoc. apply broadcast_prefix. }
  rewrite E. cbn [obind]. destruct (log_prob_group (Leaf t) t g eq_refl) as [r [Er [Tr _]]]. { now rewrite T. }
  exists r. split; [exact Er|]. now rewrite Tr, T.
Qed.
Print Assumptions C11_mvn_log_prob.
Theorem C11_mvmn_log_prob mean u v given b r c pre g :
  t_shape mean = b ++ [r; c] -> t_shape u = b ++ [r; r] -> t_shape v = b ++ [c; c] ->
  t_shape given = pre ++ b ++ [r; c] -> (g <= length (pre ++ b))%nat ->
  exists t, obind (mvmn_log_prob mean u v given) (fun t => log_prob g (Leaf t)) = Some t /\
    t_shape t = firstn (length (pre ++ b) - g) (pre ++ b).
Proof.
  intros Sm Su Sv Sg L. destruct (C21_mvmn_log_prob mean u v given b r c (pre ++ b) Sm Su Sv) as [t [E [T _]]].
  { rewrite Sg, Sm, <- app_assoc. apply broadcast_prefix. }
  rewrite E. cbn [obind]. destruct (log_prob_group (Leaf t) t g eq_refl) as [q [Er [Tr _]]]. { now rewrite T. }
  exists q. split; [exact Er|]. now rewrite Tr, T.
Qed.
Print Assumptions C11_mvmn_log_prob.

(** ** A factor that is not triangular is accepted, and then the density is not the
    one that is sampled: the sampler multiplies by the whole matrix, the triangular
    solve of log_prob reads its lower half only. The matrix [[1,1],[0,1]] has
    determinant 1, so the reference is still the density of mean + L z. *)
Definition upper2 : tensor R :=
  Tensor [2; 2]%nat (fun i => match i with [0; 0] | [0; 1] | [1; 1] => 1%R | _ => 0%R end%nat).
Definition zero2 : tensor R := Tensor [2%nat] (fun _ => 0).
Definition noise01 : tensor R := Tensor [1; 2; 1]%nat (fun i => match i with [0; 1; 0] => 1%R | _ => 0%R end%nat).
Theorem C21_mvn_non_triangular_refuted :
  mvn_accepts zero2 upper2 = true /\ t_shape noise01 = mvn_noise_shape zero2 1 /\
  (forall r, (r < 2)%nat -> mat upper2 [] r r = 1) /\
  exists x lp, mvn_sample zero2 upper2 1 noise01 = Some x /\ mvn_log_prob zero2 upper2 x = Some lp /\
    t_at lp [0%nat] <> mvn_reference 2 (mat upper2 []) (fun k => mat noise01 [0%nat] k 0).
Proof.
  split; [reflexivity|]. split; [reflexivity|]. split.
  { intros [|[|r]] H; [reflexivity|reflexivity|lia]. }
  destruct (C21_mvn_sample zero2 upper2 [] 2 (fun N' => if Nat.eqb N' 1 then noise01 else Tensor (mvn_noise_shape zero2 N') (fun _ => 0))) as [HS _]; try reflexivity.
  { intros N'. destruct (Nat.eqb_spec N' 1); subst; auto. }
  destruct (HS 1%nat) as [x [E [T V]]]. cbn [sample Nat.eqb] in E, V.
  destruct (mvn_lp_raw zero2 upper2 x [] 2 [1%nat]) as [lp [El [Tl Vl]]]; try reflexivity.
  { rewrite T. apply (broadcast_batch 1 [2%nat]). }
  exists x, lp. split; [exact E|]. split; [exact El|].
  assert (V1 : valid [1%nat] [0%nat]) by (apply valid_cons; split; [lia|split; [reflexivity|simpl; lia]]).
  assert (X : forall r, (r < 2)%nat -> t_at x [0%nat; r] = 1).
  { intros r Hr. rewrite (V 0%nat [r]) with (i := []) (r := r); auto.
    - unfold rsum, mat. simpl. destruct r as [|[|r]]; [|simpl|lia]; unfold upper2; simpl; lra.
    - apply (valid_snoc [] [] 2 r); [split; [reflexivity|simpl; lia]|assumption]. }
  rewrite (Vl [0%nat] [] (map (fun k => t_at x ([0%nat] ++ [k])) (seq 0 2)) (map (fun k => 0) (seq 0 2))).
  - unfold mvn_reference, rsum, sumn, mat. simpl. rewrite !X by lia. simpl. unfold sumn. simpl. lra.
  - exact V1.
  - split; [reflexivity|simpl; lia].
  - apply (row_of_full x [1%nat] 2); [exact T|exact V1].
  - split; [reflexivity|]. intros c d Hc. rewrite nth_map_seq by assumption. exists [c]. split; [|reflexivity].
    apply (shows_cons [2%nat] 0 [c]). apply (valid_snoc [] [] 2 c); [split; [reflexivity|simpl; lia]|assumption].
Qed.
Print Assumptions C21_mvn_non_triangular_refuted.

(** Non-vacuity: a 2x2 factor in a batch of three. *)
Example chol_case : cholesky_factor 2 (mat (Tensor [3; 2; 2]%nat (fun i => match i with
    | [b; 0; 0] => INR (S b) | [b; 1; 0] => (-5)%R | [b; 1; 1] => 2%R | _ => 0%R end%nat)) [1%nat]).
Proof.
  split.
  - intros [|[|r]] [|[|c]] H1 H2; try lia. reflexivity.
  - intros [|[|r]] H; try lia; unfold mat; cbn [app t_at]; [apply lt_0_INR; lia|lra].
Qed.
