(** Change of variables along triangular affine maps. *)
From Coq Require Import List Reals Lra Lia Arith.
From Coquelicot Require Import Coquelicot.
From Verif Require Import SpecDensity ProofGauss ProofIntegral ProofDensity SpecMass.
Import List ListNotations.
Local Open Scope R_scope.

Lemma mass_vec_ext n : forall f g m, (forall v, length v = n -> f v = g v) -> mass_vec n f m -> mass_vec n g m.
Proof.
  induction n as [|n IH]; intros f g m E M; simpl in *.
  - rewrite <- E by reflexivity. exact M.
  - destruct M as (k & K & M). exists k. split; [|exact M]. intros x. apply (IH (fun v => f (x :: v))); auto.
    intros v L. apply E. simpl. now rewrite L.
Qed.
Lemma mass_scal c f m lo hi : Filter lo -> Filter hi -> mass f lo hi m -> mass (fun x => c * f x) lo hi (c * m).
Proof. intros F G M. unfold mass in *. now apply (is_RInt_gen_scal f c m). Qed.
Lemma mass_vec_scal n c : forall f m, mass_vec n f m -> mass_vec n (fun v => c * f v) (c * m).
Proof.
  induction n as [|n IH]; intros f m M; simpl in *.
  - now rewrite M.
  - destruct M as (k & K & M). exists (fun x => c * k x). split.
    + intros x. now apply (IH (fun v => f (x :: v))).
    + apply mass_scal; try apply Rbar_locally_filter. exact M.
Qed.
Lemma mass_shift f u v m : 0 < u -> mass f to_minus_infinity to_plus_infinity m ->
  mass (fun y => u * f (u * y + v)) to_minus_infinity to_plus_infinity m.
Proof.
  intros U M. unfold mass, is_RInt_gen, to_minus_infinity, to_plus_infinity in *. intros P HP.
  destruct (M P HP) as [Q R [a Qa] [b Rb] H].
  apply (Filter_prod _ _ _ (fun x => Q (u * x + v)) (fun x => R (u * x + v))).
  - exists ((a - v) / u). intros x X. apply Qa. apply Rmult_lt_compat_l with (r := u) in X; [|assumption].
    replace (u * ((a - v) / u)) with (a - v) in X by (field; lra). lra.
  - exists ((b - v) / u). intros x X. apply Rb. apply Rmult_lt_compat_l with (r := u) in X; [|assumption].
    replace (u * ((b - v) / u)) with (b - v) in X by (field; lra). lra.
  - intros x y Qx Ry. destruct (H _ _ Qx Ry) as (l & L & PL). exists l. split; [|exact PL]. cbn [fst snd] in *.
    exact (is_RInt_comp_lin f u v x y l L).
Qed.
Lemma mass_ext f g lo hi m : Filter lo -> Filter hi -> (forall x, f x = g x) -> mass f lo hi m -> mass g lo hi m.
Proof.
  intros FL FH E M. unfold mass in *. apply (is_RInt_gen_ext f); [|exact M].
  apply filter_forall_prod; [assumption|assumption|]. intros ab x _. apply E.
Qed.
Lemma mass_affine f s d m : 0 < d ->
  mass f to_minus_infinity to_plus_infinity m <->
  mass (fun x => / d * f ((x - s) / d)) to_minus_infinity to_plus_infinity m.
Proof.
  intros D. pose proof (Rinv_0_lt_compat d D) as D'. split; intros M.
  - apply (mass_shift f (/ d) (- s / d)) in M; [|assumption]. revert M.
    apply mass_ext; try apply Rbar_locally_filter. intros x. do 2 f_equal. field. lra.
  - apply (mass_shift _ d s) in M; [|assumption]. revert M. apply mass_ext; try apply Rbar_locally_filter. intros x.
    rewrite <- Rmult_assoc, Rinv_r, Rmult_1_l by lra. f_equal. field. lra.
Qed.

(** A triangular affine map: coordinate [k] is [shift (earlier coordinates) + d k * z_k]. *)
Fixpoint tri (shift : list R -> R) (d : nat -> R) (pre z : list R) : list R :=
  match z with
  | [] => []
  | a :: z' => (shift pre + d (length pre) * a) :: tri shift d (pre ++ [a]) z'
  end.
Fixpoint untri (shift : list R -> R) (d : nat -> R) (pre x : list R) : list R :=
  match x with
  | [] => []
  | y :: x' => let a := (y - shift pre) / d (length pre) in a :: untri shift d (pre ++ [a]) x'
  end.
Fixpoint prodd (d : nat -> R) (k n : nat) : R :=
  match n with O => 1 | S n' => d k * prodd d (S k) n' end.
Lemma tri_length shift d z : forall pre, length (tri shift d pre z) = length z.
Proof. induction z; intros; simpl; auto. Qed.
Lemma untri_length shift d x : forall pre, length (untri shift d pre x) = length x.
Proof. induction x; intros; simpl; auto. Qed.
Lemma tri_untri shift d (D : forall k, d k <> 0) x : forall pre, tri shift d pre (untri shift d pre x) = x.
Proof.
  induction x as [|y x IH]; intros pre; [reflexivity|]. cbn [untri tri]. rewrite IH. f_equal. field. apply D.
Qed.
Lemma prodd_pos d (D : forall k, 0 < d k) n : forall k, 0 < prodd d k n.
Proof. induction n; intros k; simpl; [lra|]. apply Rmult_lt_0_compat; auto. Qed.

Lemma tri_change shift d (D : forall k, 0 < d k) n : forall pre h w m,
  mass_vec n (fun z => h (tri shift d pre z) * w z) m <->
  mass_vec n (fun x => h x * (w (untri shift d pre x) / prodd d (length pre) n)) m.
Proof.
  assert (D' : forall k, d k <> 0) by (intros k; specialize (D k); lra).
  induction n as [|n IH]; intros pre h w m.
  - simpl. replace (w [] / 1) with (w []) by field. reflexivity.
  - pose proof (D (length pre)) as Dk. cbn [mass_vec tri untri prodd]. split.
    + intros (g & G & M). exists (fun x => / d (length pre) * g ((x - shift pre) / d (length pre))). split.
      * intros x. specialize (G ((x - shift pre) / d (length pre))).
        set (a := (x - shift pre) / d (length pre)) in *.
        assert (Ea : shift pre + d (length pre) * a = x) by (unfold a; field; lra).
        rewrite Ea in G.
        apply (IH (pre ++ [a]) (fun v => h (x :: v)) (fun v => w (a :: v))) in G.
        apply (mass_vec_scal n (/ d (length pre))) in G. revert G. apply mass_vec_ext. intros v _.
        rewrite app_length, Nat.add_1_r. pose proof (prodd_pos d D n (S (length pre))). field. lra.
      * apply (mass_affine g (shift pre) (d (length pre))); assumption.
    + intros (g & G & M). exists (fun a => d (length pre) * g (shift pre + d (length pre) * a)). split.
      * intros a. specialize (G (shift pre + d (length pre) * a)).
        assert (Ea : (shift pre + d (length pre) * a - shift pre) / d (length pre) = a) by (field; lra).
        rewrite Ea in G. apply (mass_vec_scal n (d (length pre))) in G.
        apply (IH (pre ++ [a]) (fun v => h ((shift pre + d (length pre) * a) :: v)) (fun v => w (a :: v))).
        revert G. apply mass_vec_ext. intros v _.
        rewrite app_length, Nat.add_1_r. pose proof (prodd_pos d D n (S (length pre))). field. lra.
      * apply (mass_shift g (d (length pre)) (shift pre)) in M; [|assumption]. revert M.
        apply mass_ext; try apply Rbar_locally_filter. intros x. do 2 f_equal. ring.
Qed.

Lemma tri_nth shift d z : forall pre r, (r < length z)%nat ->
  nth r (tri shift d pre z) 0 = shift (pre ++ firstn r z) + d (length pre + r)%nat * nth r z 0.
Proof.
  induction z as [|a z IH]; intros pre r H; simpl in H; [lia|]. destruct r as [|r]; cbn [tri nth firstn].
  - now rewrite app_nil_r, Nat.add_0_r.
  - rewrite IH by lia. rewrite <- app_assoc, app_length. cbn [app length]. do 3 f_equal. lia.
Qed.

(** The product of standard normals has total mass one. *)
Lemma noise_mass n (one : mass standard_normal to_minus_infinity to_plus_infinity 1) : mass_vec n normal_noise 1.
Proof.
  induction n as [|n IH]; [reflexivity|]. cbn [mass_vec normal_noise]. exists standard_normal. split; [|exact one].
  intros x. pose proof (mass_vec_scal n (standard_normal x) normal_noise 1 IH) as M. now rewrite Rmult_1_r in M.
Qed.

(** A sampler that is a triangular affine map of the noise draws from the density
    noise / slopes. *)
Lemma tri_draws n shift d sample f : (forall k, 0 < d k) ->
  (forall z, length z = n -> sample z = tri shift d [] z) ->
  (forall z, length z = n -> f (tri shift d [] z) = normal_noise z / prodd d 0 n) ->
  normal_draws_from n sample n f.
Proof.
  intros D S F h m.
  assert (D' : forall k, d k <> 0) by (intros k; specialize (D k); lra).
  assert (E : forall x, length x = n -> h x * f x = h x * (normal_noise (untri shift d [] x) / prodd d (length (@nil R)) n)).
  { intros x L. f_equal. pose proof (F (untri shift d [] x) ltac:(now rewrite untri_length)) as Q. now rewrite tri_untri in Q. }
  split; intros M.
  - apply (mass_vec_ext n (fun x => h x * (normal_noise (untri shift d [] x) / prodd d (length (@nil R)) n))); [intros; now rewrite E|].
    apply tri_change; [assumption|]. revert M. apply mass_vec_ext. intros z L. now rewrite S.
  - apply (mass_vec_ext n (fun z => h (tri shift d [] z) * normal_noise z)); [intros; now rewrite S|].
    apply tri_change; [assumption|]. revert M. apply mass_vec_ext. intros x L. now rewrite E.
Qed.
Lemma draws_total n sample d f : normal_draws_from n sample d f -> mass_vec n normal_noise 1 -> mass_vec d f 1.
Proof.
  intros H M. apply (mass_vec_ext d (fun x => 1 * f x)); [intros; ring|]. apply (H (fun _ => 1)).
  revert M. apply mass_vec_ext. intros; ring.
Qed.
