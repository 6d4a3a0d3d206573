(** C25: the momenta are drawn from the law that the Hamiltonian assigns to them. *)
From Coq Require Import List Arith Lia Bool Reals Lra.
From Coquelicot Require Import Coquelicot.
From Verif Require Import ModelShape SpecShape ProofShape ModelTensor ModelExt ModelHMC SpecHMC ProofHMC PropMetropolis.
From Verif Require Import SpecDensity SpecMass ProofMass SpecChol ProofChol ProofMassChol.
Import List ListNotations.
Local Open Scope R_scope.

(** With independent standard normal noise, the momenta of a chain, listed entry by
    entry, have a density proportional to exp(-H): the momentum part of the joint
    density exp(-H) that the acceptance test assumes. *)
Theorem C25_momentum_law chain data mass c (noise : list R -> state) lp :
  length c = length chain ->
  (forall k d, In (k, d) (entries data) -> 0 < mass k d) ->
  (forall z e k d, nth_error (entries data) e = Some (k, d) -> noise z (k, c ++ d) = nth e z 0) ->
  let n := length (entries data) in
  exists Z, 0 < Z /\
  normal_draws_from n
    (fun z => map (fun x => random_momentum chain mass (noise z) (fst x, c ++ snd x)) (entries data))
    n (fun p => match fst (hamiltonian (Fi lp) (combine (map Fi p) (map (fun x => mass (fst x) (snd x)) (entries data)))) with
                | Fi h => exp (- h) / Z
                | _ => 0
                end).
Proof.
  intros Lc P A n. set (E := entries data) in *.
  set (d := fun e => match nth_error E e with Some (k, i) => sqrt (mass k i) | None => 1 end).
  assert (D : forall e, 0 < d e).
  { intros e. unfold d. destruct (nth_error E e) as [[k i]|] eqn:Q; [|lra]. apply sqrt_lt_R0. apply P. eapply nth_error_In; eassumption. }
  exists (exp lp * prodd d 0 n * exp (INR n / 2 * ln (2 * PI))). split.
  { pose proof (prodd_pos d D n 0). pose proof (exp_pos lp). pose proof (exp_pos (INR n / 2 * ln (2 * PI))).
    apply Rmult_lt_0_compat; [apply Rmult_lt_0_compat|]; assumption. }
  assert (SE : forall z, length z = n ->
     map (fun x => random_momentum chain mass (noise z) (fst x, c ++ snd x)) E = tri (fun _ => 0) d [] z).
  { intros z L. apply (nth_ext _ _ 0 0); [now rewrite map_length, tri_length|]. intros e He. rewrite map_length in He.
    rewrite tri_nth by (rewrite L; exact He). change (length (@nil R) + e)%nat with e.
    destruct (nth_error E e) as [[k i]|] eqn:Q; [|apply nth_error_None in Q; destruct (Nat.lt_irrefl e); eapply Nat.lt_le_trans; eassumption].
    rewrite (nth_error_nth (map _ E) e 0 (map_nth_error _ e E Q)). cbn [fst snd].
    unfold random_momentum, full_mass. cbn [fst snd]. rewrite (A z e k i Q), skipn_app, <- Lc, skipn_all, Nat.sub_diag.
    cbn [skipn app]. unfold d. rewrite Q. ring. }
  apply (tri_draws n (fun _ => 0) d); [exact D|exact SE|].
  intros z L.
  assert (PM : combine (map Fi (tri (fun _ => 0) d [] z)) (map (fun x => mass (fst x) (snd x)) E) =
               finite_pairs (combine (tri (fun _ => 0) d [] z) (map (fun x => mass (fst x) (snd x)) E))).
  { unfold finite_pairs. generalize (tri (fun _ => 0) d [] z), (map (fun x => mass (fst x) (snd x)) E). clear.
    induction l as [|a l IH]; intros [|b l']; simpl; try reflexivity. now rewrite IH. }
  rewrite PM, hamiltonian_finite.
  2: { unfold positive_masses. apply Forall_forall. intros [a b] I. apply in_combine_r in I. apply in_map_iff in I.
       destruct I as ([k i] & <- & I). now apply P. }
  cbn [fst]. rewrite normal_noise_exp, L. unfold energy.
  assert (K : fold_right Rplus 0 (map (fun x => fst x * fst x / snd x) (combine (tri (fun _ => 0) d [] z) (map (fun x => mass (fst x) (snd x)) E)))
              = rsum n (fun k => nth k z 0 * nth k z 0)).
  { clear SE PM A.
    assert (G : forall F pre y, length y = length F -> (forall e, nth_error F e = nth_error E (length pre + e)) ->
       fold_right Rplus 0 (map (fun x => fst x * fst x / snd x) (combine (tri (fun _ => 0) d pre y) (map (fun x => mass (fst x) (snd x)) F)))
       = rsum (length F) (fun k => nth k y 0 * nth k y 0)).
    { induction F as [|[k i] F IH]; intros pre [|a y] Ly H; simpl in Ly; try discriminate; [reflexivity|].
      cbn [tri map combine fold_right length]. rewrite rsum_shift. cbn [nth]. f_equal.
      - pose proof (H 0%nat) as Q. rewrite Nat.add_0_r in Q. cbn [nth_error] in Q. cbn [fst snd].
        assert (M : 0 < mass k i) by (apply P; eapply nth_error_In; symmetry; exact Q).
        replace (d (length pre)) with (sqrt (mass k i)) by (unfold d; now rewrite <- Q).
        rewrite Rplus_0_l.
        replace (sqrt (mass k i) * a * (sqrt (mass k i) * a)) with (sqrt (mass k i) * sqrt (mass k i) * (a * a)) by ring.
        rewrite sqrt_sqrt by lra. field. lra.
      - apply IH; [lia|]. intros e. rewrite app_length. cbn [length]. specialize (H (S e)). cbn [nth_error] in H. rewrite H. f_equal. lia. }
    apply (G E []); [exact L|reflexivity]. }
  rewrite K. pose proof (prodd_pos d D n 0) as PP. pose proof (exp_pos lp) as PL.
  replace (- (- lp + rsum n (fun k => nth k z 0 * nth k z 0) / 2)) with
    (lp + (- (rsum n (fun k => nth k z 0 * nth k z 0) / 2))) by ring.
  replace (- (INR n / 2) * ln (2 * PI) - rsum n (fun k => nth k z 0 * nth k z 0) / 2) with
    (- (INR n / 2 * ln (2 * PI)) + - (rsum n (fun k => nth k z 0 * nth k z 0) / 2)) by ring.
  rewrite !exp_plus, (exp_Ropp (INR n / 2 * ln (2 * PI))). pose proof (exp_pos (INR n / 2 * ln (2 * PI))). field. lra.
Qed.
Print Assumptions C25_momentum_law.
Example C25_momentum_met : entries [[2%nat]; []] = [(0, [0]); (0, [1]); (1, [])]%nat /\
  forall z e k d, nth_error (entries [[2%nat]; []]) e = Some (k, d) ->
    (fun x : nat * index => nth (fst x * 2 + nth 1 (snd x) 0)%nat z 0) (k, [7%nat] ++ d) = nth e z 0.
Proof.
  split; [reflexivity|]. intros z e k d H. destruct e as [|[|[|e]]]; cbn in H; try (injection H as <- <-; reflexivity).
  destruct e; discriminate.
Qed.
