(** C16 and C17 for the distributions on the simplex: what the samplers of Concrete,
    ExpConcrete and Dirichlet return has exactly the law that their log_prob reports,
    for any number of categories. *)
From Coq Require Import List Reals Lra Lia Permutation FunctionalExtensionality.
From Coquelicot Require Import Coquelicot.
From Verif Require Import SpecDensity ProofIntegral ProofDensity PropDensity ProofGammaFn SpecVolume SpecRange ProofVolume ProofChange ProofBimove ProofPart ProofPhase ModelDist ProofRatio ProofRange ProofSimplex.
From Verif Require PropSupport.
Import ListNotations.
Local Open Scope R_scope.

Lemma combine_maps {A} (f g : A -> R) l : combine (map f l) (map g l) = map (fun a => (f a, g a)) l.
Proof. induction l as [|a l IH]; cbn; [reflexivity|]. now rewrite IH. Qed.
Lemma sumR_map {A} (f : A -> R) l : sumR (map f l) = sumf l f.
Proof. reflexivity. Qed.
Lemma sumf_const {A} (l : list A) c : sumf l (fun _ => c) = INR (length l) * c.
Proof. unfold sumf. induction l as [|a l IH]; [cbn; ring|]. cbn [map fold_right]. rewrite IH. cbn [length]. rewrite S_INR. ring. Qed.
Lemma prodf_const {A} (l : list A) c : 0 < c -> prodf l (fun _ => c) = exp (INR (length l) * ln c).
Proof.
  intros Hc. rewrite <- sumf_const, <- prodf_exp. unfold prodf. f_equal. apply map_ext. intros _. now rewrite exp_ln.
Qed.
Lemma prodf_mult {A} (l : list A) f g : prodf l (fun a => f a * g a) = prodf l f * prodf l g.
Proof. unfold prodf. induction l as [|a l IH]; cbn [map fold_right]; [ring|]. rewrite IH. ring. Qed.
Lemma prodf_ext {A} (l : list A) f g : (forall a, f a = g a) -> prodf l f = prodf l g.
Proof. intros H. unfold prodf. f_equal. now apply map_ext. Qed.
Lemma cont_restrict {I} (g : (I -> R) -> R) : cont (fun x : option I -> R => g (fun i => x (Some i))) -> cont g.
Proof.
  intros H x e He. set (up := fun (x : I -> R) (j : option I) => match j with Some i => x i | None => 0 end).
  destruct (H (up x) e He) as (d & Hd & K). exists d. split; [exact Hd|]. intros y Hy. apply (K (up y)).
  intros [i|]; [apply Hy|]. unfold up, Rminus. rewrite Rplus_opp_r, Rabs_R0. exact Hd.
Qed.

Section Categories.
Context {I : Type} (dec : forall i j : I, {i = j} + {i <> j}) (L : list I).
Hypothesis L_once : NoDup L.
Hypothesis L_all : forall i, In i L.
Notation cats := (categories L).
Notation cdec := (odec dec).

Lemma categories_length : length cats = S (length L).
Proof. unfold categories. rewrite app_length, map_length. cbn. lia. Qed.
Lemma cont_into (F : (option I -> R) -> R) (T : (I -> R) -> option I -> R) : cont F -> (forall j, cont (fun d => T d j)) -> cont (fun d => F (T d)).
Proof.
  intros CF CT. apply cont_restrict.
  apply (cont_comp (olist L) (olist_all L L_all) F (fun x => T (fun i => x (Some i)))); [exact CF|].
  intros j. now apply (cont_part Some (fun d => T d j)).
Qed.
(** The point of the log simplex as a function of the category. *)
Definition lpt (d : I -> R) (j : option I) : R := match j with Some i => d i | None => 0 end - ln (spread L d).
Lemma log_point_row d : log_point L d = map (lpt d) cats.
Proof. rewrite log_point_eq. unfold categories. rewrite map_app, map_map. reflexivity. Qed.
Lemma cont_lpt j : cont (fun d => lpt d j).
Proof.
  unfold lpt. apply cont_minus; [destruct j; [apply cont_coord|apply cont_const]|]. apply cont_ln; [apply cont_spread|]. intros d. pose proof (spread_ge L d). lra.
Qed.
Lemma cont_statistic f : statistic cats f -> cont (fun d => f (log_point L d)).
Proof.
  intros (C & _). apply (cont_ext (fun d => f (map (lpt d) cats))); [intros d; now rewrite log_point_row|].
  apply (cont_into (fun x => f (map x cats)) lpt C). apply cont_lpt.
Qed.
Lemma pos_statistic f d : statistic cats f -> 0 <= f (log_point L d).
Proof. intros (_ & P). rewrite log_point_row. apply P. Qed.
Lemma statistic_exp f : statistic cats f -> statistic cats (fun l => f (map exp l)).
Proof.
  intros (C & P). split.
  - apply (cont_ext (fun x : option I -> R => f (map (fun j => exp (x j)) cats))); [intros x; now rewrite map_map|].
    apply (cont_comp (olist L) (olist_all L L_all) (fun x => f (map x cats)) (fun x j => exp (x j)) C). intros j. apply cont_exp', cont_coord.
  - intros x. rewrite map_map. apply P.
Qed.
Lemma sumf_categories f : sumf cats f = sumf L (fun i => f (Some i)) + f None.
Proof. apply (sumf_olist L). Qed.
Lemma lse_categories t : logsumexp (map t cats) = t None + ln (spread L (fun i => t (Some i) - t None)).
Proof.
  unfold logsumexp. rewrite map_map, sumR_map, sumf_categories. pose proof (spread_ge L (fun i => t (Some i) - t None)) as Sp.
  rewrite <- (ln_exp (t None)) at 2. rewrite <- ln_mult by (try apply exp_pos; lra). f_equal. unfold spread.
  rewrite Rmult_plus_distr_l, Rmult_1_r, <- sumf_scal, Rplus_comm. f_equal. apply sumf_ext. intros i _. rewrite <- exp_plus. f_equal. ring.
Qed.
Lemma log_softmax_categories t : log_softmax (map t cats) = log_point L (fun i => t (Some i) - t None).
Proof.
  unfold log_softmax. rewrite lse_categories, map_map, log_point_row. apply map_ext. intros j. unfold lpt. destruct j; ring.
Qed.
Lemma exp_concrete_row u temperature logits :
  exp_concrete_sample (map u cats) temperature (map logits cats) =
  log_point L (fun i => (logits (Some i) + gumbel (u (Some i))) / temperature - (logits None + gumbel (u None)) / temperature).
Proof.
  unfold exp_concrete_sample, concrete_noisy. rewrite combine_maps, map_map. cbn [fst snd]. rewrite (log_softmax_categories (fun j => (logits j + gumbel (u j)) / temperature)). reflexivity.
Qed.

Lemma exp_concrete_lp_point lgamma temperature logits d : let N := INR (length cats) in
  exp_concrete_lp lgamma (log_point L d) temperature (map logits cats) =
  lgamma N + INR (length L) * ln temperature +
  (sumf L (fun i => 1 * (- temperature * d i + (logits (Some i) - logits None))) -
   N * ln (spread L (fun i => - temperature * d i + (logits (Some i) - logits None)))).
Proof.
  intros N. unfold exp_concrete_lp. rewrite log_point_row, combine_maps, !map_map. cbn [fst snd].
  rewrite lse_categories, sumR_map, sumf_categories, map_length. fold N.
  assert (EN' : N = INR (length L) + 1) by (unfold N; rewrite categories_length, S_INR; reflexivity).
  set (s := ln (spread L d)). set (delta := fun i => logits (Some i) - logits None).
  replace (fun i => logits (Some i) - temperature * lpt d (Some i) - (logits None - temperature * lpt d None)) with (fun i => - temperature * d i + delta i)
    by (extensionality i; unfold lpt, delta; fold s; ring).
  set (W := ln (spread L (fun i => - temperature * d i + delta i))).
  replace (sumf L (fun i => logits (Some i) - temperature * lpt d (Some i))) with (sumf L (fun i => 1 * (- temperature * d i + delta i)) + INR (length L) * (logits None + temperature * s)).
  2: { rewrite <- sumf_const, <- sumf_plus. apply sumf_ext. intros i _. unfold lpt, delta. fold s. ring. }
  change (fun i => 1 * (- temperature * d i + (logits (Some i) - logits None))) with (fun i => 1 * (- temperature * d i + delta i)).
  change (ln (spread L (fun i => - temperature * d i + (logits (Some i) - logits None)))) with W.
  unfold lpt. fold s. rewrite EN'. ring.
Qed.
Lemma cont_exp_concrete_lp lgamma temperature logits : cont (fun d => exp_concrete_lp lgamma (log_point L d) temperature (map logits cats)).
Proof.
  apply (cont_ext (fun d => lgamma (INR (length cats)) + INR (length L) * ln temperature +
    (fun r : I -> R => sumf L (fun i => 1 * r i) - INR (length cats) * ln (spread L r)) (fun i => - temperature * d i + (logits (Some i) - logits None))));
    [intros d; symmetry; apply exp_concrete_lp_point|].
  apply cont_plus; [apply cont_const|].
  apply (cont_comp L L_all (fun r : I -> R => sumf L (fun i => 1 * r i) - INR (length cats) * ln (spread L r)) (fun d i => - temperature * d i + (logits (Some i) - logits None))).
  - apply cont_minus.
    + apply (cont_sumf L (fun i r => 1 * r i)). intros i _. apply cont_mult; [apply cont_const|apply cont_coord].
    + apply cont_mult; [apply cont_const|]. apply cont_ln; [apply cont_spread|]. intros r. pose proof (spread_ge L r). lra.
  - intros i. apply cont_plus; [|apply cont_const]. apply cont_mult; [apply cont_const|apply cont_coord].
Qed.
Lemma cont_sum_log_point : cont (fun d => sumR (log_point L d)).
Proof.
  apply (cont_ext (fun d => sumf cats (lpt d))); [intros d; now rewrite log_point_row|].
  apply (cont_sumf cats (fun j d => lpt d j)). intros j _. apply cont_lpt.
Qed.

(** ** Gumbel noise *)
Definition ungumbel (g : R) : R := exp (- exp (- g)).
Definition dungumbel (g : R) : R := exp (- g - exp (- g)).
Lemma ungumbel_range g : 0 < ungumbel g < 1.
Proof. unfold ungumbel. split; [apply exp_pos|]. apply Rlt_le_trans with (exp 0); [|rewrite exp_0; lra]. apply exp_increasing. pose proof (exp_pos (- g)). lra. Qed.
Lemma gumbel_ungumbel g : gumbel (ungumbel g) = g.
Proof. unfold gumbel, ungumbel. rewrite ln_exp, Ropp_involutive, ln_exp. ring. Qed.
Lemma neg_ln u : 0 < u < 1 -> 0 < - ln u.
Proof. intros H. assert (ln u < ln 1) by (apply ln_increasing; lra). rewrite ln_1 in H0. lra. Qed.
Lemma ungumbel_gumbel u : 0 < u < 1 -> ungumbel (gumbel u) = u.
Proof. intros H. pose proof (neg_ln u H). unfold gumbel, ungumbel. rewrite Ropp_involutive, exp_ln, Ropp_involutive, exp_ln by lra. reflexivity. Qed.
Lemma uniform_gumbel F v : cont (fun y : option I -> R => F (fun j => ungumbel (y j))) -> (forall y : option I -> R, 0 <= F (fun j => ungumbel (y j))) ->
  mean_over_uniform cdec cats F v <-> total cdec cats (fun y => prodf cats (fun j => dungumbel (y j)) * F (fun j => ungumbel (y j))) v.
Proof.
  intros CF PF. apply (integral_subst cdec ungumbel gumbel dungumbel (fun u => 0 < u < 1)); auto.
  - apply ungumbel_range.
  - apply ungumbel_gumbel.
  - intros u Hu. pose proof (neg_ln u Hu). apply (ex_derive_continuous (V := R_NormedModule)). unfold gumbel. auto_derive. repeat split; lra.
  - intros u Hu. apply (open_and (fun u => 0 < u) (fun u => u < 1)); [apply open_gt|apply open_lt|exact Hu].
  - intros t. unfold ungumbel, dungumbel. auto_derive; [auto|]. unfold Rminus. rewrite exp_plus. ring.
  - intros t. apply (ex_derive_continuous (V := R_NormedModule)). unfold dungumbel. auto_derive. auto.
  - intros t. apply exp_pos.
  - intros s t H. unfold ungumbel. apply exp_le. apply Ropp_le_contravar, exp_le. lra.
  - apply (olist_once L L_once).
  - apply (olist_all L L_all).
Qed.
(** Changing every coordinate by the same affine formula. *)
Lemma total_affine {K} (deck : forall i j : K, {i = j} + {i <> j}) (l : list K) (a : R) (c : K -> R) F v : NoDup l -> (forall k, In k l) -> a <> 0 -> cont F -> (forall x, 0 <= F x) ->
  total deck l F v <-> total deck l (fun x => prodf l (fun _ => Rabs a) * F (fun k => a * x k + c k)) v.
Proof.
  intros Once All Ha CF PF.
  destruct (bimoves_triangular deck l Once All (fun _ _ => a) (fun k _ => c k) l Once) as (S & Bi); try (intros; apply cont_const); [intros; exact Ha|apply (earlier_outside deck); reflexivity|apply (earlier_outside deck); reflexivity|].
  rewrite (total_bimoves deck l Once All _ _ S F v Bi CF PF).
  match goal with |- total _ _ ?X v <-> total _ _ ?Y v => replace X with Y; [reflexivity|] end.
  extensionality x. do 2 f_equal. extensionality k. unfold triangular. destruct (in_dec deck k l) as [_|N]; [reflexivity|]. destruct N. apply All.
Qed.
Lemma total_factor {K} (deck : forall i j : K, {i = j} + {i <> j}) (l : list K) F c v : 0 < c -> cont F -> total deck l F (v / c) <-> total deck l (fun x => c * F x) v.
Proof.
  intros Hc CF. split; intros T.
  - apply (ProofChange.total_scal deck l F c) in T; auto. replace (c * (v / c)) with v in T by (field; lra). exact T.
  - apply (ProofChange.total_scal deck l (fun x => c * F x) (/ c)) in T; [|now apply Rinv_0_lt_compat|apply cont_mult; [apply cont_const|exact CF]].
    replace (v / c) with (/ c * v) by (field; lra). eapply ProofChange.total_ext; [|exact T]. intros x. cbv beta. field. lra.
Qed.

(** C17 for ExpConcrete. The law of its samples, in terms of the differences of the
    logarithms to the last one, has the density exp(log_prob). *)
Theorem C17_exp_concrete lgamma temperature logits f v :
  0 < temperature -> lgamma_euler lgamma (INR (length cats)) -> statistic cats f ->
  mean_over_uniform cdec cats (fun u => f (exp_concrete_sample (map u cats) temperature (map logits cats))) v <->
  log_simplex_integral dec L (fun y => exp (exp_concrete_lp lgamma y temperature (map logits cats)) * f y) v.
Proof.
  intros Ht HG Sf. set (N := INR (length cats)) in *. set (G := exp (lgamma N)). assert (PG : 0 < G) by apply exp_pos.
  pose proof (olist_once L L_once) as Once. pose proof (olist_all L L_all) as All.
  set (delta := fun i => logits (Some i) - logits None).
  set (F := fun r : I -> R => f (log_point L (fun i => (delta i - r i) / temperature))).
  assert (CF : cont F).
  { apply (cont_comp L L_all (fun d => f (log_point L d)) (fun r i => (delta i - r i) / temperature)); [now apply cont_statistic|].
    intros i. unfold Rdiv. apply cont_mult; [|apply cont_const]. apply cont_minus; [apply cont_const|apply cont_coord]. }
  assert (PF : forall r, 0 <= F r) by (intros r; now apply pos_statistic).
  assert (Cdiff : cont (fun l : option I -> R => F (fun i => l (Some i) - l None))).
  { apply (cont_ext (fun l => (fun x => F (fun i => x (Some i))) (fun j => l j - l None))); [reflexivity|].
    apply (cont_comp (olist L) All (fun x => F (fun i => x (Some i))) (fun l j => l j - l None)); [now apply (cont_part Some)|].
    intros j. apply cont_minus; apply cont_coord. }
  (* Gumbel noise *)
  assert (E1 : forall y, f (exp_concrete_sample (map (fun j => ungumbel (y j)) cats) temperature (map logits cats)) =
     F (fun i => - y (Some i) - - y None)).
  { intros y. rewrite exp_concrete_row. unfold F. do 2 f_equal. extensionality i. rewrite !gumbel_ungumbel. unfold delta. field. lra. }
  rewrite uniform_gumbel.
  2: { apply (cont_ext (fun y => (fun l : option I -> R => F (fun i => l (Some i) - l None)) (fun j => - y j))); [intros y; symmetry; apply E1|].
       apply (cont_comp (olist L) All (fun l => F (fun i => l (Some i) - l None)) (fun y j => - y j) Cdiff). intros j. apply cont_opp, cont_coord. }
  2: { intros y. rewrite E1. apply PF. }
  (* signs *)
  set (H := fun l : option I -> R => prodf (olist L) (fun j => exp (1 * l j - exp (l j))) * F (fun i => l (Some i) - l None)).
  assert (CH : cont H).
  { apply cont_mult; [|exact Cdiff]. apply (cont_prod (olist L) (fun j l => exp (1 * l j - exp (l j)))). intros j _.
    apply cont_exp', cont_minus; [apply cont_mult; [apply cont_const|apply cont_coord]|apply cont_exp', cont_coord]. }
  assert (PH : forall l, 0 <= H l).
  { intros l. apply Rmult_le_pos; [|apply PF]. rewrite prodf_exp. left. apply exp_pos. }
  match goal with |- total _ _ ?X v <-> _ => replace X with (fun y : option I -> R => prodf (olist L) (fun _ => Rabs (-1)) * H (fun j => -1 * y j + 0)) end.
  2: { extensionality y. rewrite E1. unfold H. rewrite prodf_one by (intros; rewrite Rabs_left; lra). rewrite Rmult_1_l. f_equal.
       - unfold categories, olist. apply prodf_ext. intros j. unfold dungumbel. f_equal. replace (-1 * y j + 0) with (- y j) by ring. ring.
       - f_equal. extensionality i. ring. }
  change (total cdec (olist L) (fun y : option I -> R => prodf (olist L) (fun _ => Rabs (-1)) * H (fun j => -1 * y j + 0)) v <->
    log_simplex_integral dec L (fun y => exp (exp_concrete_lp lgamma y temperature (map logits cats)) * f y) v).
  rewrite <- (total_affine cdec (olist L) (-1) (fun _ => 0) H v Once All ltac:(lra) CH PH).
  (* ratios *)
  assert (EN : sumf (olist L) (fun _ : option I => 1) = N) by (rewrite sumf_const; unfold N, categories, olist; ring).
  pose proof (ratio_law dec L L_once L_all (fun _ => 1) G F (v / G)) as R0. cbv zeta in R0. rewrite EN in R0. specialize (R0 HG PG CF PF).
  replace (v / G * G) with v in R0 by (field; lra). fold H in R0. rewrite R0. clear R0.
  set (K := fun r : I -> R => exp (sumf L (fun i => 1 * r i) - N * ln (spread L r)) * F r).
  assert (CK : cont K).
  { apply cont_mult; [|exact CF]. apply cont_exp', cont_minus.
    + apply (cont_sumf L (fun i r => 1 * r i)). intros i _. apply cont_mult; [apply cont_const|apply cont_coord].
    + apply cont_mult; [apply cont_const|]. apply cont_ln; [apply cont_spread|]. intros r. pose proof (spread_ge L r). lra. }
  assert (PK : forall r, 0 <= K r) by (intros r; apply Rmult_le_pos; [left; apply exp_pos|apply PF]).
  rewrite (total_affine dec L (- temperature) delta K (v / G) L_once L_all ltac:(lra) CK PK).
  rewrite (total_factor dec L _ G v PG).
  2: { apply cont_mult; [apply cont_const|]. apply (cont_comp L L_all K (fun x i => - temperature * x i + delta i) CK). intros i. apply cont_plus; [|apply cont_const].
       apply cont_mult; [apply cont_const|apply cont_coord]. }
  unfold log_simplex_integral.
  match goal with |- total _ _ ?X v <-> total _ _ ?Y v => replace X with Y; [reflexivity|] end.
  extensionality d. unfold K.
  replace (F (fun i => - temperature * d i + delta i)) with (f (log_point L d)).
  2: { unfold F. do 2 f_equal. extensionality i. field. lra. }
  rewrite Rabs_Ropp, Rabs_pos_eq by lra. rewrite prodf_const by exact Ht. rewrite <- !Rmult_assoc. f_equal. unfold G. rewrite <- !exp_plus. f_equal.
  rewrite exp_concrete_lp_point. cbv zeta. fold N. unfold delta. ring.
Qed.

(** C17 for Concrete: the law of its samples on the simplex has the density
    exp(log_prob). *)
Theorem C17_concrete lgamma temperature logits f v :
  0 < temperature -> lgamma_euler lgamma (INR (length cats)) -> statistic cats f ->
  mean_over_uniform cdec cats (fun u => f (concrete_sample (map u cats) temperature (map logits cats))) v <->
  simplex_integral (length L) (fun x => exp (concrete_lp lgamma x temperature (map logits cats)) * f x) v.
Proof.
  intros Ht HG Sf.
  replace (fun u => f (concrete_sample (map u cats) temperature (map logits cats))) with
    (fun u => (fun l => f (map exp l)) (exp_concrete_sample (map u cats) temperature (map logits cats))).
  2: { extensionality u. rewrite PropSupport.C20_concrete_exp; [reflexivity|now rewrite !map_length|].
       intros E. apply (f_equal (@length R)) in E. rewrite map_length, categories_length in E. discriminate. }
  rewrite (C17_exp_concrete lgamma temperature logits (fun l => f (map exp l)) v Ht HG (statistic_exp f Sf)).
  assert (Elp : forall d, concrete_lp lgamma (map exp (log_point L d)) temperature (map logits cats) =
     exp_concrete_lp lgamma (log_point L d) temperature (map logits cats) - sumR (log_point L d)).
  { intros d. apply PropSupport.C20_concrete_exp_log_prob. rewrite log_point_row. now rewrite !map_length. }
  rewrite (simplex_logs dec L L_once L_all).
  - unfold log_simplex_integral. match goal with |- total _ _ ?X v <-> total _ _ ?Y v => replace X with Y; [reflexivity|] end.
    extensionality d. rewrite Elp, <- Rmult_assoc, <- exp_plus. do 2 f_equal. ring.
  - apply cont_mult; [|apply (cont_statistic (fun l => f (map exp l))), statistic_exp, Sf]. apply cont_exp'.
    apply (cont_ext (fun d => exp_concrete_lp lgamma (log_point L d) temperature (map logits cats) - sumR (log_point L d))); [intros d; symmetry; apply Elp|].
    apply cont_minus; [apply cont_exp_concrete_lp|apply cont_sum_log_point].
  - intros d. apply Rmult_le_pos; [left; apply exp_pos|apply (pos_statistic (fun l => f (map exp l))), statistic_exp, Sf].
Qed.

(** ** Gamma noise *)
Lemma dirichlet_lp_point lgamma alpha d :
  dirichlet_lp lgamma (map exp (log_point L d)) (map alpha cats) + sumR (log_point L d) =
  lgamma (sumf cats alpha) - sumf cats (fun j => lgamma (alpha j)) +
  (sumf L (fun i => alpha (Some i) * d i) - sumf cats alpha * ln (spread L d)).
Proof.
  unfold dirichlet_lp, lbeta. rewrite log_point_row, (map_map (lpt d) exp), combine_maps, !map_map, !sumR_map. cbn [fst snd].
  set (s := ln (spread L d)).
  assert (E : sumf cats (fun j => (alpha j - 1) * ln (exp (lpt d j))) + sumf cats (lpt d) = sumf L (fun i => alpha (Some i) * d i) - sumf cats alpha * s).
  { rewrite <- sumf_plus. rewrite !sumf_categories. unfold lpt. fold s. rewrite ln_exp.
    replace (sumf L (fun i => (alpha (Some i) - 1) * ln (exp (d i - s)) + (d i - s))) with (sumf L (fun i => alpha (Some i) * d i) - s * sumf L (fun i => alpha (Some i))); [ring|].
    rewrite <- sumf_scal. unfold Rminus at 1. replace (- sumf L (fun i => s * alpha (Some i))) with (sumf L (fun i => -1 * (s * alpha (Some i)))) by (rewrite sumf_scal; ring).
    rewrite <- sumf_plus. apply sumf_ext. intros i _. rewrite ln_exp. ring. }
  lra.
Qed.
Lemma gamma_logs lgamma alpha F v : cont (fun y : option I -> R => F (fun j => exp (y j))) -> (forall y : option I -> R, 0 <= F (fun j => exp (y j))) ->
  mean_over_positive cdec cats (fun j g => exp (gamma_lp lgamma g (alpha j) 1)) F v <->
  total cdec cats (fun y => exp (- sumf cats (fun j => lgamma (alpha j))) * (prodf cats (fun j => exp (alpha j * y j - exp (y j))) * F (fun j => exp (y j)))) v.
Proof.
  intros CF PF.
  assert (Cg : cont (fun y : option I -> R => prodf cats (fun j => exp (gamma_lp lgamma (exp (y j)) (alpha j) 1)))).
  { apply (cont_prod cats (fun j y => exp (gamma_lp lgamma (exp (y j)) (alpha j) 1))). intros j _. apply cont_exp'. unfold gamma_lp.
    apply (cont_ext (fun y => alpha j * ln 1 - lgamma (alpha j) + (alpha j - 1) * y j - 1 * exp (y j))); [intros y; now rewrite ln_exp|].
    apply cont_minus; [apply cont_plus; [apply cont_const|apply cont_mult; [apply cont_const|apply cont_coord]]|].
    apply cont_mult; [apply cont_const|apply cont_exp', cont_coord]. }
  unfold mean_over_positive.
  rewrite (integral_subst cdec exp ln exp (fun u => 0 < u)).
  2: apply exp_pos.
  2: apply exp_ln.
  2: { intros u Hu. apply (ex_derive_continuous (V := R_NormedModule)). exists (/ u). now apply is_derive_ln. }
  2: { intros u Hu. apply (open_gt 0 u Hu). }
  2: apply is_derive_exp.
  2: apply continuous_exp.
  2: apply exp_pos.
  2: apply exp_le.
  2: apply (olist_once L L_once).
  2: apply (olist_all L L_all).
  2: { apply cont_mult; [exact Cg|exact CF]. }
  2: { intros y. apply Rmult_le_pos; [apply (prodf_nonneg cats (fun j => exp (gamma_lp lgamma (exp (y j)) (alpha j) 1))); intros; left; apply exp_pos|]. apply PF. }
  match goal with |- total _ _ ?X v <-> total _ _ ?Y v => replace X with Y; [reflexivity|] end.
  extensionality y. rewrite <- !Rmult_assoc. f_equal.
  change (fold_right Rmult 1 (map (fun j => exp (gamma_lp lgamma (exp (y j)) (alpha j) 1)) cats)) with (prodf cats (fun j => exp (gamma_lp lgamma (exp (y j)) (alpha j) 1))).
  rewrite !prodf_exp. rewrite <- !exp_plus. f_equal.
  rewrite <- (sumf_plus cats).
  replace (- sumf cats (fun j => lgamma (alpha j))) with (sumf cats (fun j => -1 * lgamma (alpha j))) by (rewrite sumf_scal; ring).
  rewrite <- sumf_plus. apply sumf_ext. intros j _. unfold gamma_lp. rewrite ln_1, ln_exp. ring.
Qed.
(** C17 for Dirichlet: normalising independent standard gamma draws gives points of the
    simplex whose law has the density exp(log_prob). *)
Theorem C17_dirichlet lgamma alpha f v :
  (forall j, 0 < alpha j) -> lgamma_euler lgamma (sumR (map alpha cats)) -> statistic cats f ->
  mean_over_positive cdec cats (fun j g => exp (gamma_lp lgamma g (alpha j) 1)) (fun g => f (dirichlet_sample (map g cats))) v <->
  simplex_integral (length L) (fun x => exp (dirichlet_lp lgamma x (map alpha cats)) * f x) v.
Proof.
  intros Pa HG Sf. rewrite sumR_map in HG. set (A := sumf cats alpha) in *. set (G := exp (lgamma A)). assert (PG : 0 < G) by apply exp_pos.
  pose proof (olist_once L L_once) as Once. pose proof (olist_all L L_all) as All.
  pose proof (statistic_exp f Sf) as Se.
  set (F := fun r : I -> R => f (map exp (log_point L r))).
  assert (CF : cont F) by apply (cont_statistic (fun l => f (map exp l)) Se).
  assert (PF : forall r, 0 <= F r) by (intros r; apply (pos_statistic (fun l => f (map exp l)) r Se)).
  assert (Cdiff : cont (fun l : option I -> R => F (fun i => l (Some i) - l None))).
  { apply (cont_ext (fun l => (fun x => F (fun i => x (Some i))) (fun j => l j - l None))); [reflexivity|].
    apply (cont_comp (olist L) All (fun x => F (fun i => x (Some i))) (fun l j => l j - l None)); [now apply (cont_part Some)|].
    intros j. apply cont_minus; apply cont_coord. }
  assert (E1 : forall y : option I -> R, f (dirichlet_sample (map (fun j => exp (y j)) cats)) = F (fun i => y (Some i) - y None)).
  { intros y. unfold F. f_equal. unfold dirichlet_sample. rewrite map_map, sumR_map, <- (log_softmax_categories y). unfold log_softmax, logsumexp.
    rewrite !map_map, sumR_map. apply map_ext. intros j.
    assert (Sp : 0 < sumf cats (fun j => exp (y j))).
    { rewrite sumf_categories. pose proof (exp_pos (y None)). assert (0 <= sumf L (fun i => exp (y (Some i)))) by (apply sumf_nonneg; intros; left; apply exp_pos). lra. }
    unfold Rminus. rewrite exp_plus, exp_Ropp, exp_ln by exact Sp. reflexivity. }
  set (c := exp (- sumf cats (fun j => lgamma (alpha j)))). assert (Pc : 0 < c) by apply exp_pos.
  set (H := fun l : option I -> R => prodf (olist L) (fun j => exp (alpha j * l j - exp (l j))) * F (fun i => l (Some i) - l None)).
  assert (CH : cont H).
  { apply cont_mult; [|exact Cdiff]. apply (cont_prod (olist L) (fun j l => exp (alpha j * l j - exp (l j)))). intros j _.
    apply cont_exp', cont_minus; [apply cont_mult; [apply cont_const|apply cont_coord]|apply cont_exp', cont_coord]. }
  rewrite gamma_logs.
  2: { apply (cont_ext (fun l : option I -> R => F (fun i => l (Some i) - l None))); [intros y; symmetry; apply E1|exact Cdiff]. }
  2: { intros y. rewrite E1. apply PF. }
  match goal with |- total _ _ ?X v <-> _ => replace X with (fun y : option I -> R => c * H y) by (extensionality y; unfold H, c; now rewrite <- E1) end.
  change cats with (olist L) at 1.
  rewrite <- (total_factor cdec (olist L) H c v Pc CH).
  pose proof (ratio_law dec L L_once L_all alpha G F (v / (c * G))) as R0. cbv zeta in R0. change (sumf (olist L) alpha) with A in R0. specialize (R0 HG PG CF PF).
  replace (v / (c * G) * G) with (v / c) in R0 by (field; lra). fold H in R0. rewrite R0. clear R0.
  assert (Cr : cont (fun r : I -> R => exp (sumf L (fun i => alpha (Some i) * r i) - A * ln (spread L r)))).
  { apply cont_exp', cont_minus.
    + apply (cont_sumf L (fun i r => alpha (Some i) * r i)). intros i _. apply cont_mult; [apply cont_const|apply cont_coord].
    + apply cont_mult; [apply cont_const|]. apply cont_ln; [apply cont_spread|]. intros r. pose proof (spread_ge L r). lra. }
  rewrite (total_factor dec L _ (c * G) v ltac:(nra)) by (apply cont_mult; [exact Cr|exact CF]).
  rewrite (simplex_logs dec L L_once L_all).
  - match goal with |- total _ _ ?X v <-> total _ _ ?Y v => replace X with Y; [reflexivity|] end.
    extensionality d. unfold F. rewrite <- !Rmult_assoc. f_equal. unfold c, G. rewrite <- !exp_plus. f_equal.
    rewrite Rplus_comm, dirichlet_lp_point. fold A. ring.
  - apply cont_mult; [|exact CF]. apply cont_exp'.
    apply (cont_ext (fun d => lgamma A - sumf cats (fun j => lgamma (alpha j)) + (sumf L (fun i => alpha (Some i) * d i) - A * ln (spread L d)) - sumR (log_point L d))).
    + intros d. pose proof (dirichlet_lp_point lgamma alpha d) as E. fold A in E. lra.
    + apply cont_minus; [|apply cont_sum_log_point]. apply cont_plus; [apply cont_const|]. apply cont_minus.
      * apply (cont_sumf L (fun i r => alpha (Some i) * r i)). intros i _. apply cont_mult; [apply cont_const|apply cont_coord].
      * apply cont_mult; [apply cont_const|]. apply cont_ln; [apply cont_spread|]. intros r. pose proof (spread_ge L r). lra.
  - intros d. apply Rmult_le_pos; [left; apply exp_pos|apply PF].
Qed.

(** ** Total mass *)
Lemma box_one {J} (dj : forall i j : J, {i = j} + {i <> j}) a b l x : box_integral dj a b l (fun _ => 1) x = (b - a) ^ length l.
Proof.
  revert x. induction l as [|i l IH]; intros x; cbn [box_integral length]; [reflexivity|].
  rewrite (RInt_ext _ (fun _ => (b - a) ^ length l)) by (intros; apply IH). rewrite (RInt_const (V := R_CompleteNormedModule)). reflexivity.
Qed.
Lemma bernoulli_bound e n : 0 <= e <= 1 -> 1 - INR n * e <= (1 - e) ^ n.
Proof.
  intros He. induction n as [|n IH]; [cbn; lra|]. rewrite S_INR. cbn [pow]. apply Rle_trans with ((1 - e) * (1 - INR n * e)).
  - pose proof (pos_INR n). nra.
  - apply Rmult_le_compat_l; lra.
Qed.
Lemma uniform_one {J} (dj : forall i j : J, {i = j} + {i <> j}) l : mean_over_uniform dj l (fun _ => 1) 1.
Proof.
  split.
  - intros m (a & b & Le & Ha & Hb & ->). rewrite box_one. rewrite <- (pow1 (length l)). apply pow_incr. lra.
  - intros c Hc. apply le_epsilon. intros e He. set (n := INR (length l)).
    assert (Hn : 0 <= n) by apply pos_INR. set (d := Rmin (/ 4) (e / (2 * (n + 1)))).
    assert (Hd : 0 < d) by (apply Rmin_pos; [lra|apply Rdiv_lt_0_compat; lra]).
    assert (Hd' : d <= / 4) by apply Rmin_l.
    assert (Hd'' : n * (2 * d) <= e).
    { apply Rle_trans with (n * (2 * (e / (2 * (n + 1))))); [apply Rmult_le_compat_l; [exact Hn|apply Rmult_le_compat_l; [lra|apply Rmin_r]]|].
      apply (Rmult_le_reg_r (n + 1)); [lra|]. replace (n * (2 * (e / (2 * (n + 1)))) * (n + 1)) with (n * e) by (field; lra). nra. }
    assert (K : (1 - 2 * d) ^ length l <= c).
    { apply Hc. exists d, (1 - d). repeat split; try lra. rewrite box_one. f_equal. ring. }
    pose proof (bernoulli_bound (2 * d) (length l) ltac:(lra)) as Q. fold n in Q. lra.
Qed.
Lemma statistic_one {J} (l : list J) : statistic l (fun _ => 1).
Proof. split; [exact (cont_const 1)|intros; lra]. Qed.
(** C16 for ExpConcrete and Concrete: the densities integrate to one. *)
Theorem C16_exp_concrete lgamma temperature logits : 0 < temperature -> lgamma_euler lgamma (INR (length cats)) ->
  log_simplex_integral dec L (fun y => exp (exp_concrete_lp lgamma y temperature (map logits cats))) 1.
Proof.
  intros Ht HG. pose proof (proj1 (C17_exp_concrete lgamma temperature logits (fun _ => 1) 1 Ht HG (statistic_one _)) (uniform_one _ _)) as T.
  unfold log_simplex_integral in *. eapply ProofChange.total_ext; [|exact T]. intros d. cbv beta. apply Rmult_1_r.
Qed.
Theorem C16_concrete lgamma temperature logits : 0 < temperature -> lgamma_euler lgamma (INR (length cats)) ->
  simplex_integral (length L) (fun x => exp (concrete_lp lgamma x temperature (map logits cats))) 1.
Proof.
  intros Ht HG. pose proof (proj1 (C17_concrete lgamma temperature logits (fun _ => 1) 1 Ht HG (statistic_one _)) (uniform_one _ _)) as T.
  replace (fun x => exp (concrete_lp lgamma x temperature (map logits cats))) with (fun x => exp (concrete_lp lgamma x temperature (map logits cats)) * 1) by (extensionality x; ring).
  exact T.
Qed.
(** Independent gamma noise has total mass one, so Dirichlet's density has. *)
Lemma lub_mult (c d : R -> R) m n : (forall B, 0 <= B -> 0 <= c B) -> (forall B, 0 <= B -> 0 <= d B) ->
  (forall B B', 0 <= B -> B <= B' -> c B <= c B') -> (forall B B', 0 <= B -> B <= B' -> d B <= d B') ->
  is_lub (fun v => exists B, 0 <= B /\ v = c B) m -> is_lub (fun v => exists B, 0 <= B /\ v = d B) n ->
  is_lub (fun v => exists B, 0 <= B /\ v = c B * d B) (m * n).
Proof.
  intros Pc Pd Mc Md (Uc & Lc) (Ud & Ld).
  assert (Hm : 0 <= m) by (apply Rle_trans with (c 0); [apply Pc; lra|apply Uc; exists 0; split; [lra|reflexivity]]).
  split.
  - intros v (B & Hb & ->). apply Rmult_le_compat; auto; [apply Uc|apply Ud]; eauto.
  - intros b Hb.
    (* c B * n <= b for every B *)
    assert (S1 : forall B, 0 <= B -> c B * n <= b).
    { intros B HB. destruct (Rle_lt_or_eq_dec 0 (c B) (Pc B HB)) as [P|Z].
      - apply (Rmult_le_reg_l (/ c B)); [now apply Rinv_0_lt_compat|]. rewrite <- Rmult_assoc, Rinv_l, Rmult_1_l by lra. apply Ld.
        intros v (B1 & Hb1 & ->). apply (Rmult_le_reg_l (c B)); [exact P|]. rewrite <- Rmult_assoc, Rinv_r, Rmult_1_l by lra.
        assert (HM : 0 <= Rmax B B1) by (apply Rle_trans with B; [exact HB|apply Rmax_l]).
        apply Rle_trans with (c (Rmax B B1) * d (Rmax B B1)); [|apply Hb; eauto].
        apply Rmult_le_compat; auto; [apply Mc; [exact HB|apply Rmax_l]|apply Md; [exact Hb1|apply Rmax_r]].
      - rewrite <- Z, Rmult_0_l. apply Rle_trans with (c 0 * d 0); [apply Rmult_le_pos; [apply Pc|apply Pd]; lra|]. apply Hb. exists 0. split; [lra|reflexivity]. }
    assert (Hn : 0 <= n) by (apply Rle_trans with (d 0); [apply Pd; lra|apply Ud; exists 0; split; [lra|reflexivity]]).
    destruct (Rle_lt_or_eq_dec 0 n Hn) as [P|Z].
    + apply (Rmult_le_reg_r (/ n)); [now apply Rinv_0_lt_compat|]. rewrite Rmult_assoc, Rinv_r, Rmult_1_r by lra. apply Lc.
      intros v (B & HB & ->). apply (Rmult_le_reg_r n); [exact P|]. rewrite Rmult_assoc, Rinv_l, Rmult_1_r by lra. now apply S1.
    + rewrite <- Z, Rmult_0_r. rewrite <- (Rmult_0_r (c 0)), Z. apply S1. lra.
Qed.
Lemma total_product {J} (dj : forall i j : J, {i = j} + {i <> j}) (l : list J) (g : J -> R -> R) (m : J -> R) : NoDup l ->
  (forall j t, continuous (g j) t) -> (forall j t, 0 <= g j t) -> (forall j, total unit_dec [tt] (fun x => g j (x tt)) (m j)) ->
  total dj l (fun x => prodf l (fun j => g j (x j))) (prodf l m).
Proof.
  intros Nd Cg Pg Tg. set (c := fun j B => RInt (g j) (- B) B).
  assert (Ig : forall j a b, ex_RInt (g j) a b) by (intros j a b; apply (ex_RInt_continuous (V := R_CompleteNormedModule)); intros; apply Cg).
  assert (Pc : forall j B, 0 <= B -> 0 <= c j B) by (intros j B Hb; apply RInt_ge_0; [lra|apply Ig|intros; apply Pg]).
  assert (Mc : forall j B B', 0 <= B -> B <= B' -> c j B <= c j B').
  { intros j B B' Hb Le. unfold c. rewrite <- (RInt_Chasles (g j) (- B') (- B) B'), <- (RInt_Chasles (g j) (- B) B B') by apply Ig.
    assert (0 <= RInt (g j) (- B') (- B)) by (apply RInt_ge_0; [lra|apply Ig|intros; apply Pg]).
    assert (0 <= RInt (g j) B B') by (apply RInt_ge_0; [lra|apply Ig|intros; apply Pg]).
    match goal with |- _ <= plus ?u (plus ?v ?w) => change (v <= u + (v + w)) end. lra. }
  assert (Lc : forall j, is_lub (fun v => exists B, 0 <= B /\ v = c j B) (m j)).
  { intros j. destruct (Tg j) as (U & M). split.
    - intros v (B & Hb & ->). apply U. exists B. split; [exact Hb|]. reflexivity.
    - intros b Hb. apply M. intros v (B & HB & ->). apply Hb. exists B. split; [exact HB|reflexivity]. }
  assert (Cc : forall l', cont (fun x : J -> R => prodf l' (fun j => g j (x j)))).
  { intros l'. apply (cont_prod l' (fun j x => g j (x j))). intros j _. apply (cont_fun (g j)); [apply Cg|apply cont_coord]. }
  assert (E : forall B, 0 <= B -> forall x, cube_integral dj B l (fun x => prodf l (fun j => g j (x j))) x = prodf l (fun j => c j B)).
  { intros B Hb. clear - Nd Hb Cc Ig. induction l as [|i l IH]; intros x; [reflexivity|]. inversion Nd as [|? ? N1 N2]; subst. cbn [cube_integral].
    rewrite (RInt_ext _ (fun t => scal (prodf l (fun j => c j B)) (g i t))).
    - rewrite (RInt_scal (V := R_CompleteNormedModule)) by apply Ig. unfold prodf at 2. cbn [map fold_right]. change (prodf l (fun j => c j B) * c i B = c i B * prodf l (fun j => c j B)). ring.
    - intros t _. rewrite (cube_ext dj B l _ (fun x => g i t * prodf l (fun j => g j (x j))) Hb).
      + rewrite (cube_scal dj B l (fun x => prodf l (fun j => g j (x j))) (g i t) Hb (Cc l)). rewrite IH by exact N2. apply Rmult_comm.
      + intros y _ Y. unfold prodf. cbn [map fold_right]. rewrite (Y i N1), upd_same. reflexivity. }
  assert (P : is_lub (fun v => exists B, 0 <= B /\ v = prodf l (fun j => c j B)) (prodf l m)).
  { clear E Nd. induction l as [|i l IH].
    - unfold prodf. cbn. split; [intros v (B & _ & ->); lra|intros b Hb; apply Hb; exists 0; split; [lra|reflexivity]].
    - apply (lub_mult (c i) (fun B => prodf l (fun j => c j B)) (m i) (prodf l m)); auto.
      + intros B Hb. apply prodf_nonneg. auto.
      + intros B B' Hb Le. clear - Mc Pc Hb Le. induction l as [|k l IH]; [cbn; lra|]. unfold prodf in *. cbn [map fold_right]. apply Rmult_le_compat; auto.
        apply (prodf_nonneg l (fun j => c j B)). auto. }
  destruct P as (U & M). split.
  - intros v (B & Hb & ->). rewrite E by exact Hb. apply U. eauto.
  - intros b Hb. apply M. intros v (B & HB & ->). apply Hb. exists B. split; [exact HB|]. now rewrite E.
Qed.
Theorem C16_dirichlet_simplex lgamma alpha : (forall j, 0 < alpha j) -> (forall j, lgamma_euler lgamma (alpha j)) -> lgamma_euler lgamma (sumR (map alpha cats)) ->
  simplex_integral (length L) (fun x => exp (dirichlet_lp lgamma x (map alpha cats))) 1.
Proof.
  intros Pa Ha HA.
  replace (fun x => exp (dirichlet_lp lgamma x (map alpha cats))) with (fun x => exp (dirichlet_lp lgamma x (map alpha cats)) * 1) by (extensionality x; ring).
  apply (proj1 (C17_dirichlet lgamma alpha (fun _ => 1) 1 Pa HA (statistic_one _))).
  rewrite gamma_logs; [|exact (cont_const 1)|intros; lra].
  rewrite <- (total_factor cdec cats (fun y => prodf cats (fun j => exp (alpha j * y j - exp (y j))) * 1) _ 1 (exp_pos _)).
  2: { apply cont_mult; [|apply cont_const]. apply (cont_prod cats (fun j y => exp (alpha j * y j - exp (y j)))). intros j _.
       apply cont_exp', cont_minus; [apply cont_mult; [apply cont_const|apply cont_coord]|apply cont_exp', cont_coord]. }
  replace (1 / exp (- sumf cats (fun j => lgamma (alpha j)))) with (prodf cats (fun j => exp (lgamma (alpha j)))).
  2: { rewrite prodf_exp, exp_Ropp. field. apply Rgt_not_eq, exp_pos. }
  eapply ProofChange.total_ext.
  2: apply (total_product cdec cats (fun j t => exp (alpha j * t - exp t)) (fun j => exp (lgamma (alpha j)))).
  - intros y. cbv beta. ring.
  - apply (olist_once L L_once).
  - intros j t. apply (ex_derive_continuous (V := R_NormedModule)). auto_derive. auto.
  - intros j t. left. apply exp_pos.
  - intros j. apply total_log_gamma, Ha.
Qed.
End Categories.
Print Assumptions C16_exp_concrete.
Print Assumptions C16_concrete.
Print Assumptions C16_dirichlet_simplex.
Print Assumptions C17_exp_concrete.
Print Assumptions C17_concrete.
Print Assumptions C17_dirichlet.

(** Three categories. *)
Example simplex_case : exists lgamma,
  let L := [true; false] in
  let logits := fun j => match j with Some true => 2 | Some false => -1 | None => 0 end in
  simplex_integral 2 (fun x => exp (concrete_lp lgamma x (/ 2) [2; -1; 0])) 1 /\
  simplex_integral 2 (fun x => exp (dirichlet_lp lgamma x [/ 2; 3; 1])) 1 /\
  (forall v, mean_over_uniform (odec Bool.bool_dec) (categories L) (fun u => exp (nth 0 (concrete_sample (map u (categories L)) (/ 2) (map logits (categories L))) 0)) v <->
     simplex_integral 2 (fun x => exp (concrete_lp lgamma x (/ 2) [2; -1; 0]) * exp (nth 0 x 0)) v).
Proof.
  destruct lgamma_premises_met as (lgamma & H & _). exists lgamma. cbv zeta.
  set (L := [true; false]). set (logits := fun j => match j with Some true => 2 | Some false => -1 | None => 0 end).
  assert (Once : NoDup L) by (repeat constructor; cbn; intuition discriminate).
  assert (All : forall i, In i L) by (intros []; cbn; auto).
  assert (E3 : lgamma_euler lgamma (INR (length (categories L)))) by (apply H; cbn; lra).
  split; [|split].
  - apply (C16_concrete Bool.bool_dec L Once All lgamma (/ 2) logits); [lra|exact E3].
  - set (alpha := fun j => match j with Some true => / 2 | Some false => 3 | None => 1 end).
    assert (Pa : forall j, 0 < alpha j) by (intros [[]|]; unfold alpha; lra).
    apply (C16_dirichlet_simplex Bool.bool_dec L Once All lgamma alpha); [exact Pa|intros j; apply H, Pa|]. apply H. cbn. lra.
  - intros v. apply (C17_concrete Bool.bool_dec L Once All lgamma (/ 2) logits (fun x => exp (nth 0 x 0)) v); [lra|exact E3|].
    split; [|intros x; left; apply exp_pos]. apply (cont_exp' (fun x => nth 0 (map x (categories L)) 0)). exact (cont_coord (Some true)).
Qed.
