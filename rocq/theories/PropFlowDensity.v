(** C39, C40: the log probability a normalizing flow returns is the log density of its
    output, as a statement about integrals over R^d. *)
From Coq Require Import List Reals Lra Lia FunctionalExtensionality.
From Coquelicot Require Import Coquelicot.
From Verif Require Import ModelShape ModelTensor ModelDist ModelFlow.
From Verif Require SpecFlow ProofFlow PropFlow PropSupport.
From Verif Require Import SpecDensity SpecVolume ProofVolume ProofChange ProofBimove SpecInvariance ProofPhase SpecFlowDensity ProofFlowDensity.
Import ListNotations.
Local Open Scope R_scope.

(** A network for which the flow is used: the outputs for a component depend on the
    components before it only, and continuously; for update='normal' the scales are
    positive. *)
Definition network {J : Type} (L : list J) (u : update_name) (nn : list R -> list R * list R) : Prop :=
  SpecFlow.autoregressive (length L) (fun z => fst (nn z)) /\ SpecFlow.autoregressive (length L) (fun z => snd (nn z)) /\
  continuous_rows L (fun z => fst (nn z)) /\ continuous_rows L (fun z => snd (nn z)) /\
  match u with
  | Normal => forall z k, length z = length L -> (k < length L)%nat -> 0 < nth k (snd (nn z)) 0
  | Gru => True
  | OtherName => False
  end.

Section Density.
Context {J : Type} (dec : forall i j : J, {i = j} + {i <> j}) (L : list J) (L_once : NoDup L) (L_all : forall j, In j L).

Lemma planar_change ps : List.Forall (PropFlow.planar_ok (length L)) ps ->
  exists T w S, bimoves dec L T w S /\ forall x l, planar_row ps (map x L, l) = Some (map (T x) L, l - ln (w x)).
Proof.
  induction ps as [|p ps IH]; intros H.
  - exists (fun x => x), (fun _ => 1), (fun x => x). split; [apply bimoves_id|]. intros x l. cbn. now rewrite ln_1, Rminus_0_r.
  - inversion H as [|? ? (Lw & La & N) Hps]; subst. destruct (IH Hps) as (T & w & S & M & E).
    assert (La' : length (p_aux_u p) = length (p_w p)) by congruence. pose proof (PropFlow.dot_nonzero _ N) as N'.
    pose proof (ProofFlow.planar_u_length p La') as Lu.
    set (W := from_row dec L (p_w p)). set (U := from_row dec L (planar_u p)).
    assert (EW : map W L = p_w p) by (now apply row_of). assert (EU : map U L = planar_u p) by (apply row_of; auto; congruence).
    assert (Dot : forall x y : J -> R, dot (map x L) (map y L) = along L x y).
    { intros x y. unfold along. clear. induction L as [|i l IH]; [reflexivity|]. cbn [map]. rewrite ProofFlow.dot_cons, IH. reflexivity. }
    assert (Hk : exists k, W k <> 0).
    { destruct N as (c & Hc & Nc). rewrite <- EW in Hc. apply in_map_iff in Hc. destruct Hc as (k & <- & _). now exists k. }
    destruct Hk as (k & Hk).
    assert (Hs : -1 < along L U W) by (rewrite <- Dot, EU, EW; now apply ProofFlow.planar_scalar_gt).
    destruct (bimoves_plane dec L L_once L_all W U (p_b p) k Hk Hs) as (S0 & M0).
    pose proof (bimoves_comp dec L L_all _ _ _ _ _ _ M0 M) as B. do 3 eexists. split; [exact B|].
    intros x l. cbn [planar_row]. rewrite ProofFlow.planar_layer_eq by assumption. cbn [obind].
    assert (Em : ProofFlow.planar_map p (map x L) = map (fun j => x j + tanh (along L x W + p_b p) * U j) L).
    { unfold ProofFlow.planar_map. rewrite <- EU, <- EW, Dot. generalize (tanh (along L x W + p_b p)). intros s. generalize U. clear. intros U.
      induction L as [|i l IH]; [reflexivity|]. cbn. f_equal. exact IH. }
    assert (Ed : ProofFlow.planar_det p (map x L) = along L U W * (1 - tanh (along L x W + p_b p) * tanh (along L x W + p_b p)) + 1).
    { unfold ProofFlow.planar_det. now rewrite <- EU, <- EW, !Dot. }
    rewrite Em, E. cbv beta. rewrite Ed.
    pose proof M0 as ((_ & _ & P0 & _) & _). pose proof M as ((_ & _ & P1 & _) & _).
    rewrite ln_mult by (apply P0 || apply P1). f_equal. f_equal. ring.
Qed.

(** Planar flow, any number of layers with admissible parameters: if the rows have the log
    density [lp] and that is what is passed in, then the outputs have the density whose
    logarithm is returned. *)
Theorem C39_density ps lp : List.Forall (PropFlow.planar_ok (length L)) ps -> cont lp ->
  exists out q, (forall x, planar_row ps (map x L, lp x) = Some (map (out x) L, q (out x))) /\
    carries dec L lp out q.
Proof.
  intros H C. destruct (planar_change ps H) as (T & w & S & M & E).
  exists T, (fun y => lp (S y) - ln (w (S y))). split; [|now apply carries_bimoves].
  intros x. rewrite E. destruct M as (_ & _ & _ & E'). now rewrite E'.
Qed.

Lemma iaf_change u nn n iter : (forall k, network L u (nn k)) ->
  exists T w S, bimoves dec L T w S /\ forall x l, iaf_row u nn iter n (map x L, l) = (map (T x) L, l - ln (w x)).
Proof.
  intros H. revert iter. induction n as [|n IH]; intros iter.
  - exists (fun x => x), (fun _ => 1), (fun x => x). split; [apply bimoves_id|]. intros x l. cbn. now rewrite ln_1, Rminus_0_r.
  - destruct (IH (S iter)) as (T & w & Si & M & E).
    assert (Q : exists T w S, bimoves dec L T w S /\ forall x l, iaf_layer u (nn iter) (map x L, l) = (map (T x) L, l - ln (w x))).
    { destruct (H iter) as (Am & As & Cm & Cs & P). destruct u; [| |contradiction].
      - destruct (bimoves_rows dec L L_once L_all (fun z => snd (nn iter z)) (fun z => fst (nn iter z)) (fun s => s) As Am Cs Cm) as (T0 & w0 & S0 & M0 & E0).
        { intros x j. apply P; [apply map_length|now apply pos_lt]. }
        exists T0, w0, S0. split; [exact M0|]. intros x l. destruct (E0 x) as (E1 & E2). unfold iaf_layer. cbn [fst snd].
        rewrite E1, E2, map_length. f_equal.
      - set (c := fun z => map (fun k => (1 - sigmoid (nth k (snd (nn iter z)) 0)) * nth k (fst (nn iter z)) 0) (seq 0 (length L))).
        assert (Nc : forall z k, (k < length L)%nat -> nth k (c z) 0 = (1 - sigmoid (nth k (snd (nn iter z)) 0)) * nth k (fst (nn iter z)) 0).
        { intros z k Hk. unfold c. set (g := fun k => (1 - sigmoid (nth k (snd (nn iter z)) 0)) * nth k (fst (nn iter z)) 0).
          rewrite (nth_indep _ 0 (g 0%nat)) by now rewrite map_length, seq_length. rewrite map_nth, seq_nth by exact Hk. reflexivity. }
        assert (Lc : forall z, length (c z) = length L) by (intros z; unfold c; now rewrite map_length, seq_length).
        assert (Csg : forall t, continuous sigmoid t) by (intros t; apply (ex_derive_continuous (V := R_NormedModule)); eexists; apply PropFlow.sigmoid_derive).
        destruct (bimoves_rows dec L L_once L_all (fun z => snd (nn iter z)) c sigmoid As) as (T0 & w0 & S0 & M0 & E0).
        { split; [intros z _; apply Lc|]. intros z z' j Lz Lz' Hj Q. rewrite !Nc by exact Hj. destruct Am as (_ & Am). destruct As as (_ & As).
          cbv beta in Am, As. now rewrite (Am z z' j), (As z z' j). }
        { intros k. apply (cont_fun sigmoid); [exact Csg|]. apply Cs. }
        { intros k. destruct (Nat.lt_ge_cases k (length L)) as [Hk|Hk].
          - apply (cont_ext (fun x => (1 - sigmoid (nth k (snd (nn iter (map x L))) 0)) * nth k (fst (nn iter (map x L))) 0)); [intros x; now rewrite Nc|].
            apply cont_mult; [|apply Cm]. apply cont_minus; [apply cont_const|]. apply (cont_fun sigmoid); [exact Csg|apply Cs].
          - apply (cont_ext (fun _ => 0)); [intros x; rewrite nth_overflow; [reflexivity|now rewrite Lc]|apply cont_const]. }
        { intros x j. apply PropSupport.sigmoid_range. }
        exists T0, w0, S0. split; [exact M0|]. intros x l. destruct (E0 x) as (E1 & E2). unfold iaf_layer. cbn [fst snd].
        rewrite E1, E2, map_length. f_equal. f_equal. apply map_ext_in. intros k Hk. apply in_seq in Hk. now rewrite Nc by lia. }
    destruct Q as (T0 & w0 & S0 & M0 & E0).
    pose proof (bimoves_comp dec L L_all _ _ _ _ _ _ M0 M) as B. do 3 eexists. split; [exact B|].
    intros x l. cbn [iaf_row]. rewrite E0, E. f_equal. cbv beta.
    pose proof M0 as ((_ & _ & P0 & _) & _). pose proof M as ((_ & _ & P1 & _) & _).
    rewrite ln_mult by (apply P0 || apply P1). ring.
Qed.

(** The same for the inverse autoregressive flow with either update. *)
Theorem C40_density u nn n iter lp : (forall k, network L u (nn k)) -> cont lp ->
  exists out q, (forall x, iaf_row u nn iter n (map x L, lp x) = (map (out x) L, q (out x))) /\
    carries dec L lp out q.
Proof.
  intros H C. destruct (iaf_change u nn n iter H) as (T & w & S & M & E).
  exists T, (fun y => lp (S y) - ln (w (S y))). split; [|now apply carries_bimoves].
  intros x. rewrite E. destruct M as (_ & _ & _ & E'). now rewrite E'.
Qed.

(** The provided network, whatever its weights. *)
Lemma cont_matmul d w k : @cont J (fun x => nth k (matmul_row d (map x L) w) 0).
Proof.
  unfold matmul_row. destruct (Nat.lt_ge_cases k d) as [Hk|Hk].
  - apply (cont_ext (fun x => sumR (map (fun i => nth i (map x L) 0 * w i k) (seq 0 d)))).
    + intros x. set (g := fun j => sumR (map (fun i => nth i (map x L) 0 * w i j) (seq 0 d))).
      rewrite (nth_indep _ 0 (g 0%nat)) by now rewrite map_length, seq_length. rewrite map_nth, seq_nth by exact Hk. reflexivity.
    + generalize (seq 0 d). intros l. induction l as [|i l IH]; unfold sumR in *; cbn [map fold_right]; [exact (cont_const 0)|].
      apply cont_plus; [|exact IH]. apply cont_mult; [|exact (cont_const (w i k))].
      destruct (Nat.lt_ge_cases i (length L)) as [Hi|Hi].
      * destruct L as [|j0 L'] eqn:EL; [cbn in Hi; lia|]. rewrite <- EL in *. apply (cont_ext (fun x => x (nth i L j0))); [|apply cont_coord].
        intros x. rewrite (nth_indep _ 0 (x j0)) by now rewrite map_length. now rewrite map_nth.
      * apply (cont_ext (fun _ => 0)); [intros x; now rewrite nth_overflow by now rewrite map_length|exact (cont_const 0)].
  - apply (cont_ext (fun _ => 0)); [intros x; now rewrite nth_overflow by now rewrite map_length, seq_length|exact (cont_const 0)].
Qed.
Lemma linear_network u m_w s_w : u <> OtherName -> network L u (linear_ar (length L) m_w s_w).
Proof.
  intros N. destruct (PropFlow.C40_linear_ar (length L) m_w s_w) as (A & B & _ & _ & P).
  split; [exact A|]. split; [exact B|]. split; [|split].
  - intros k. apply cont_matmul.
  - intros k. destruct (Nat.lt_ge_cases k (length L)) as [Hk|Hk].
    + apply (cont_ext (fun x => exp (nth k (matmul_row (length L) (map x L) (fun i j => mask i j * s_w i j)) 0))).
      * intros x. cbn [linear_ar snd]. rewrite (nth_indep (map exp _) 0 (exp 0)) by (unfold matmul_row; now rewrite !map_length, seq_length). now rewrite map_nth.
      * apply (cont_fun exp); [intros t; apply continuous_exp|apply cont_matmul].
    + apply (cont_ext (fun _ => 0)); [intros x; cbn [linear_ar snd]; now rewrite nth_overflow by (unfold matmul_row; now rewrite !map_length, seq_length)|exact (cont_const 0)].
  - destruct u; [|exact Logic.I|now destruct N]. intros z k _. apply P.
Qed.
Theorem C40_linear_density u m_w s_w n lp : u <> OtherName -> cont lp ->
  exists out q, (forall x, iaf_row u (fun k => linear_ar (length L) (m_w k) (s_w k)) 0 n (map x L, lp x) = (map (out x) L, q (out x))) /\
    carries dec L lp out q.
Proof. intros N C. apply C40_density; [|exact C]. intros k. now apply linear_network. Qed.

(** Not vacuous: standard normal rows, in any dimension. Both flows return the logarithm
    of a function whose integral is 1. *)
Definition standard_log (x : J -> R) : R := fold_right Rplus 0 (map (fun j => - (x j * x j) / 2 - ln (sqrt (2 * PI))) L).
Lemma standard_exp x : exp (standard_log x) = noise_density L x.
Proof.
  unfold standard_log, noise_density. clear. induction L as [|i l IH]; cbn [map fold_right]; [apply exp_0|].
  rewrite exp_plus, IH. f_equal. unfold standard_normal, Rminus. rewrite exp_plus, exp_Ropp, exp_ln; [ring|].
  apply sqrt_lt_R0. pose proof PI_RGT_0. lra.
Qed.
Lemma cont_standard : cont standard_log.
Proof.
  unfold standard_log. clear. induction L as [|i l IH]; cbn [map fold_right]; [exact (cont_const 0)|].
  apply cont_plus; [|exact IH]. apply cont_minus; [|apply cont_const]. unfold Rdiv. apply cont_mult; [|exact (cont_const (/ 2))]. apply cont_opp, cont_mult; apply cont_coord.
Qed.
Lemma standard_one out q : carries dec L standard_log out q -> has_integral dec L (fun y => exp (q y)) 1.
Proof.
  intros H. specialize (H (fun _ => 1) 1 (cont_const 1)).
  assert (E : (fun x : J -> R => exp (standard_log x) * 1) = noise_density L) by (extensionality x; rewrite standard_exp; ring).
  assert (E' : (fun y => exp (q y) * 1) = (fun y => exp (q y))) by (extensionality y; ring).
  cbv beta in H. rewrite E, E' in H. apply H. split; [apply cont_noise|]. split; [|now apply total_noise].
  intros x. rewrite <- standard_exp. left. apply exp_pos.
Qed.
Theorem C39_normal_density ps : List.Forall (PropFlow.planar_ok (length L)) ps ->
  exists out q, (forall x, planar_row ps (map x L, standard_log x) = Some (map (out x) L, q (out x))) /\
    has_integral dec L (fun y => exp (q y)) 1.
Proof.
  intros H. destruct (C39_density ps standard_log H cont_standard) as (out & q & E & C). exists out, q. split; [exact E|].
  exact (standard_one out q C).
Qed.
Theorem C40_normal_density u m_w s_w n : u <> OtherName ->
  exists out q, (forall x, iaf_row u (fun k => linear_ar (length L) (m_w k) (s_w k)) 0 n (map x L, standard_log x) = (map (out x) L, q (out x))) /\
    has_integral dec L (fun y => exp (q y)) 1.
Proof.
  intros N. destruct (C40_linear_density u m_w s_w n standard_log N cont_standard) as (out & q & E & C). exists out, q. split; [exact E|].
  exact (standard_one out q C).
Qed.
End Density.
Print Assumptions C39_density.
Print Assumptions C40_density.
Print Assumptions C40_linear_density.
Print Assumptions C39_normal_density.
Print Assumptions C40_normal_density.

Example C39_density_case : exists out q,
  (forall x : bool -> R, planar_row [Planar [1; 2] [0; 1] 3; Planar [0; -1] [5; 1] 0] ([x false; x true], standard_log [false; true] x) =
    Some ([out x false; out x true], q (out x))) /\
  has_integral Bool.bool_dec [false; true] (fun y => exp (q y)) 1.
Proof.
  apply (C39_normal_density Bool.bool_dec [false; true]).
  - repeat constructor; cbn; intuition discriminate.
  - intros []; cbn; auto.
  - exact PropFlow.C39_case.
Qed.
