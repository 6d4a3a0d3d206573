(** Vocabulary for statements about gradients of samples and log densities. *)
From Coq Require Import List Arith Bool Reals.
From Coquelicot Require Import Coquelicot.
From Verif Require Import ModelDist ModelChol ModelGrad SpecChol.
Import List ListNotations.
Local Open Scope R_scope.

Section Spec.
Variables lgamma digamma : R -> R.
Variables draw ddraw : R -> R -> R.
Variable pois : R -> R -> R.

(** The value of a node at inputs [e] when everything behind a tf.stop_gradient or an
    operation without a gradient keeps the value it has at [e0]. tf.gradients is
    specified to return the derivative of this function of [e] at [e0]. *)
Fixpoint held (e0 e : nat -> R) (m : tm) : R :=
  match m with
  | Var v => e v
  | Cst c => c
  | Neg a => - held e0 e a
  | Ad a b => held e0 e a + held e0 e b
  | Sb a b => held e0 e a - held e0 e b
  | Mu a b => held e0 e a * held e0 e b
  | Dv a b => held e0 e a / held e0 e b
  | Ex a => exp (held e0 e a)
  | Lg a => ln (held e0 e a)
  | Sq a => square (held e0 e a)
  | Ab a => Rabs (held e0 e a)
  | Sp a => softplus (held e0 e a)
  | Sg a => sigmoid (held e0 e a)
  | Lga a => lgamma (held e0 e a)
  | Draw u a => draw u (held e0 e a)
  | Opq _ _ | Stop _ => value lgamma draw e0 m
  end.

(** The inputs move along [path], with velocity [v] at time [t]. *)
Definition moves (path : R -> nat -> R) (t : R) (v : nat -> R) : Prop :=
  forall k, is_derive (fun s => path s k) t (v k).

(** A node has a derivative at the inputs [e]: logarithms of positive numbers, no
    division by zero, no absolute value of zero, and the derivatives registered for
    lgamma and random_gamma are right where they are used. *)
Fixpoint regular (e : nat -> R) (m : tm) : Prop :=
  let val := value lgamma draw e in
  match m with
  | Var _ | Cst _ | Opq _ _ | Stop _ => True
  | Neg a | Ex a | Sq a | Sp a | Sg a => regular e a
  | Ad a b | Sb a b | Mu a b => regular e a /\ regular e b
  | Dv a b => regular e a /\ regular e b /\ val b <> 0
  | Lg a => regular e a /\ 0 < val a
  | Ab a => regular e a /\ val a <> 0
  | Lga a => regular e a /\ is_derive lgamma (val a) (digamma (val a))
  | Draw u a => regular e a /\ is_derive (draw u) (val a) (ddraw u (val a))
  end.

(** ** The functions the gradients are of: the formulas of ModelDist.v and
    ModelChol.v, [val] giving the value of each parameter *)

(** Log density of MVN(mean, L L^T) and MN(mean, U U^T, V V^T) by forward
    substitution. *)
Definition mvn_formula (n : nat) (mean : nat -> R) (L : nat -> nat -> R) (given : list R) : R :=
  - INR n / 2 * ln (2 * PI) - rsum n (fun i => ln (L i i))
  - 1 / 2 * sumR (map square (fsub L (fun i => nth i given 0 - mean i) n)).
Definition mvmn_formula (nr nc : nat) (mean U V : nat -> nat -> R) (given : list R) : R :=
  let x c := fsub U (fun r => nth (r * nc + c) given 0 - mean r c) nr in
  let x_t r := fsub V (fun c => nth r (x c) 0) nc in
  - (INR nr * INR nc) / 2 * ln (2 * PI)
  - INR nr * rsum nc (fun i => ln (V i i)) - INR nc * rsum nr (fun i => ln (U i i))
  - 1 / 2 * rsum nc (fun c => rsum nr (fun r => square (nth c (x_t r) 0))).

Definition finite (l : logp) : R := match l with Fin r => r | NegInf => 0 end.

Definition density (val : tm -> R) (c : gclass) (given : list R) : R :=
  let x := nth 0 given 0 in
  match c with
  | GNormal mean _ logstd => normal_lp x (val mean) (val logstd)
  | GFoldNormal mean _ logstd => finite (foldnormal_lp x (val mean) (val logstd))
  | GUniform lo hi => finite (uniform_lp x (val lo) (val hi))
  | GLaplace loc scale => laplace_lp x (val loc) (val scale)
  | GBinConcrete temperature logits => bin_concrete_lp x (val temperature) (val logits)
  | GExpConcrete temperature logits => exp_concrete_lp lgamma given (val temperature) (map val logits)
  | GConcrete temperature logits => concrete_lp lgamma given (val temperature) (map val logits)
  | GMvn n mean cov => mvn_formula n (fun i => val (mean i)) (fun i j => val (cov i j)) given
  | GMvmn nr nc mean u v =>
      mvmn_formula nr nc (fun i j => val (mean i j)) (fun i j => val (u i j)) (fun i j => val (v i j)) given
  | GBernoulli logits => bernoulli_lp x (val logits)
  | GPoisson rate => poisson_lp lgamma x (val rate)
  | GGamma alpha beta => gamma_lp lgamma x (val alpha) (val beta)
  | GInverseGamma alpha beta => inverse_gamma_lp lgamma x (val alpha) (val beta)
  | GBeta alpha beta => beta_lp lgamma x (val alpha) (val beta)
  | GDirichlet alpha => dirichlet_lp lgamma given (map val alpha)
  end.

Definition sampler (val : tm -> R) (c : gclass) (z : nat -> R) : list R :=
  match c with
  | GNormal mean std _ => [normal_sample (z 0%nat) (val mean) (val std)]
  | GFoldNormal mean std _ => [foldnormal_sample (z 0%nat) (val mean) (val std)]
  | GUniform lo hi => [uniform_sample (z 0%nat) (val lo) (val hi)]
  | GLaplace loc scale => [laplace_sample (z 0%nat) (val loc) (val scale)]
  | GBinConcrete temperature logits => [bin_concrete_sample (z 0%nat) (val temperature) (val logits)]
  | GExpConcrete temperature logits =>
      exp_concrete_sample (map z (seq 0 (length logits))) (val temperature) (map val logits)
  | GConcrete temperature logits =>
      concrete_sample (map z (seq 0 (length logits))) (val temperature) (map val logits)
  | GMvn n mean cov => map (fun i => val (mean i) + rsum n (fun j => val (cov i j) * z j)) (seq 0 n)
  | GMvmn nr nc mean u v =>
      map (fun i => let r := (i / nc)%nat in let c := (i mod nc)%nat in
             val (mean r c) +
             rsum nc (fun l => rsum nr (fun j => val (u r j) * z (j * nc + l)%nat) * val (v c l)))
          (seq 0 (nr * nc))
  | GBernoulli logits => [bernoulli_sample (z 0%nat) (val logits)]
  | GPoisson rate => [pois (z 0%nat) (val rate)]
  | GGamma alpha beta => [draw (z 0%nat) (val alpha) / val beta]
  | GInverseGamma alpha beta => [inverse_gamma_sample (draw (z 0%nat) (val alpha) / val beta)]
  | GBeta alpha beta => [beta_sample (draw (z 0%nat) (val alpha)) (draw (z 1%nat) (val beta))]
  | GDirichlet alpha =>
      dirichlet_sample (map (fun k => draw (z k) (val (nth k alpha (Cst 0)))) (seq 0 (length alpha)))
  end.

(** [given] has the length of one value of the class. *)
Definition fits_class (c : gclass) (given : list tm) : Prop :=
  length given = match c with
                 | GExpConcrete _ l | GConcrete _ l | GDirichlet l => length l
                 | GMvn n _ _ => n
                 | GMvmn nr nc _ _ _ => (nr * nc)%nat
                 | _ => 1%nat
                 end.
(** [x] is in the interior of the support, for the two classes whose log_prob uses a
    mask. *)
Definition inside (val : tm -> R) (c : gclass) (given : list R) : Prop :=
  let x := nth 0 given 0 in
  match c with
  | GFoldNormal _ _ _ => 0 < x
  | GUniform lo hi => val lo < x < val hi
  | _ => True
  end.

(** The parameters and the value are where the log density is differentiable. *)
Definition differentiable_at (val : tm -> R) (c : gclass) (given : list R) : Prop :=
  let x := nth 0 given 0 in
  match c with
  | GNormal _ _ _ | GBernoulli _ => True
  | GFoldNormal _ _ _ => 0 < x
  | GUniform lo hi => val lo < x < val hi
  | GLaplace loc scale => 0 < val scale /\ x <> val loc
  | GBinConcrete temperature _ => 0 < val temperature /\ 0 < x < 1
  | GExpConcrete temperature logits => 0 < val temperature /\ logits <> []
  | GConcrete temperature logits => 0 < val temperature /\ logits <> [] /\ Forall (Rlt 0) given
  | GMvn n _ cov => forall i, (i < n)%nat -> 0 < val (cov i i)
  | GMvmn nr nc _ u v =>
      (forall i, (i < nr)%nat -> 0 < val (u i i)) /\ (forall i, (i < nc)%nat -> 0 < val (v i i))
  | GPoisson rate => 0 < val rate /\ -1 < x
  | GGamma alpha beta | GInverseGamma alpha beta => 0 < val alpha /\ 0 < val beta /\ 0 < x
  | GBeta alpha beta => 0 < val alpha /\ 0 < val beta /\ 0 < x < 1
  | GDirichlet alpha => alpha <> [] /\ Forall (fun a => 0 < val a) alpha /\ Forall (Rlt 0) given
  end.
(** The same for the reparameterised samplers: only the temperatures matter. *)
Definition sampler_differentiable (val : tm -> R) (c : gclass) : Prop :=
  match c with
  | GBinConcrete temperature _ | GExpConcrete temperature _ | GConcrete temperature _ => val temperature <> 0
  | _ => True
  end.
End Spec.

(** Every parameter of the class. *)
Definition parameters (c : gclass) : tm -> Prop := fun m =>
  match c with
  | GNormal a b d | GFoldNormal a b d => m = a \/ m = b \/ m = d
  | GUniform a b | GLaplace a b | GBinConcrete a b | GGamma a b | GInverseGamma a b | GBeta a b => m = a \/ m = b
  | GExpConcrete a l | GConcrete a l => m = a \/ In m l
  | GMvn n mean cov => exists i j, (i < n)%nat /\ (j < n)%nat /\ (m = mean i \/ m = cov i j)
  | GMvmn nr nc mean u v =>
      (exists i j, (i < nr)%nat /\ (j < nc)%nat /\ m = mean i j) \/
      (exists i j, (i < nr)%nat /\ (j < nr)%nat /\ m = u i j) \/
      (exists i j, (i < nc)%nat /\ (j < nc)%nat /\ m = v i j)
  | GBernoulli a | GPoisson a => m = a
  | GDirichlet l => In m l
  end.

(** Classes whose documentation has the argument use_path_derivative. *)
Definition documents_path (c : gclass) : bool :=
  match c with
  | GNormal _ _ _ | GFoldNormal _ _ _ | GLaplace _ _ | GBinConcrete _ _
  | GExpConcrete _ _ | GConcrete _ _ | GMvn _ _ _ | GMvmn _ _ _ _ _ => true
  | _ => false
  end.
