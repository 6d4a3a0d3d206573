(** What tf.gradients sees of the distributions: the parameters, samples and log
    densities of zhusuan/distributions as expression graphs with tf.stop_gradient
    nodes. One batch entry is modelled: broadcasting (ModelTensor.v) copies entries
    and does not change which of them a derivative flows through. Gradients are
    given in forward mode, along one direction of the inputs; tf.gradients computes
    the same derivatives in reverse mode. *)
From Coq Require Import List Arith Bool Reals.
From Verif Require Import ModelTensor ModelDist ModelChol.
Import ListNotations.
Local Open Scope R_scope.

(** ** Expression graphs *)
Inductive tm :=
| Var (v : nat)                       (* a tf.Variable or placeholder entry *)
| Cst (c : R)
| Neg (a : tm) | Ad (a b : tm) | Sb (a b : tm) | Mu (a b : tm) | Dv (a b : tm)
| Ex (a : tm) | Lg (a : tm) | Sq (a : tm) | Ab (a : tm)
| Sp (a : tm)                         (* tf.nn.softplus *)
| Sg (a : tm)                         (* tf.sigmoid *)
| Lga (a : tm)                        (* tf.lgamma *)
| Draw (u : R) (a : tm)               (* standard tf.random_gamma variate of shape [a] *)
| Opq (f : list R -> R) (l : list tm) (* an operation without a gradient *)
| Stop (a : tm).                      (* tf.stop_gradient *)

Section Eval.
(** [draw u a] is tf.random_gamma's variate from the random bits [u]; [digamma] and
    [ddraw] are the derivatives TensorFlow registers for tf.lgamma and, with respect
    to the shape parameter, for tf.random_gamma. *)
Variables lgamma digamma : R -> R.
Variables draw ddraw : R -> R -> R.

(** Value of a node when the inputs are [e]. *)
Fixpoint value (e : nat -> R) (m : tm) : R :=
  match m with
  | Var v => e v
  | Cst c => c
  | Neg a => - value e a
  | Ad a b => value e a + value e b
  | Sb a b => value e a - value e b
  | Mu a b => value e a * value e b
  | Dv a b => value e a / value e b
  | Ex a => exp (value e a)
  | Lg a => ln (value e a)
  | Sq a => square (value e a)
  | Ab a => Rabs (value e a)
  | Sp a => softplus (value e a)
  | Sg a => sigmoid (value e a)
  | Lga a => lgamma (value e a)
  | Draw u a => draw u (value e a)
  | Opq f l => f (map (value e) l)
  | Stop a => value e a
  end.

(** Derivative of a node when the inputs move with velocity [de] at [e]: the chain
    rule with the gradient functions of TensorFlow; tf.stop_gradient and operations
    without a gradient contribute zero. *)
Fixpoint grad (e de : nat -> R) (m : tm) : R :=
  match m with
  | Var v => de v
  | Cst _ => 0
  | Neg a => - grad e de a
  | Ad a b => grad e de a + grad e de b
  | Sb a b => grad e de a - grad e de b
  | Mu a b => grad e de a * value e b + value e a * grad e de b
  | Dv a b => (grad e de a * value e b - value e a * grad e de b) / (value e b) ^ 2
  | Ex a => grad e de a * exp (value e a)
  | Lg a => grad e de a / value e a
  | Sq a => grad e de a * (2 * value e a)
  | Ab a => grad e de a * sign (value e a)
  | Sp a => grad e de a * sigmoid (value e a)
  | Sg a => grad e de a * (sigmoid (value e a) * (1 - sigmoid (value e a)))
  | Lga a => grad e de a * digamma (value e a)
  | Draw u a => grad e de a * ddraw u (value e a)
  | Opq _ _ => 0
  | Stop _ => 0
  end.
End Eval.

(** tf.reduce_sum, tf.reduce_logsumexp, tf.nn.log_softmax and tf.nn.softmax of a row *)
Definition tsum (l : list tm) : tm := fold_right Ad (Cst 0) l.
Definition tlse (l : list tm) : tm := Lg (tsum (map Ex l)).
Definition tlog_softmax (l : list tm) : list tm := map (fun a => Sb a (tlse l)) l.
Definition tsoftmax (l : list tm) : list tm := map (fun a => Dv (Ex a) (tsum (map Ex l))) l.
Definition tsumn (n : nat) (f : nat -> tm) : tm := tsum (map f (seq 0 n)).
(** tf.matrix_triangular_solve on one column, as [fsub] of ModelChol.v. *)
Fixpoint tfsub (L : nat -> nat -> tm) (y : nat -> tm) (n : nat) : list tm :=
  match n with
  | O => []
  | S k => let xs := tfsub L y k in
           xs ++ [Dv (Sb (y k) (tsumn k (fun j => Mu (L k j) (nth j xs (Cst 0))))) (L k k)]
  end.

(** ** Constructed distributions *)

(** The parameters each class stores; for the normal family both the standard
    deviation and its logarithm. *)
Inductive gclass :=
| GNormal (mean std logstd : tm)
| GFoldNormal (mean std logstd : tm)
| GUniform (minval maxval : tm)
| GLaplace (loc scale : tm)
| GBinConcrete (temperature logits : tm)
| GExpConcrete (temperature : tm) (logits : list tm)
| GConcrete (temperature : tm) (logits : list tm)
| GMvn (n : nat) (mean : nat -> tm) (cov_tril : nat -> nat -> tm)
| GMvmn (nr nc : nat) (mean u_tril v_tril : nat -> nat -> tm)
| GBernoulli (logits : tm)
| GPoisson (rate : tm)
| GGamma (alpha beta : tm)
| GInverseGamma (alpha beta : tm)
| GBeta (alpha beta : tm)
| GDirichlet (alpha : list tm).

(** Normal.__init__, univariate.py:95-119 and FoldNormal.__init__, 240-264: the other
    one of std and logstd is computed from the one given. *)
Definition std_of (std logstd : option tm) : option (tm * tm) :=
  match std, logstd with
  | Some s, None => Some (s, Lg s)
  | None, Some l => Some (Ex l, l)
  | _, _ => None
  end.

(** Distribution.__init__, base.py:82-99: the two gradient switches. *)
Record gdist := GDist { g_class : gclass; g_reparam : bool; g_path : bool }.

(** Classes whose __init__ has the keyword is_reparameterized: Normal
    (univariate.py:79-129), FoldNormal (224-274), Uniform (578-606), Laplace
    (1190-1220), BinConcrete (1314-1339), ExpConcrete, Concrete, the Cholesky normals
    (multivariate.py:719-748, 857-886, 72-114, 1000-1059). *)
Definition takes_reparam (c : gclass) : bool :=
  match c with
  | GNormal _ _ _ | GFoldNormal _ _ _ | GUniform _ _ | GLaplace _ _ | GBinConcrete _ _
  | GExpConcrete _ _ | GConcrete _ _ | GMvn _ _ _ | GMvmn _ _ _ _ _ => true
  | _ => false
  end.
(** The constructors, with the arguments is_reparameterized and use_path_derivative
    when they are passed. The other classes pass is_reparameterized=False to
    Distribution.__init__, so receiving it again in **kwargs is a TypeError, [None];
    use_path_derivative reaches Distribution.__init__ from every class, by name or in
    **kwargs. *)
Definition gnew (c : gclass) (is_reparameterized use_path_derivative : option bool) : option gdist :=
  let path := match use_path_derivative with Some b => b | None => false end in
  match takes_reparam c, is_reparameterized with
  | true, Some b => Some (GDist c b path)
  | true, None => Some (GDist c true path)
  | false, None => Some (GDist c false path)
  | false, Some _ => None
  end.

(** Distribution.path_param, base.py:150-158. *)
Definition path_param (d : gdist) (a : tm) : tm := if g_path d then Stop a else a.
(** The lines "if not self.is_reparameterized: ... tf.stop_gradient(...)". *)
Definition block (d : gdist) (a : tm) : tm := if g_reparam d then a else Stop a.

(** tf.cast(tf.less(u, p)), Bernoulli._sample, univariate.py:386-396. *)
Definition less_than (u : R) (l : list R) : R := if Rlt_dec u (nth 0 l 0) then 1 else 0.

(** [_sample] of each class for one batch entry, from the random draws [z]:
    univariate.py:161-172, 306-317, 632-644, 1246-1265, 1363-1379, 386-396, 915-920,
    733-735, 1141-1144, 826-831; multivariate.py:781-795, 919-934, 145-166, 1099-1121,
    660-663. tf.random_gamma(alpha, beta) is a standard variate divided by beta.
    tf.random_poisson has no gradient. *)
Definition g_sample (pois : R -> R -> R) (d : gdist) (z : nat -> R) : list tm :=
  let b := block d in
  match g_class d with
  | GNormal mean std _ | GFoldNormal mean std _ => [Ad (Mu (Cst (z 0%nat)) (b std)) (b mean)]
  | GUniform lo hi => [Ad (Mu (Cst (z 0%nat)) (Sb (b hi) (b lo))) (b lo)]
  | GLaplace loc scale =>
      [Sb (b loc) (Mu (Mu (b scale) (Cst (sign (z 0%nat)))) (Cst (ln (1 + - Rabs (z 0%nat)))))]
  | GBinConcrete temperature logits =>
      [Sg (Dv (Ad (b logits) (Cst (ln (z 0%nat) - ln (1 - z 0%nat)))) (b temperature))]
  | GExpConcrete temperature logits =>
      tlog_softmax (map (fun k => Dv (Ad (b (nth k logits (Cst 0))) (Cst (gumbel (z k)))) (b temperature))
                        (seq 0 (length logits)))
  | GConcrete temperature logits =>
      tsoftmax (map (fun k => Dv (Ad (b (nth k logits (Cst 0))) (Cst (gumbel (z k)))) (b temperature))
                    (seq 0 (length logits)))
  | GMvn n mean cov_tril =>
      map (fun i => Ad (tsumn n (fun j => Mu (b (cov_tril i j)) (Cst (z j)))) (b (mean i))) (seq 0 n)
  | GMvmn nr nc mean u_tril v_tril =>
      map (fun i =>
        let r := (i / nc)%nat in let c := (i mod nc)%nat in
        Ad (b (mean r c))
           (tsumn nc (fun l => Mu (tsumn nr (fun j => Mu (b (u_tril r j)) (Cst (z (j * nc + l)%nat))))
                                  (b (v_tril c l)))))
        (seq 0 (nr * nc))
  | GBernoulli logits => [Opq (less_than (z 0%nat)) [Sg logits]]
  | GPoisson rate => [Opq (fun l => pois (z 0%nat) (nth 0 l 0)) [rate]]
  | GGamma alpha beta => [Dv (Draw (z 0%nat) alpha) beta]
  | GInverseGamma alpha beta => [Dv (Cst 1) (Dv (Draw (z 0%nat) alpha) beta)]
  | GBeta alpha beta =>
      let x := Draw (z 0%nat) alpha in let y := Draw (z 1%nat) beta in [Dv x (Ad x y)]
  | GDirichlet alpha =>
      let s := map (fun k => Draw (z k) (nth k alpha (Cst 0))) (seq 0 (length alpha)) in
      map (fun a => Dv a (tsum s)) s
  end.

(** Indicator masks: FoldNormal, univariate.py:326 (log of 1 or of 0, the latter
    outside the support), and Uniform, 653-655. They are casts of booleans and carry
    no gradient. *)
Definition log_mask_ge0 (l : list R) : R := if Rle_dec 0 (nth 0 l 0) then ln 1 else ln 0.
Definition uniform_mask (l : list R) : R :=
  if Rle_dec (nth 0 l 0) (nth 1 l 0) then if Rlt_dec (nth 1 l 0) (nth 2 l 0) then 1 else 0 else 0.

Definition tnth (l : list tm) (k : nat) : tm := nth k l (Cst 0).

(** [_log_prob] of each class for one batch entry: univariate.py:174-181, 319-328,
    646-659, 1267-1273, 1381-1399, 398-403, 922-933, 737-747, 1146-1158, 833-851;
    multivariate.py:797-811, 936-952, 169-190, 1124-1157, 665-677. The stable form of
    the sigmoid cross entropy is replaced by softplus(logits) - logits * given, equal
    in value and derivative. *)
Definition g_log_prob (d : gdist) (given : list tm) : tm :=
  let p := path_param d in
  let x := tnth given 0 in
  match g_class d with
  | GNormal mean _ logstd =>
      Sb (Sb (Cst (- (1/2) * ln (2 * PI))) (p logstd))
         (Mu (Mu (Cst (1/2)) (Ex (Mu (Cst (-2)) (p logstd)))) (Sq (Sb x (p mean))))
  | GFoldNormal mean _ logstd =>
      let precision := Ex (Mu (Cst (-2)) (p logstd)) in
      Ad (Ad (Sb (Cst (- (1/2) * (ln 2 + ln PI)))
                 (Ad (p logstd) (Mu (Mu (Cst (1/2)) precision) (Sq (Sb x (p mean))))))
             (Sp (Mu (Mu (Mu (Cst (-2)) (p mean)) x) precision)))
         (Opq log_mask_ge0 [x])
  | GUniform lo hi => Lg (Mu (Dv (Cst 1) (Sb hi lo)) (Opq uniform_mask [lo; x; hi]))
  | GLaplace loc scale =>
      Sb (Sb (Cst (- ln 2)) (Lg (p scale))) (Dv (Ab (Sb x (p loc))) (p scale))
  | GBinConcrete temperature logits =>
      let lx := Lg x in let l1 := Lg (Sb (Cst 1) x) in
      let temp := Sb (Mu (p temperature) (Sb lx l1)) (p logits) in
      Sb (Ad (Sb (Sb (Lg (p temperature)) lx) l1) temp) (Mu (Cst 2) (Sp temp))
  | GExpConcrete temperature logits =>
      let n := INR (length logits) in
      let temp := map (fun k => Sb (p (nth k logits (Cst 0))) (Mu (p temperature) (tnth given k)))
                      (seq 0 (length logits)) in
      Sb (Ad (Ad (Lga (Cst n)) (Mu (Cst (n - 1)) (Lg (p temperature)))) (tsum temp))
         (Mu (Cst n) (tlse temp))
  | GConcrete temperature logits =>
      let n := INR (length logits) in
      let temp k := Sb (p (nth k logits (Cst 0))) (Mu (p temperature) (Lg (tnth given k))) in
      let ks := seq 0 (length logits) in
      Sb (Ad (Ad (Lga (Cst n)) (Mu (Cst (n - 1)) (Lg (p temperature))))
             (tsum (map (fun k => Sb (temp k) (Lg (tnth given k))) ks)))
         (Mu (Cst n) (tlse (map temp ks)))
  | GMvn n mean cov_tril =>
      let log_det := Mu (Cst 2) (tsumn n (fun i => Lg (p (cov_tril i i)))) in
      let log_z := Sb (Cst (- INR n / 2 * ln (2 * PI))) (Dv log_det (Cst 2)) in
      let xs := tfsub (fun i j => p (cov_tril i j)) (fun i => Sb (tnth given i) (p (mean i))) n in
      Ad log_z (Mu (Cst (- (1/2))) (tsum (map Sq xs)))
  | GMvmn nr nc mean u_tril v_tril =>
      let log_det_u := Mu (Cst 2) (tsumn nr (fun i => Lg (p (u_tril i i)))) in
      let log_det_v := Mu (Cst 2) (tsumn nc (fun i => Lg (p (v_tril i i)))) in
      let logZ := Sb (Sb (Cst (- (INR nr * INR nc) / 2 * ln (2 * PI)))
                         (Mu (Cst (INR nr / 2)) log_det_v))
                     (Mu (Cst (INR nc / 2)) log_det_u) in
      let y r c := Sb (tnth given (r * nc + c)) (p (mean r c)) in
      let x c := tfsub (fun i j => p (u_tril i j)) (fun r => y r c) nr in
      let x_t r := tfsub (fun i j => p (v_tril i j)) (fun c => nth r (x c) (Cst 0)) nc in
      Ad logZ (Mu (Cst (- (1/2)))
                  (tsumn nc (fun c => tsumn nr (fun r => Sq (nth c (x_t r) (Cst 0))))))
  | GBernoulli logits => Neg (Sb (Sp logits) (Mu logits x))
  | GPoisson rate => Sb (Sb (Mu x (Lg rate)) rate) (Lga (Ad x (Cst 1)))
  | GGamma alpha beta =>
      Sb (Ad (Sb (Mu alpha (Lg beta)) (Lga alpha)) (Mu (Sb alpha (Cst 1)) (Lg x))) (Mu beta x)
  | GInverseGamma alpha beta =>
      Sb (Sb (Sb (Mu alpha (Lg beta)) (Lga alpha)) (Mu (Ad alpha (Cst 1)) (Lg x))) (Dv beta x)
  | GBeta alpha beta =>
      Sb (Ad (Mu (Sb alpha (Cst 1)) (Lg x)) (Mu (Sb beta (Cst 1)) (Lg (Sb (Cst 1) x))))
         (Sb (Ad (Lga alpha) (Lga beta)) (Lga (Ad alpha beta)))
  | GDirichlet alpha =>
      Ad (Neg (Sb (tsum (map Lga alpha)) (Lga (tsum alpha))))
         (tsum (map (fun k => Mu (Sb (nth k alpha (Cst 0)) (Cst 1)) (Lg (tnth given k)))
                    (seq 0 (length alpha))))
  end.
