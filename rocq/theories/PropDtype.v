(** C50: samples have dtype [dtype] and probabilities have dtype [param_dtype],
    whatever dtypes a distribution was built with. *)
From Coq Require Import List Bool ZArith.
From Verif Require Import ModelShape SpecShape ModelInit SpecInit ModelDtype PropInit.
Import ListNotations.

(** The dtype of the parameters of a distribution that could be built is param_dtype. *)
Definition built (c : call) (g : iarg) (d p q : dtype) : Prop :=
  exists asserts, construct c g = Built (d, p) asserts /\ exists t, In t (params c) /\ ta_dtype t = q.
(** An n_experiments, n_categories or n_dim is an int or an int32 Tensor. *)
Definition int_like (t : ty) : Prop := t = PyInt \/ t = T I32.

Lemma built_cases c g d p q : well_known c g -> built c g d p q ->
  q = p /\ is_float p /\ (is_float d \/ is_int d) /\
  (dtype_argument c = None -> d = p) /\ dtype_argument_ok c /\ (forall d', dtype_argument c = Some d' -> d = d').
Proof.
  intros W [l [E [t [Ht Hq]]]]. destruct (C49_dtypes c g d p l W E) as [h1 [h2 [h3 h4]]].
  pose proof (construct_cases c g W) as C. rewrite E in C. destruct C as [[_ [D _]] _].
  split; [now rewrite <- Hq, (h1 t Ht)|]. split; [exact h2|]. split; [exact h4|].
  split; [intros N; now rewrite N in h3|]. split; [exact D|]. intros d' N. now rewrite N in h3.
Qed.
Ltac dtypes_cases F D :=
  destruct F as [->|[->| ->]]; destruct D as [[->|[->| ->]]|[->|[->| ->]]].

(** Samples: every class can be sampled, except UnnormalizedMultinomial and a
    Multinomial without n_experiments, and the samples have the dtype of the object. *)
Theorem C50_sample_dtype c g d p q now : well_known c g -> built c g d p q ->
  match c with
  | Multinomial _ None _ => sample d p q now c = SampleValueError
  | UnnormalizedMultinomial _ _ => sample d p q now c = SampleNotImplementedError
  | _ => exists e, sample d p q now c = Samples e /\ infer e = Some (T d)
  end.
Proof.
  intros W B. destruct (built_cases c g d p q W B) as [-> [F [D [N [O A]]]]].
  destruct c as [fold mean sentinel std logstd|r x|l x|x y|x y|x y|r x|l n x|x y|x y|t l|m cv|l n x|l x|l x|a|t l|t l|m u v];
    try (specialize (N eq_refl); subst d; destruct F as [->|[->| ->]]; destruct now; eexists; split; reflexivity);
    try destruct n as [n|]; try reflexivity; dtypes_cases F D; eexists; split; reflexivity.
Qed.

(** Probabilities: whatever is given, either it cannot be converted to the dtype of
    the distribution, or the result has the dtype of the parameters. No other dtype
    error can occur, on any of the branches on static shapes. *)
Theorem C50_log_prob_dtype c g d p q now normalize n given : well_known c g -> built c g d p q -> int_like n ->
  log_prob d p q now normalize n c given =
    match convert_given d given with inl e => inl e | inr _ => inr (Some (T p)) end /\
  prob d p q now normalize n c given =
    match convert_given d given with inl e => inl e | inr _ => inr (Some (T p)) end.
Proof.
  intros W B Hn. destruct (built_cases c g d p q W B) as [-> [F [D [N [O A]]]]].
  unfold log_prob, prob.
  assert (X : match convert_given d given with inr x => x = d | inl _ => True end).
  { unfold convert_given. destruct given as [x| | |]; auto; [now destruct (dtype_eqb x d)|now destruct (is_floating d)]. }
  destruct (convert_given d given) as [e|x]; [auto|]. subst x.
  enough (H : infer (log_prob_ d p p now normalize n (Lit (T d)) c) = Some (T p) /\
              infer (prob_ d p p now normalize n (Lit (T d)) c) = Some (T p)).
  { destruct H as [h1 h2]. simpl. rewrite h1, h2. destruct F as [->|[->| ->]]; auto. }
  destruct c as [[] mean sentinel std logstd|r x|l x|x y|x y|x y|r x|l k x|x y|x y|t l|m cv|l k x|l x|l x|a|t l|t l|m u v];
    try (specialize (N eq_refl); subst d; destruct F as [->|[->| ->]]; destruct now; destruct Hn as [->| ->]; split; reflexivity);
    try (dtypes_cases F D; destruct now; destruct normalize; destruct Hn as [->| ->]; try destruct k; split; reflexivity).
  simpl in O. assert (d = x) by (apply A; reflexivity). subst x.
  destruct F as [->|[->| ->]]; destruct O as [->|[->|[->| ->]]]; destruct now; split; reflexivity.
Qed.

(** What may be given: a Tensor of the distribution's own dtype; Python integers and
    NumPy arrays always; Python floats when the dtype is a floating one. *)
Definition acceptable (d : dtype) (given : garg) : Prop :=
  match given with
  | GTensor x => x = d
  | GPyInt | GNumpy => True
  | GPyFloat => is_float d
  end.
(** Exactly those are accepted; the others are refused, a Tensor of another dtype with
    a ValueError and Python floats for an integer dtype with a TypeError. In particular
    a sample can always be given back. *)
Theorem C50_given c g d p q now normalize n given : well_known c g -> built c g d p q -> int_like n ->
  (acceptable d given ->
     log_prob d p q now normalize n c given = inr (Some (T p)) /\ prob d p q now normalize n c given = inr (Some (T p))) /\
  (~ acceptable d given -> let refused := match given with GPyFloat => TypeError | _ => ValueError end in
     log_prob d p q now normalize n c given = inl refused /\ prob d p q now normalize n c given = inl refused).
Proof.
  intros W B Hn. destruct (C50_log_prob_dtype c g d p q now normalize n given W B Hn) as [-> ->].
  destruct (built_cases c g d p q W B) as [_ [_ [D _]]].
  destruct given as [x| | |]; cbn [acceptable convert_given]; [|split; tauto| |split; tauto].
  - split.
    + intros ->. assert (E : dtype_eqb d d = true) by (destruct d; reflexivity). now rewrite E.
    + intros N. assert (E : dtype_eqb x d = false) by (destruct x, d; try reflexivity; now destruct N). now rewrite E.
  - unfold is_float. destruct D as [[->|[->| ->]]|[->|[->| ->]]]; cbn; (split; [|easy || (intros N; exfalso; tauto)]);
      intros [H|[H|H]]; try discriminate H; auto.
Qed.
Print Assumptions C50_sample_dtype.
Print Assumptions C50_log_prob_dtype.
Print Assumptions C50_given.

(** A Categorical over float64 logits with float32 samples. *)
Example dtype_case :
  let c := Categorical (TArg F64 (Some [None; Some 3]) [2; 3]) F32 in
  well_known c (IInt 0) /\ built c (IInt 0) F32 F64 F64 /\
  sample F32 F64 F64 true c = Samples (Keep (Keep (Cast F32 (Keep (RandomCategorical (Keep (Lit (T F64)))))))) /\
  log_prob F32 F64 F64 true true PyInt c (GTensor F32) = inr (Some (T F64)) /\
  log_prob F32 F64 F64 true true PyInt c (GTensor I32) = inl ValueError.
Proof.
  cbv zeta. split; [|split; [|repeat split; reflexivity]].
  - split; [|split; [intros n E; discriminate E|exact Logic.I]]. simpl. intros t [<-|[]]. simpl. repeat constructor.
  - eexists. split; [reflexivity|]. eexists. split; [simpl; auto|reflexivity].
Qed.
(** The typing rules refuse what TensorFlow refuses: were the given labels of a
    Categorical not cast, float labels would be an error. *)
Example typing_rejects :
  infer (SparseXent (Lit (T F32)) (Lit (T F32))) = None /\
  infer (Arith (Lit (T F32)) (Lit (T F64))) = None /\ infer (Arith (Lit PyFloat) (Lit (T I32))) = None /\
  infer (Float (Lit (T I32))) = None /\ infer (Div (Lit (T I32)) (Lit PyInt)) = Some (T F64).
Proof. repeat split. Qed.
