(** C01: the backward operation search is exact and ordered. *)
From Coq Require Import List Relations Lia.
From Verif Require Import ModelGraph SpecGraph ProofGraph.
Import ListNotations.

(** C01.  On every graph whose needed part is finite (the list [ops] bounds it),
    the search ends, with the same result for every sufficient step budget; the
    result lists every needed op exactly once, and if there is no dependency
    cycle each op comes after everything it requires. *)
Theorem C01_backward_ops_exact :
  forall g seeds treat ops,
  finite_part g seeds treat ops ->
  exists bound r,
    (forall fuel, bound <= fuel -> get_backward_ops fuel g seeds treat = Some r)
    /\ NoDup r
    /\ (forall o, In o r <-> needed g seeds treat o)
    /\ (acyclic g treat -> dependency_ordered g treat r).
Proof.
  intros g seeds treat ops Hfin.
  destruct (result_exists g seeds treat ops Hfin) as [bound Hb].
  destruct (Hb bound (le_n _)) as [r Hr].
  exists bound, r. split.
  - intros fuel Hf. destruct (Hb fuel Hf) as [r' Hr']. rewrite Hr'. f_equal.
    exact (loop_fuel_mono g treat fuel bound _ _ _ Hr' Hr).
  - destruct (result_exact g seeds treat bound r Hr) as [H1 H2].
    repeat split; try assumption; try apply H2.
    intros Hac. exact (result_ordered g seeds treat bound r Hac Hr).
Qed.
Print Assumptions C01_backward_ops_exact.

(** Whatever the budget and the graph (finite or not, cyclic or not), a result
    that is returned is exact. *)
Theorem C01_backward_ops_sound :
  forall fuel g seeds treat r,
  get_backward_ops fuel g seeds treat = Some r ->
  NoDup r /\ (forall o, In o r <-> needed g seeds treat o).
Proof. intros fuel g seeds treat r. exact (result_exact g seeds treat fuel r). Qed.
Print Assumptions C01_backward_ops_sound.

(** Witness: the graph of testGetBackwardOpsControlDeps (a=0 -> b=1, c=2 -> d=3,
    controls b,d -> e=4, controls e,d -> f=5). *)
Definition ex_graph : graph := Graph
  (fun o => match o with 1 => [Tensor 0 0] | 3 => [Tensor 2 0] | _ => [] end)
  (fun o => match o with 4 => [1; 3] | 5 => [4; 3] | _ => [] end).

Example C01_witness_run :
  get_backward_ops 100 ex_graph [Tensor 3 0; Tensor 5 0] [Tensor 1 0]
  = Some [2; 3; 0; 1; 4; 5].
Proof. reflexivity. Qed.

Example C01_witness_hyps :
  finite_part ex_graph [Tensor 3 0; Tensor 5 0] [Tensor 1 0] [0;1;2;3;4;5]
  /\ acyclic ex_graph [Tensor 1 0].
Proof.
  assert (Hlt : forall o d, follows ex_graph [Tensor 1 0] o d -> d < o /\ o < 6).
  { intros o d [[t [H1 [_ <-]]]|H].
    - destruct o as [|[|[|[|[|[|o]]]]]]; simpl in H1; try tauto;
        destruct H1 as [<-|[]]; simpl; lia.
    - destruct o as [|[|[|[|[|[|o]]]]]]; simpl in H; try tauto;
        destruct H as [<-|[<-|[]]]; simpl; lia. }
  split.
  - intros o H. assert (o < 6).
    { induction H as [t H1 H2|o d H IH Hf].
      - destruct H1 as [<-|[<-|[]]]; simpl; lia.
      - apply Hlt in Hf; lia. }
    do 6 (destruct o as [|o]; [simpl; tauto|]). lia.
  - intros o H.
    assert (Ht : forall a b, clos_trans op (follows ex_graph [Tensor 1 0]) a b -> b < a).
    { induction 1 as [x y Hs|x y z _ H1 _ H2]; [apply Hlt in Hs|]; lia. }
    apply Ht in H. lia.
Qed.

(** Acyclicity is needed for the order: with the cycle 0 -> 1 -> 0 no listing of
    the needed ops is dependency-ordered. *)
Example C01_cycle_needs_hypothesis :
  let g := Graph (fun o => match o with 0 => [Tensor 1 0] | 1 => [Tensor 0 0] | _ => [] end)
                 (fun _ => []) in
  exists r, get_backward_ops 50 g [Tensor 0 0] [] = Some r
            /\ ~ dependency_ordered g [] r.
Proof.
  eexists. split; [vm_compute; reflexivity|].
  intros H. specialize (H [] 0 [1] eq_refl 1).
  apply H. left. exists (Tensor 1 0). simpl; tauto.
Qed.
