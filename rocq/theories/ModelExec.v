(** One run of a TensorFlow graph in an arbitrary order of its operations. *)
From Coq Require Import List.
Import ListNotations.

Section Exec.
Context {X N V : Type}.
Variables (eqX : forall a b : X, {a = b} + {a <> b}) (eqN : forall a b : N, {a = b} + {a <> b}).
(** The operations: data and control inputs; variables whose content an operation takes;
    variables whose content it takes through the output of their assignment, hence
    afterwards; the variable it assigns. *)
Record graph := Graph { deps : N -> list N; reads : N -> list X; refs : N -> list X; writes : N -> option X }.
Variable g : graph.
(** What operation [n] computes from its inputs and the contents it took. *)
Variable kernel : N -> (N -> V) -> (X -> V) -> V.

(** [Look n x]: the kernel of [n] takes the content of [x]. It may do so at any time before
    it finishes, and more than once; the last time counts. *)
Inductive event := Look (n : N) (x : X) | Run (n : N).
Record machine := Machine { mem : X -> V; seen : N -> X -> V; out : N -> V }.
Definition exec (s : machine) (e : event) : machine :=
  match e with
  | Look n x =>
    Machine (mem s) (fun n' x' => if eqN n' n then if eqX x' x then mem s x else seen s n' x' else seen s n' x') (out s)
  | Run n =>
    let v := kernel n (out s) (seen s n) in
    Machine (match writes g n with Some x => fun x' => if eqX x' x then v else mem s x' | None => mem s end)
            (seen s) (fun n' => if eqN n' n then v else out s n')
  end.
Definition run (l : list event) (s : machine) : machine := fold_left exec l s.

(** sess.run(target) executes the operations [target] depends on. *)
Inductive needed (target : N) : N -> Prop :=
| needed_self : needed target target
| needed_dep n m : needed target n -> In m (deps g n) -> needed target m.

(** The orders of execution: every needed operation runs once, after its inputs and after
    taking the contents it uses; contents taken through an assignment are taken after it. *)
Definition precedes (l : list event) (e e' : event) : Prop := forall l1 l2, l = l1 ++ e' :: l2 -> In e l1.
Definition schedule (target : N) (l : list event) : Prop :=
  (forall n, In (Run n) l <-> needed target n) /\
  (forall n l1 l2, l = l1 ++ Run n :: l2 -> ~ In (Run n) (l1 ++ l2)) /\
  (forall n x l1 l2, l = l1 ++ Run n :: l2 -> ~ In (Look n x) l2) /\
  (forall n m, In m (deps g n) -> precedes l (Run m) (Run n)) /\
  (forall n x, In x (reads g n) \/ In x (refs g n) -> precedes l (Look n x) (Run n)) /\
  (forall n x w, In x (refs g n) -> writes g w = Some x -> needed target w -> precedes l (Run w) (Look n x)).
End Exec.
Arguments graph : clear implicits.
Arguments event : clear implicits.
Arguments machine : clear implicits.
