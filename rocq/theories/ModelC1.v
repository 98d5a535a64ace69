(** morley.py, argyris.py: elements whose nodes include normal derivatives, from
    the constructor call to the coefficients of the basis.  Exact arithmetic over
    a real closed field; numpy's svd and qr and the choice of [set.pop] (used by
    [compute_normal], ModelNormal.v) are parameters. *)
Set Warnings "-notation-overridden,-ambiguous-paths".
From mathcomp Require Import all_ssreflect all_algebra.
From Verif Require Base ModelCell ModelFam ModelFunctional.
From Verif Require Import ModelDmats ModelAffine ModelDual ProofsDmatsReg ModelSpace ModelNormal.
Set Implicit Arguments. Unset Strict Implicit. Unset Printing Implicit Defensive.
Import Order.TTheory GRing.Theory Num.Theory.
Local Open Scope ring_scope.

Section C1.
Variable R : rcfType.
Notation K := (mcF R).
Notation pt := (seq R).
Notation fnl := (functional R [eqType of pt]).
Variables (sqrt : R -> R) (svd : seq (seq R) -> seq (seq R) * seq R * seq (seq R)).
Variables (qr : seq (seq R) -> seq (seq R) * seq (seq R)) (pop : seq nat -> nat).

(** functional.py l.238-252: [PointNormalDerivative] asks the cell for
    [compute_normal] of the facet (ModelNormal.v); the other nodes of these
    elements are those of ModelSpace.v *)
Definition geometry_normal (c : cell) (n : seq R) : ModelFunctional.geometry R :=
  ModelFunctional.mkGeometry (sdim_of c) (fun _ => n) (fun _ => [::]) (fun _ => [::]) (fun _ => [::]) (fun _ _ => [::]) (fun _ _ p => p) (fun _ _ => 0).
Definition c1_node (c : cell) (l : ModelFam.node K) : result fnl :=
  match l with
  | ModelFam.PointNormalDerivative e x =>
    bind (cell_normal svd qr pop c e) (fun n => Ok (ModelFunctional.PointNormalDerivative (geometry_normal c n) e x))
  | _ => node_functional l
  end.
(** morley.py l.53-58, argyris.py l.130-145: the polynomial set is built first,
    then the dual set, then finite_element.py l.112-145 *)
Definition c1_element (c : cell) (n : nat) (el : Base.result (ModelFam.element K)) : result (polyset R) :=
  bind (on_set sqrt c n) (fun U =>
  match el with
  | Base.Err e => Err e
  | Base.Ok el => bind (map_res (c1_node c) (ModelFam.el_nodes K el)) (fun nodes => ciarlet (exp_set sqrt c n (num_members U)) nodes U)
  end).
Definition morley (c : cell) := c1_element c 2 (ModelFam.Morley K c).
Definition argyris (c : cell) (degree : nat) := c1_element c degree (ModelFam.Argyris K c degree).
Definition quintic_argyris (c : cell) := c1_element c 5 (ModelFam.QuinticArgyris K c).
End C1.
