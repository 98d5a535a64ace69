(** bell.py: the Bell element, from the constructor call to the coefficients of
    the basis.  Exact arithmetic over a real closed field; numpy's svd and qr, the
    choice of [set.pop] (used by [compute_normal], ModelNormal.v) and the Newton
    iteration for the quadrature points are parameters. *)
Set Warnings "-notation-overridden,-ambiguous-paths".
From Coq Require Import ZArith String.
From mathcomp Require Import all_ssreflect all_algebra.
From Verif Require Base ModelCell ModelFam ModelFunctional ModelGeom ModelQuad ModelScheme ModelJacobi.
From Verif Require Import ModelDmats ModelAffine ModelDual ProofsDmatsReg ModelSpace ModelNormal ModelC1.
Set Implicit Arguments. Unset Strict Implicit. Unset Printing Implicit Defensive.
Import Order.TTheory GRing.Theory Num.Theory.
Local Open Scope ring_scope.

Section Bell.
Variable R : rcfType.
Notation K := (mcF R).
Notation pt := (seq R).
Notation fnl := (functional R [eqType of pt]).
Variables (sqrt : R -> R) (svd : seq (seq R) -> seq (seq R) * seq R * seq (seq R)).
Variables (qr : seq (seq R) -> seq (seq R) * seq (seq R)) (pop : seq nat -> nat) (gjp : nat -> nat -> nat -> seq R).

(** functional.py l.314-339: [IntegralMomentOfNormalDerivative] asks the cell for
    [compute_normal] of the facet and for its [get_entity_transform]
    (ModelGeom.v, reference_element.py l.392-443) *)
Definition geometry_map (c : cell) (n : seq R) (T : ModelGeom.pmap (K := K)) : ModelFunctional.geometry R :=
  ModelFunctional.mkGeometry (sdim_of c) (fun _ => n) (fun _ => [::]) (fun _ => [::]) (fun _ => [::]) (fun _ _ => [::])
    (fun _ _ p => if T p is Base.Ok y then y : seq R else [::]) (fun _ _ => 0).
(** bell.py l.55-59: the rule of degree 8 on [ufc_simplex(1)] (quadrature_schemes.py,
    ModelScheme.v) and the Jacobi polynomial of degree 4 (jacobi.py, ModelJacobi.v)
    at its points, mapped to [-1, 1].  There the points are an array with one
    column, so each value is an array of length 1; here it is its entry. *)
Definition bell_rule : Base.result (ModelQuad.rule R) :=
  ModelScheme.create_quadrature gjp (ModelQuad.UFCInterval R) (ModelScheme.DInt 8) "default"%string.
Definition bell_weights (Q : ModelQuad.rule R) : seq R := [seq ModelJacobi.eval_jacobi 0 0 4 (2%:R * nth 0 x 0 - 1) | x <- ModelQuad.q_pts Q].
(** bell.py l.35-65; the other nodes are those of ModelSpace.v *)
Definition bell_node (c : cell) (l : ModelFam.node K) : result fnl :=
  match l with
  | ModelFam.Moment ModelFam.MNormalDerivative _ e _ =>
    match bell_rule with
    | Base.Err err => Err err
    | Base.Ok Q =>
      bind (cell_normal svd qr pop c e) (fun n =>
      match @ModelGeom.get_entity_transform K c (ModelCell.DI (sdim_of c - 1)) e with
      | Base.Err err => Err err
      | Base.Ok T => Ok (ModelFunctional.IntegralMomentOfNormalDerivative (geometry_map c n T) e
                           (ModelFunctional.mkRule (ModelQuad.q_pts Q) (ModelQuad.q_wts Q)) (bell_weights Q))
      end)
    end
  | _ => node_functional l
  end.
(** bell.py l.72-77, then finite_element.py l.112-145 *)
Definition bell (c : cell) : result (polyset R) :=
  bind (on_set sqrt c 5) (fun U =>
  match ModelFam.Bell K c with
  | Base.Err e => Err e
  | Base.Ok el => bind (map_res (bell_node c) (ModelFam.el_nodes K el)) (fun nodes => ciarlet (exp_set sqrt c 5 (num_members U)) nodes U)
  end).
End Bell.
