(** discontinuous_taylor.py: the constructor call from the expansion set to the
    coefficients of the basis.  Exact arithmetic over a real closed field; the
    Newton iteration for the quadrature points is a parameter. *)
Set Warnings "-notation-overridden,-ambiguous-paths".
From mathcomp Require Import all_ssreflect all_algebra.
From Verif Require Base ModelCell ModelFam ModelFunctional ModelQuad.
From Verif Require Import ModelExpansion ModelDmats ModelAffine ModelDual ProofsDmatsReg ModelSpace ModelRT.
Set Implicit Arguments. Unset Strict Implicit. Unset Printing Implicit Defensive.
Import Order.TTheory GRing.Theory Num.Theory.
Local Open Scope ring_scope.

Section Taylor.
Variable R : rcfType.
Notation K := (mcF R).
Notation pt := (seq R).
Notation fnl := (functional R [eqType of pt]).
Variables (sqrt : R -> R) (gjp : nat -> nat -> nat -> seq R).
(** discontinuous_taylor.py l.25-28: the moment against 1, with
    [make_quadrature(ref_el, 2 * (degree + 1))] (ModelQuad.v) and
    functional.py l.281-301 (ModelFunctional.v); the other nodes, l.30-35, are
    those of ModelSpace.v *)
Definition taylor_node (c : cell) (degree : nat) (l : ModelFam.node K) : result fnl :=
  match l with
  | ModelFam.Moment ModelFam.MPlain _ 0 0 =>
    match ModelQuad.make_quadrature gjp (quad_cell R c) (2 * (degree + 1)) with
    | Base.Err e => Err e
    | Base.Ok Q =>
      match ModelFunctional.IntegralMoment (ModelFunctional.mkRule (ModelQuad.q_pts Q) (ModelQuad.q_wts Q)) (nseq (size (ModelQuad.q_wts Q)) 1) [::] [::] with
      | Base.Err e => Err e
      | Base.Ok f => Ok f
      end
    end
  | _ => node_functional l
  end.
(** l.43-59: the polynomial set, then the dual set, then
    finite_element.py l.112-145; degree 0 is [P0], which the dual set of
    ModelFam.v follows *)
Definition taylor (c : cell) (degree : nat) : result (polyset R) :=
  bind (on_set sqrt c degree) (fun U =>
  match ModelFam.DiscontinuousTaylor K c degree with
  | Base.Err e => Err e
  | Base.Ok el =>
    bind (map_res (taylor_node c degree) (ModelFam.el_nodes K el)) (fun nodes =>
    ciarlet (exp_set sqrt c degree (num_members U)) nodes U)
  end).
End Taylor.
