(** regge.py, hellan_herrmann_johnson.py: symmetric tensor valued elements, from
    the constructor call to the coefficients of the basis; polynomial_set.py:
    symmetric tensor valued orthonormal sets.  Exact arithmetic; for the normals
    of the second element numpy's svd and qr and the choice of [set.pop] are
    parameters (ModelNormal.v). *)
Set Warnings "-notation-overridden,-ambiguous-paths".
From mathcomp Require Import all_ssreflect all_algebra.
From Verif Require Base ModelIndex ModelPolySet ModelCell ModelFam ModelFunctional.
From Verif Require Import ModelJacobi ModelExpansion ModelDmats ModelAffine ModelDual ProofsDmatsReg ModelSpace ModelNormal.
Set Implicit Arguments. Unset Strict Implicit. Unset Printing Implicit Defensive.
Import GRing.Theory Num.Theory.
Local Open Scope ring_scope.

Section Tens.
Variable F : fieldType.
Notation K := (mcF F).
Notation pt := (seq F).
Notation fnl := (functional F [eqType of pt]).
Variable sqrt : F -> F.

(** polynomial_set.py l.240-291, [ONSymTensorPolynomialSet] with the default
    size: ones written by the loops of ModelPolySet.v into zeros *)
Definition sym_set (c : cell) (n : nat) : result (polyset F) :=
  match ModelFam.polynomial_dimension c n with
  | Base.Err e => Err e
  | Base.Ok N =>
    let sd := sdim_of c in
    bind (exp_jets sqrt c n [::] 0) (fun _ =>
    Ok (mkPolySet (ModelPolySet.sym_num_members sd N) [:: sd; sd]
          (fun j cmp i => (ModelPolySet.coeff (ModelPolySet.sym_layout sd N) j cmp i)%:R)))
  end.
(** functional.py l.676-696: [PointwiseInnerProductEvaluation] only asks the
    cell for its dimension *)
Definition geometry_of (c : cell) : ModelFunctional.geometry F :=
  ModelFunctional.mkGeometry (sdim_of c) (fun _ => [::]) (fun _ => [::]) (fun _ => [::]) (fun _ => [::]) (fun _ _ => [::]) (fun _ _ p => p) (fun _ _ => 0).
Definition tens_node (c : cell) (l : ModelFam.node K) : result fnl :=
  match l with
  | ModelFam.InnerProduct v w x => Ok (ModelFunctional.PointwiseInnerProductEvaluation (geometry_of c) v w x)
  | _ => Err Base.NotImplementedError
  end.
(** regge.py l.86-95, hellan_herrmann_johnson.py l.87-97: the polynomial set is
    built first, then the dual set, then finite_element.py l.112-145 *)
Definition tens_element (node : cell -> ModelFam.node K -> result fnl) (c : cell) (n : nat) (el : Base.result (ModelFam.element K)) : result (polyset F) :=
  bind (sym_set c n) (fun U =>
  match ModelFam.polynomial_dimension c n with
  | Base.Err e => Err e
  | Base.Ok N =>
    match el with
    | Base.Err e => Err e
    | Base.Ok el => bind (map_res (node c) (ModelFam.el_nodes K el)) (fun nodes => ciarlet (exp_set sqrt c n N) nodes U)
    end
  end).
Definition regge (c : cell) (degree : nat) : result (polyset F) := tens_element tens_node c degree (ModelFam.Regge K c degree).
End Tens.

Section HHJ.
Variable R : rcfType.
Notation K := (mcF R).
Notation fnl := (functional R [eqType of seq R]).
Variables (sqrt : R -> R) (svd : seq (seq R) -> seq (seq R) * seq R * seq (seq R)).
Variables (qr : seq (seq R) -> seq (seq R) * seq (seq R)) (pop : seq nat -> nat).
(** hellan_herrmann_johnson.py l.44-61: the node that ModelFam.v records as the
    [i]-th one of edge [e] is the inner product evaluation with the scaled normal
    of [e] at the [i]-th of the points [make_points(1, e, degree + 2)] *)
Definition hhj_node (degree : nat) (c : cell) (l : ModelFam.node K) : result fnl :=
  match l with
  | ModelFam.Moment ModelFam.MNormalNormal 1 e i =>
    bind (scaled_normal svd qr pop c e) (fun n =>
    Ok (ModelFunctional.PointwiseInnerProductEvaluation (geometry_of R c) n n (nth [::] (ModelFam.make_points K c 1 e (degree + 2)) i)))
  | l => tens_node c l
  end.
Definition hellan_herrmann_johnson (c : cell) (degree : nat) : result (polyset R) :=
  tens_element sqrt (hhj_node degree) c degree (ModelFam.HellanHerrmannJohnson K c degree).
End HHJ.
