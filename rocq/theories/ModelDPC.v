(** discontinuous_pc.py: the DPC element on hypercubes, from the constructor call
    to the coefficients of the basis.  Exact arithmetic. *)
Set Warnings "-notation-overridden,-ambiguous-paths".
From mathcomp Require Import all_ssreflect all_algebra.
From Verif Require Base ModelCell ModelFam.
From Verif Require Import ModelExpansion ModelDmats ModelAffine ModelDual ProofsDmatsReg ModelSpace.
Set Implicit Arguments. Unset Strict Implicit. Unset Printing Implicit Defensive.
Import GRing.Theory.
Local Open Scope ring_scope.

(** l.22-26, [hypercube_simplex_map]; cells are compared by class *)
Definition hypercube_simplex_map (f : cell) : Base.result cell :=
  match f with
  | ModelCell.Point => Base.Ok ModelCell.Point
  | ModelCell.DefaultLine => Base.Ok ModelCell.DefaultLine
  | ModelCell.UFCInterval => Base.Ok ModelCell.UFCInterval
  | ModelCell.UFCQuadrilateral => Base.Ok ModelCell.UFCTriangle
  | ModelCell.UFCHexahedron => Base.Ok ModelCell.UFCTetrahedron
  | _ => Base.Err Base.KeyError
  end.

Section DPC.
Variables (F : fieldType) (sqrt : F -> F).
Notation K := (mcF F).
Notation pt := (seq F).
(** [v[::2]] *)
Fixpoint evens (T : Type) (l : seq T) : seq T :=
  match l with
  | x :: _ :: l' => x :: evens l'
  | _ => l
  end.
(** [np.average(vs, axis=0)] of points with [dim] coordinates *)
Definition average (dim : nat) (vs : seq pt) : pt := mkseq (fun i => (\sum_(v <- vs) nth 0 v i) / (size vs)%:R) dim.
(** l.54-61, [v_]; [v_hypercube[int(-0.5*n)]] is entry [n - n/2] when there is
    more than one vertex (the Point does not get here: l.94 raises for it) *)
Definition dpc_vertices (f : cell) : seq pt :=
  let v := ModelCell.vertices K f : seq pt in
  let dim := sdim_of f in
  [:: nth [::] v 0; nth [::] v (size v - (size v)./2)] ++
  [seq (let a := average dim (evens v) in mkseq (fun i => nth 0 (nth [::] v (dim - d)) i + nth 0 a i) dim) | d <- iota 1 (dim - 1)].
(** l.69-78: the loop over the entities of the simplex is that of lagrange.py
    l.24-33 (ModelFam.v); every point goes through [np.matmul(A, x) + b] *)
Definition map_node (A : seq pt) (b : pt) (l : ModelFam.node K) : ModelFam.node K :=
  match l with
  | ModelFam.PointEvaluation x => ModelFam.PointEvaluation K (affine A b x : pt)
  | _ => l
  end.
(** l.29-41 with P0.py l.15-35 for degree 0, l.45-87 and l.91-104 for positive
    degrees; l.107-111 chooses.  For degree 0 the node is the mean of the
    vertices of [ref_el], not of the flattened cell. *)
Definition DPC (c : cell) (degree : nat) : Base.result (ModelFam.element K) :=
  Base.bind (ModelCell.flatten_reference_cube c) (fun f =>
  Base.bind (hypercube_simplex_map f) (fun s =>
  Base.bind (ModelFam.on_members s degree 1) (fun m =>
  if degree == 0%N then
    Base.Ok (@ModelFam.mkEl K m [:: ModelFam.PointEvaluation K (ModelFam.barycenter K c)]
      ((fix go (t : ModelCell.dict (seq nat)) := match t with
          | [::] => [::] | [:: (d, _)] => [:: (d, [:: (0%N, [:: 0%N])])] | x :: t' => x :: go t' end)
        (ModelFam.all_empty (ModelCell.topology c))))
  else
    Base.bind (make_affine_mapping (verts F s) (dpc_vertices f)) (fun Ab =>
    let nodes := map (map_node Ab.1 Ab.2) (ModelFam.lagrange_dual K s degree).1 in
    Base.Ok (@ModelFam.mkEl K m nodes (ModelFam.set_last (iota 0 (size nodes)) (ModelFam.all_empty (ModelCell.topology c)))))))).
(** the polynomial set of the simplex (l.32 and l.96), then
    finite_element.py l.112-145 *)
Definition dpc (c : cell) (degree : nat) : result (polyset F) :=
  match ModelCell.flatten_reference_cube c with
  | Base.Err e => Err e
  | Base.Ok f =>
    match hypercube_simplex_map f with
    | Base.Err e => Err e
    | Base.Ok s => element_of sqrt s degree (DPC c degree)
    end
  end.
End DPC.
