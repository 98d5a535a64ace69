(** Quadrature rules (quadrature.py).  Exact arithmetic over a field; the
    Newton iteration of [compute_gauss_jacobi_points] is a parameter [gjp]. *)
Set Warnings "-notation-overridden,-ambiguous-paths".
From mathcomp Require Import all_ssreflect all_algebra.
From Verif Require Base.
From Verif Require Import ModelJacobi ModelAffine ModelExpansion.
Set Implicit Arguments. Unset Strict Implicit. Unset Printing Implicit Defensive.
Import GRing.Theory.
Local Open Scope ring_scope.

(** [numpy.linalg.det] of a list of rows: LinAlgError unless square. *)
Definition np_det (F : fieldType) (A : seq (seq F)) : Base.result F :=
  if all (fun r => size r == size A) A
  then Base.Ok (\det (\matrix_(i < size A, j < size A) nth 0 (nth [::] A i) j))
  else Base.Err Base.LinAlgError.

Section Cells.
Variable F : fieldType.
(** Cells as the quadrature code sees them: a simplex (shape POINT, LINE,
    TRIANGLE or TETRAHEDRON by dimension; the flag tells whether it is an
    instance of the UFC class of that dimension) with its vertices, a
    TensorProductCell, UFCQuadrilateral, UFCHexahedron. *)
Inductive qcell :=
  | QSimp (dim : nat) (ufc : bool) (verts : seq (seq F))
  | QProd (cells : seq qcell)
  | QQuad
  | QHex.
(** reference_element.py l.510-516, l.539-549, l.634-645: UFC cells *)
Definition UFCInterval := QSimp 1 true [:: [:: 0]; [:: 1]].
Definition UFCTriangle := QSimp 2 true [:: [:: 0; 0]; [:: 1; 0]; [:: 0; 1]].
Definition UFCTetrahedron := QSimp 3 true [:: [:: 0; 0; 0]; [:: 1; 0; 0]; [:: 0; 1; 0]; [:: 0; 0; 1]].
(** l.498-500, l.525-527, l.581-585: vertices of the Default cells *)
Definition default_verts (d : nat) : seq (seq F) :=
  match d with
  | 1%N => [:: [:: -1]; [:: 1]]
  | 2%N => [:: [:: -1; -1]; [:: 1; -1]; [:: -1; 1]]
  | _ => [:: [:: -1; -1; -1]; [:: 1; -1; -1]; [:: -1; 1; -1]; [:: -1; -1; 1]]
  end.

(** quadrature.py l.17-36, [QuadratureRule] *)
Record rule := Rule { q_cell : qcell; q_pts : seq (seq F); q_wts : seq F }.
Definition quadrature_rule (c : qcell) (pts : seq (seq F)) (wts : seq F) : Base.result rule :=
  if size wts != size pts then Base.Err Base.ValueError else Base.Ok (Rule c pts wts).
Definition integrate (r : rule) (f : seq F -> F) : F :=
  \sum_(xw <- zip (q_pts r) (q_wts r)) xw.2 * f xw.1.

(** l.358-371, [compute_gauss_jacobi_rule] for natural a, b: the gamma function
    at a natural argument is a factorial. *)
Variable gjp : nat -> nat -> nat -> seq F.
Definition gj_weight (a b m : nat) (x : F) : F :=
  let a1 := 2%:R ^+ (a + b + 1) in
  let a2 := (a + m)`!%:R in
  let a3 := (b + m)`!%:R in
  let a4 := (a + b + m)`!%:R in
  let a5 := m`!%:R in
  let a6 := a1 * a2 * a3 / a4 / a5 in
  a6 / (1 - x ^+ 2) / eval_jacobi_deriv a%:R b%:R m x ^+ 2.
Definition gauss_jacobi_rule (a b m : nat) : seq F * seq F :=
  (gjp a b m, [seq gj_weight a b m x | x <- gjp a b m]).

(** l.47-59, l.83-94, l.112-122: mapping a 1D rule from [-1,1] to the vertices.
    [tuple(mapping(x_ref)[0])] with a scalar [x_ref]: numpy multiplies [A] by
    the scalar and broadcasts [b]; row 0 is taken. *)
Definition map_line_rule (c : qcell) (verts : seq (seq F)) (xw : seq F * seq F) : Base.result rule :=
  Base.bind (make_affine_mapping (default_verts 1) verts) (fun Ab =>
  Base.bind (np_det Ab.1) (fun scale =>
  quadrature_rule c
    [seq [seq nth 0 (nth [::] Ab.1 0) 0 * x + bj | bj <- Ab.2] | x <- xw.1]
    [seq scale * w | w <- xw.2])).
(** l.39-59, [GaussJacobiQuadratureLineRule] *)
Definition gj_line_rule (c : qcell) (verts : seq (seq F)) (m : nat) : Base.result rule :=
  map_line_rule c verts (gauss_jacobi_rule 0 0 m).

(** l.183-207, [CollapsedQuadratureTriangleRule] *)
Definition collapsed_triangle (c : qcell) (verts : seq (seq F)) (m : nat) : Base.result rule :=
  let: (ptx, wx) := gauss_jacobi_rule 0 0 m in
  let: (pty, wy) := gauss_jacobi_rule 1 0 m in
  let pts_ref := [seq (let: (u, v) := xi_triangle x y in [:: u; v]) | x <- ptx, y <- pty] in
  Base.bind (make_affine_mapping (default_verts 2) verts) (fun Ab =>
  Base.bind (np_det Ab.1) (fun scale =>
  quadrature_rule c [seq affine Ab.1 Ab.2 x | x <- pts_ref]
    [seq 2%:R^-1 * scale * w1 * w2 | w1 <- wx, w2 <- wy])).

(** l.210-236, [CollapsedQuadratureTetrahedronRule] *)
Definition collapsed_tetrahedron (c : qcell) (verts : seq (seq F)) (m : nat) : Base.result rule :=
  let: (ptx, wx) := gauss_jacobi_rule 0 0 m in
  let: (pty, wy) := gauss_jacobi_rule 1 0 m in
  let: (ptz, wz) := gauss_jacobi_rule 2 0 m in
  let pts_ref := flatten [seq [seq (let: (u, v, w) := xi_tetrahedron x y z in [:: u; v; w]) | y <- pty, z <- ptz] | x <- ptx] in
  Base.bind (make_affine_mapping (default_verts 3) verts) (fun Ab =>
  Base.bind (np_det Ab.1) (fun scale =>
  quadrature_rule c [seq affine Ab.1 Ab.2 x | x <- pts_ref]
    (flatten [seq [seq scale * 8%:R^-1 * w1 * w2 * w3 | w2 <- wy, w3 <- wz] | w1 <- wx]))).

(** [itertools.product] *)
Fixpoint iproduct {T} (ls : seq (seq T)) : seq (seq T) :=
  match ls with
  | [::] => [:: [::]]
  | l :: ls' => [seq x :: r | x <- l, r <- iproduct ls']
  end.
(** l.311-321, [make_tensor_product_quadrature] *)
Definition tp_quadrature (qs : seq rule) : Base.result rule :=
  quadrature_rule (QProd [seq q_cell q | q <- qs])
    [seq flatten t | t <- iproduct [seq q_pts q | q <- qs]]
    [seq \prod_(w <- t) w | t <- iproduct [seq q_wts q | q <- qs]].

(** l.280-308, [make_quadrature] with an integer [m] *)
Definition make_quadrature (c : qcell) (m : nat) : Base.result rule :=
  if m == 0%N then Base.Err Base.AssertionError
  else match c with
  | QSimp 0 _ _ => quadrature_rule c [:: [::]] [:: 1]
  | QSimp 1 _ v => gj_line_rule c v m
  | QSimp 2 _ v => collapsed_triangle c v m
  | QSimp 3 _ v => collapsed_tetrahedron c v m
  | QQuad => Base.bind (gj_line_rule UFCInterval [:: [:: 0]; [:: 1]] m) (fun l => tp_quadrature [:: l; l])
  | QHex => Base.bind (gj_line_rule UFCInterval [:: [:: 0]; [:: 1]] m) (fun l => tp_quadrature [:: l; l; l])
  | _ => Base.Err Base.ValueError
  end.
End Cells.
