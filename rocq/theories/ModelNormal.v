(** Facet normals, tangents and volumes (reference_element.py), in exact
    arithmetic over a real closed field ([numpy.linalg.norm] needs square roots).
    Arrays of shape (m, n) are lists of m rows; vectors are lists.  The singular
    value and QR decompositions of numpy and the order in which [set.pop] takes
    elements are parameters. *)
Set Warnings "-notation-overridden,-ambiguous-paths".
From mathcomp Require Import all_ssreflect all_algebra.
From Verif Require Base ModelCell.
From Verif Require Import ModelAffine ProofsSerPlace.
Set Implicit Arguments. Unset Strict Implicit. Unset Printing Implicit Defensive.
Import Order.TTheory GRing.Theory Num.Theory.
Local Open Scope ring_scope.

Notation Ok := Base.Ok.
Notation Err := Base.Err.
Notation result := Base.result.
Notation bind := Base.bind.

Section Normal.
Variable R : rcfType.
Definition vec := seq R.
Definition arr := seq (seq R).
Definition entry (M : arr) (i j : nat) : R := nth 0 (nth [::] M i) j.
Definition vminus (a b : vec) : vec := [seq p.1 - p.2 | p <- zip a b].
Definition vscale (t : R) (a : vec) : vec := [seq t * x | x <- a].
Definition vdot (a b : vec) : R := \sum_(p <- zip a b) p.1 * p.2.
Definition vnorm (a : vec) : R := Num.sqrt (vdot a a).
Definition cross (a b : vec) : vec :=
  [:: nth 0 a 1 * nth 0 b 2 - nth 0 a 2 * nth 0 b 1; nth 0 a 2 * nth 0 b 0 - nth 0 a 0 * nth 0 b 2;
      nth 0 a 0 * nth 0 b 1 - nth 0 a 1 * nth 0 b 0].
Definition norm_inf (a : vec) : R := \big[Num.max/0]_(x <- a) `|x|.
Definition ncols (M : arr) : nat := size (head [::] M).
Definition transpose (n : nat) (M : arr) : arr := [seq [seq nth 0 r j | r <- M] | j <- iota 0 n].
Definition matmul (A B : arr) : arr :=
  [seq [seq \sum_(k <- iota 0 (size B)) nth 0 r k * entry B k j | j <- iota 0 (ncols B)] | r <- A].

(** numpy.linalg.svd and numpy.linalg.qr (reduced), and the choice made by
    [set.pop] *)
Variables (svd : arr -> arr * vec * arr) (qr : arr -> arr * arr) (pop : seq nat -> nat).
(** the literal 1.e-10 *)
Definition tol : R := (10 ^+ 10)^-1.

(** reference_element.py l.74-102, [linalg_subspace_intersection] *)
Definition subspace_intersection (A B : arr) : result arr :=
  if size A != size B then Err Base.PlainException
  else
    let qa := (qr A).1 in
    let qb := (qr B).1 in
    let C := matmul (transpose (ncols qa) qa) qb in
    let: (y, c, _) := svd C in
    let U := matmul qa y in
    let rank_c := count (fun s => `|1 - s| < tol) c in
    Ok [seq take rank_c r | r <- U].

(** What a Simplex object holds: whether its shape is LINE, vertices, topology. *)
Record simplex := mkSimplex { s_line : bool; s_verts : arr; s_top : ModelCell.topo }.
Definition s_dim (S : simplex) : nat := size (head [::] (s_verts S)).   (* l.178-180 *)
Definition entity (S : simplex) (d i : nat) : result (seq nat) :=
  if ModelCell.lookup (s_top S) (ModelCell.DI d) i is Some l then Ok l else Err Base.KeyError.
(** l.197-200, [get_vertices_of_subcomplex]: a vertex number out of range raises
    IndexError *)
Definition subcomplex (S : simplex) (l : seq nat) : result arr :=
  if all (fun v => v < size (s_verts S))%N l then Ok [seq nth [::] (s_verts S) v | v <- l] else Err Base.IndexError.

(** l.230-298, [Simplex.compute_normal].  For a LINE the topology entry must have
    one vertex, numbered 0 or 1. *)
Definition line_normal (S : simplex) (i : nat) : result vec :=
  bind (entity S 0 i) (fun l =>
  if l is [:: v] then
    if (v < 2)%N && (1 < size (s_verts S))%N then
      let n := vminus (nth [::] (s_verts S) v) (nth [::] (s_verts S) (if v == 0%N then 1%N else 0%N)) in
      Ok [seq x / vnorm n | x <- n]
    else Err Base.IndexError
  else Err Base.ValueError).
Definition compute_normal (S : simplex) (i : nat) : result vec :=
  if s_line S then line_normal S i
  else
    let vs := s_verts S in
    let foo := [seq vminus v (head [::] vs) | v <- behead vs] in
    let: (u, s, _) := svd foo in
    let rank := count (fun si => tol < si) s in
    let spanu := [seq take rank r | r <- u] in
    let sd := s_dim S in
    bind (entity S (sd - 1) i) (fun facet =>
    bind (subcomplex S facet) (fun vcf =>
    let facet_span := [seq vminus v (head [::] vcf) | v <- behead vcf] in
    let: (_, sf, vft) := svd facet_span in
    let rankfacet := count (fun si => tol < si) sf in
    let normal_space := transpose sd (drop rankfacet vft) in
    bind (subspace_intersection normal_space spanu) (fun foo =>
    if ncols foo != 1%N then Err Base.PlainException
    else
      let nfoo := [seq nth 0 r 0 | r <- foo] in
      bind (entity S sd 0) (fun cell =>
      let diff := undup [seq v <- cell | v \notin facet] in
      if diff is [:: vert_off] then
        let vert_on := pop facet in
        let v_to_facet := vminus (nth [::] vs vert_on) (nth [::] vs vert_off) in
        Ok (if 0 < vdot v_to_facet nfoo then nfoo else vscale (-1) nfoo)
      else Err Base.PlainException)))).

(** l.300-308, [compute_tangents] *)
Definition compute_tangents (S : simplex) (d i : nat) : result (seq vec) :=
  bind (entity S d i) (fun l => bind (subcomplex S l) (fun vs => Ok [seq vminus v (head [::] vs) | v <- behead vs])).
(** l.318-323, [compute_edge_tangent], l.325-328 *)
Definition compute_edge_tangent (S : simplex) (e : nat) : result vec :=
  bind (entity S 1 e) (fun l => bind (subcomplex S l) (fun vs =>
  if vs is [:: v0; v1] then Ok (vminus v1 v0) else Err Base.ValueError)).
Definition compute_normalized_edge_tangent (S : simplex) (e : nat) : result vec :=
  bind (compute_edge_tangent S e) (fun v => Ok [seq x / vnorm v | x <- v]).

(** l.551-555, [UFCTriangle.compute_normal] *)
Definition ufc_triangle_normal (S : simplex) (i : nat) : result vec :=
  bind (compute_tangents S 1 i) (fun ts =>
  if ts is t :: _ then let n := [:: nth 0 t 1; - nth 0 t 0] in Ok [seq x / vnorm n | x <- n]
  else Err Base.IndexError).
(** l.658-662, [UFCTetrahedron.compute_normal] *)
Definition ufc_tetrahedron_normal (S : simplex) (i : nat) : result vec :=
  bind (compute_tangents S 2 i) (fun ts =>
  if ts is t0 :: t1 :: _ then let n := cross t0 t1 in Ok [seq (- 2%:R) * x / vnorm n | x <- n]
  else Err Base.IndexError).

(** l.993-1014, [volume]: the vertices of the UFC simplex of dimension
    [len(verts) - 1] are [unit_verts]; the dimension is at most 3 (RuntimeError)
    and at least 1 in the model (numpy's svd of an empty matrix is not
    modelled). *)
Definition unit_verts (d : nat) : arr :=
  nseq d 0 :: [seq [seq (j == i)%:R | j <- iota 0 d] | i <- iota 0 d].
Definition volume (verts : arr) : result R :=
  let sd := (size verts).-1 in
  if (3 < sd)%N || (sd == 0%N) then Err Base.RuntimeError
  else bind (make_affine_mapping (unit_verts sd) verts) (fun Ab =>
  let: (_, s, _) := svd Ab.1 in
  Ok ((\prod_(si <- [seq si <- s | tol < si]) si) / sd`!%:R)).
Definition volume_of_subcomplex (S : simplex) (d i : nat) : result R :=
  bind (entity S d i) (fun l => bind (subcomplex S l) volume).

(** A Simplex object of one of the classes of the module *)
Definition simplex_of (c : ModelCell.cell) : simplex :=
  mkSimplex (match c with ModelCell.DefaultLine | ModelCell.UFCInterval => true | _ => false end)
            (ModelCell.vertices (mcF R) c) (ModelCell.topology c).
(** [compute_normal] as called on an object of class [c]: the UFC overrides, else
    [Simplex.compute_normal].  Cells that are not simplices have no such method. *)
Definition cell_normal (c : ModelCell.cell) (i : nat) : result vec :=
  match c with
  | ModelCell.UFCTriangle => ufc_triangle_normal (simplex_of c) i
  | ModelCell.UFCTetrahedron => ufc_tetrahedron_normal (simplex_of c) i
  | ModelCell.TensorProductCell _ | ModelCell.UFCQuadrilateral | ModelCell.UFCHexahedron => Err Base.AttributeError
  | _ => compute_normal (simplex_of c) i
  end.
(** l.379-384, [compute_scaled_normal] *)
Definition scaled_normal (c : ModelCell.cell) (i : nat) : result vec :=
  let S := simplex_of c in
  bind (volume_of_subcomplex S (s_dim S - 1) i) (fun v =>
  bind (cell_normal c i) (fun n => Ok [seq x * v | x <- n])).
(** l.386-390, [Simplex.compute_reference_normal] *)
Definition simplex_reference_normal (c : ModelCell.cell) (facet_dim i : nat) : result vec :=
  let S := simplex_of c in
  if facet_dim.+1 != s_dim S then Err Base.AssertionError
  else bind (compute_normal S i) (fun n => Ok [seq x / norm_inf n | x <- n]).

(** l.747-760, [TensorProductCell.compute_reference_normal], for factors whose
    dimensions are integers (simplices, quadrilaterals, hexahedra): [facet_dim]
    is a list of integers.  numpy's subtraction and [numpy.nonzero] give the
    positions where the dimensions differ; the unpacking raises ValueError unless
    there is exactly one. *)
Section Product.
Variable ref_normal : ModelCell.cell -> nat -> nat -> result vec.
Definition product_reference_normal (cs : seq ModelCell.cell) (facet_dim : seq nat) (facet : nat) : result vec :=
  if size facet_dim != size cs then Err Base.AssertionError
  else
    let dims := [seq ModelCell.spatial_dimension c | c <- cs] in
    let differing := [seq i <- iota 0 (size cs) | nth 0%N dims i != nth 0%N facet_dim i] in
    if differing is [:: cell_i] then
      bind (ref_normal (nth ModelCell.Point cs cell_i) (nth 0%N facet_dim cell_i) facet) (fun n =>
      Ok (flatten [seq (if cell_i == i then n else nseq (nth 0%N dims i) 0) | i <- iota 0 (size cs)]))
    else Err Base.ValueError.
End Product.
(** l.824-828 and l.889-893: UFCQuadrilateral and UFCHexahedron unflatten the
    facet and ask the product of intervals. *)
Definition cube_reference_normal (n facet_dim facet : nat) : result vec :=
  if facet_dim.+1 != n then Err Base.AssertionError
  else
    let cs := nseq n ModelCell.UFCInterval in
    match ModelCell.ulookup (ModelCell.compute_unflattening_map (ModelCell.topology (ModelCell.TensorProductCell cs))) facet_dim facet with
    | None => Err Base.KeyError
    | Some (ModelCell.DI _, _) => Err Base.TypeError                      (* keys of a product are tuples *)
    | Some (ModelCell.DT ds, e) =>
      product_reference_normal simplex_reference_normal cs [seq ModelCell.tuple_sum d | d <- ds] e
    end.
Definition reference_normal (c : ModelCell.cell) (facet_dim facet : nat) : result vec :=
  match c with
  | ModelCell.UFCQuadrilateral => cube_reference_normal 2 facet_dim facet
  | ModelCell.UFCHexahedron => cube_reference_normal 3 facet_dim facet
  | ModelCell.TensorProductCell _ => Err Base.TypeError                   (* its facet dimensions are tuples *)
  | _ => simplex_reference_normal c facet_dim facet
  end.
End Normal.
