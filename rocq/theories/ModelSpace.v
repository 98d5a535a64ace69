(** Scalar polynomial spaces on simplices and the elements built on them:
    expansions.py (the expansion set of a cell), polynomial_set.py
    (ONPolynomialSet), and the constructors of the scalar point elements.
    Exact arithmetic. *)
Set Warnings "-notation-overridden,-ambiguous-paths".
From mathcomp Require Import all_ssreflect all_algebra.
From Verif Require Base ModelIndex ModelCell ModelFam.
From Verif Require Import ModelJacobi ModelExpansion ModelDmats ModelAffine ModelDual ProofsDmatsReg.
Set Implicit Arguments. Unset Strict Implicit. Unset Printing Implicit Defensive.
Import GRing.Theory.
Local Open Scope ring_scope.
Notation cell := ModelCell.cell.
Notation sdim_of := ModelCell.spatial_dimension.

Section Space.
Variables (F : fieldType) (sqrt : F -> F).
Notation K := (mcF F).
Notation pt := (seq F).
Definition verts (c : cell) : seq pt := ModelCell.vertices K c.

(** expansions.py l.147, 207, 299: the cell on which the recurrences live;
    l.405-417 [get_expansion_set] (a plain Exception for other shapes; the
    Point, which has no coordinates, is not modelled) *)
Definition base_cell (c : cell) : result cell :=
  match c with
  | ModelCell.DefaultLine | ModelCell.UFCInterval => Ok ModelCell.DefaultLine
  | ModelCell.DefaultTriangle | ModelCell.UFCTriangle | ModelCell.IntrepidTriangle => Ok ModelCell.DefaultTriangle
  | ModelCell.DefaultTetrahedron | ModelCell.IntrepidTetrahedron | ModelCell.UFCTetrahedron => Ok ModelCell.DefaultTetrahedron
  | _ => Err Base.PlainException
  end.
(** l.148-150, 208-210, 300-302: [self.A, self.b] *)
Definition exp_map (c : cell) : result ((nat -> nat -> F) * (nat -> F)) :=
  bind (base_cell c) (fun c0 =>
  bind (make_affine_mapping (verts c) (verts c0)) (fun Ab =>
  Ok (fun i j => nth 0 (nth [::] Ab.1 i) j, fun i => nth 0 Ab.2 i))).
(** volume of the line cells (reference_element.py l.224-226) *)
Definition line_vol (c : cell) : F := nth 0 (nth [::] (verts c) 1) 0 - nth 0 (nth [::] (verts c) 0) 0.

(** l.157-169, 217-221, 309-313: values of all expansion functions at [x] *)
Definition exp_table (c : cell) (n : nat) (x : pt) : result (seq F) :=
  bind (exp_map c) (fun Mb =>
  match sdim_of c with
  | 1 => Ok (nth [::] (line_table sqrt (Mb.1 0%N 0%N) (Mb.2 0%N) n [:: nth 0 x 0]) 0)
  | 2 => bind (tri_table sqrt Mb.1 Mb.2 n [:: (nth 0 x 0, nth 0 x 1)]) (fun t => Ok (nth [::] t 0))
  | _ => bind (tet_table sqrt Mb.1 Mb.2 n [:: (nth 0 x 0, nth 0 x 1, nth 0 x 2)]) (fun t => Ok (nth [::] t 0))
  end).

(** polynomial_set.py l.159-173: construction of the dmats at the lattice
    [make_points(sd, 0, degree + sd + 1)], then l.71-87, the jets of all
    expansion functions at [x] up to [order] *)
Definition column N (A : 'M[F]_(N, 1)) : seq F := [seq A k 0 | k <- enum 'I_N].
Definition columns N (r : result (seq (seq nat * 'M[F]_(N, 1)))) : result (seq (seq nat * seq F)) :=
  bind r (fun jets => Ok [seq (aA.1, column aA.2) | aA <- jets]).
Definition exp_jets (c : cell) (n : nat) (x : pt) (order : nat) : result (seq (seq nat * seq F)) :=
  bind (exp_map c) (fun Mb =>
  let lat := ModelFam.make_points K c (sdim_of c) 0 (n + sdim_of c + 1) in
  match sdim_of c with
  | 1 => bind (line_dmats sqrt (Mb.1 0%N 0%N) (Mb.2 0%N) (line_vol c) n [seq nth 0 p 0 | p <- lat]) (fun dm =>
         columns (line_jets sqrt (Mb.1 0%N 0%N) (Mb.2 0%N) dm 1%:M [:: nth 0 x 0] order))
  | 2 => bind (tri_dmats sqrt Mb.1 Mb.2 n [seq (nth 0 p 0, nth 0 p 1) | p <- lat]) (fun dm =>
         columns (tri_jets sqrt Mb.1 Mb.2 dm 1%:M [:: (nth 0 x 0, nth 0 x 1)] order))
  | _ => bind (tet_dmats sqrt Mb.1 Mb.2 n [seq (nth 0 p 0, nth 0 p 1, nth 0 p 2) | p <- lat]) (fun dm =>
         columns (tet_jets sqrt Mb.1 Mb.2 dm 1%:M [:: (nth 0 x 0, nth 0 x 1, nth 0 x 2)] order))
  end).
Fixpoint assoc (a : seq nat) (l : seq (seq nat * seq F)) : seq F :=
  if l is (b, v) :: l' then if a == b then v else assoc a l' else [::].

(** The expansion set as the dual sets see it.  [0] stands for a tabulation
    that raises; the theorems show it does not. *)
Definition exp_set (c : cell) (n N : nat) : expansion F [eqType of pt] :=
  @mkExpansion F [eqType of pt] N (sdim_of c)
    (fun i x => if exp_table c n x is Base.Ok l then nth 0 l i else 0)
    (fun a i x => if exp_jets c n x (sumn a) is Base.Ok l then nth 0 (assoc a l) i else 0).

(** polynomial_set.py l.129-176, [ONPolynomialSet] with scalar shape:
    identity coefficients; the construction of the dmats (l.159-173) may
    raise. *)
Definition on_set (c : cell) (n : nat) : result (polyset F) :=
  match ModelFam.polynomial_dimension c n with
  | Base.Err e => Err e
  | Base.Ok N => bind (exp_jets c n [::] 0) (fun _ => Ok (mkPolySet N [::] (fun j _ i => (i == j)%:R)))
  end.

(** functional.py l.178-192 [PointEvaluation], l.215-222 [PointDerivative];
    the other nodes need normals, tangents or quadrature rules (ModelFunctional.v,
    ModelNormal.v) and are not used by the elements of this file *)
Definition point_eval (x : pt) : functional F [eqType of pt] :=
  @mkFunctional F [eqType of pt] [::] [:: (x, [:: (1, [::])])] [::].
Definition point_deriv (x : pt) (a : seq nat) : functional F [eqType of pt] :=
  @mkFunctional F [eqType of pt] [::] [::] [:: (x, [:: (1, a, [::])])].
Definition node_functional (l : ModelFam.node K) : result (functional F [eqType of pt]) :=
  match l with
  | ModelFam.PointEvaluation x => Ok (point_eval x)
  | ModelFam.PointDerivative x a => Ok (point_deriv x a)
  | _ => Err Base.NotImplementedError
  end.
(** A Ciarlet element on P_n (e.g. lagrange.py l.39-46): the polynomial set,
    then the dual set, then finite_element.py l.112-145.  [el] is what the
    family's constructor builds (ModelFam.v). *)
Definition element_of (c : cell) (n : nat) (el : Base.result (ModelFam.element K)) : result (polyset F) :=
  match el with
  | Base.Err e => Err e
  | Base.Ok el =>
    bind (on_set c n) (fun U =>
    bind (map_res node_functional (ModelFam.el_nodes K el)) (fun nodes =>
    ciarlet (exp_set c n (num_members U)) nodes U))
  end.
(** lagrange.py l.39-46 *)
Definition lagrange (c : cell) (n : nat) := element_of c n (ModelFam.Lagrange K c n).
(** discontinuous_lagrange.py l.41-46: P0 for degree 0, else l.32-38 *)
Definition discontinuous_lagrange (c : cell) (n : nat) := element_of c n (ModelFam.DiscontinuousLagrange K c n).
(** crouzeix_raviart.py l.21-66 *)
Definition crouzeix_raviart (c : cell) (n : nat) := element_of c n (ModelFam.CrouzeixRaviart K c n).
(** hermite.py l.11-79 *)
Definition cubic_hermite (c : cell) := element_of c 3 (ModelFam.CubicHermite K c 3).
End Space.
