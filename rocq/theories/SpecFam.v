(** Specification vocabulary for the dual sets of the element families. *)
From Coq Require Import Permutation.
From Verif Require Import Base SpecIndex ModelCell SpecCell ModelConcat SpecConcat ModelFam.

(** Names of the simplex cells with at least one dimension. *)
Definition simplex (c : cell) : Prop :=
  match c with
  | DefaultLine | UFCInterval | DefaultTriangle | UFCTriangle | IntrepidTriangle
  | DefaultTetrahedron | IntrepidTetrahedron | UFCTetrahedron => True
  | _ => False
  end.

Section Spec.
  Context {K : fieldT}.

  (** [x] is a convex combination of [verts] with positive rational weights, so
      it lies in the relative interior of their hull. *)
  Definition interior_point (verts : list (list K)) (x : list K) : Prop :=
    exists ws, length ws = length verts /\ (forall w, In w ws -> 1 <= w) /\
      exists v0, hd_error verts = Some v0 /\ length x = length v0 /\
      forall i, i < length x ->
        fmul (of_nat (nsum ws)) (coord i x) = wsum ws (map (coord i) verts).

  (** coordinates of the vertices of an entity, read off the cell's topology *)
  Definition vertices_of (c : cell) (d e : nat) : list (list K) :=
    map (fun v => nth v (vertices K c) []) (dofs_on (topology c) (DI d, e)).

  (** the node lives on entity [e] of dimension [d] *)
  Definition node_on (c : cell) (d e : nat) (n : node K) : Prop :=
    match n with
    | PointEvaluation _ x | PointDerivative _ x _ | ComponentPoint _ _ x | InnerProduct _ _ _ x =>
      interior_point (vertices_of c d e) x
    | PointNormalDerivative _ f x | PointScaledNormal _ f x =>
      S d = spatial_dimension c /\ f = e /\ interior_point (vertices_of c d e) x
    | PointEdgeTangent _ f x => d = 1 /\ f = e /\ interior_point (vertices_of c d e) x
    | PointFaceTangent _ f _ x => d = 2 /\ f = e /\ interior_point (vertices_of c d e) x
    | Moment _ _ d' e' _ => d' = d /\ e' = e
    end.

  (** Every index [0..n-1] is listed on exactly one entity of the cell. *)
  Definition numbered (c : cell) (el : element K) : Prop :=
    partitions (el_ids K el) (length (el_nodes K el)) /\ same_entities (el_ids K el) (topology c).

  (** ... and that entity is the one the node lives on. *)
  Definition placed (c : cell) (el : element K) : Prop :=
    forall d e i, In i (dofs_on (el_ids K el) (DI d, e)) ->
      exists n, nth_error (el_nodes K el) i = Some n /\ node_on c d e n.

  (** every index is on the cell itself *)
  Definition on_cell (c : cell) (el : element K) : Prop :=
    dofs_on (el_ids K el) (get_dimension c, 0) = seq 0 (length (el_nodes K el)).

  (** The constructor returns an element with [n] nodes for [n] members of the
      polynomial set, numbered and placed. *)
  Definition complete (c : cell) (n : nat) (r : result (element K)) : Prop :=
    exists el, r = Ok el /\ numbered c el /\ placed c el /\
      el_members K el = n /\ length (el_nodes K el) = n.

  (** ... with [n] nodes, all registered on the cell *)
  Definition cell_only (c : cell) (n : nat) (r : result (element K)) : Prop :=
    exists el, r = Ok el /\ numbered c el /\ on_cell c el /\
      el_members K el = n /\ length (el_nodes K el) = n.
End Spec.
