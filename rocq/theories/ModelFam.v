(** Dual sets of the element families on simplices: which nodes they create, in
    which order, and on which mesh entity each one is registered
    (lagrange.py, crouzeix_raviart.py, discontinuous_lagrange.py, P0.py,
    hermite.py, morley.py, argyris.py, bell.py, raviart_thomas.py,
    discontinuous_raviart_thomas.py, brezzi_douglas_marini.py,
    brezzi_douglas_fortin_marini.py, nedelec.py, nedelec_second_kind.py,
    regge.py, hellan_herrmann_johnson.py, mardal_tai_winther.py,
    arnold_winther.py, discontinuous_taylor.py, gauss_*.py,
    kong_mulder_veldhuizen.py, discontinuous.py, bubble.py).

    A node keeps the data that says where it lives: the evaluation point and
    the facet/edge whose normal or tangent it uses, or, for integral moments,
    the entity integrated over.  Degrees are natural numbers.  The arrays of
    values that moments integrate against, and the quadrature rules, are not
    modelled here. *)
From Verif Require Import Base ModelIndex ModelCell.

Section Families.
  Context (K : fieldT).

  Inductive moment := MNormal | MTangent | MFaceTangent | MComponent (c : nat) | MFrobenius
    | MDivergence | MNormalNormal | MNormalTangential | MNormalDerivative | MPlain.
  Inductive node :=
  | PointEvaluation (x : list K)
  | PointDerivative (x : list K) (alpha : list nat)
  | PointNormalDerivative (facet : nat) (x : list K)
  | PointScaledNormal (facet : nat) (x : list K)
  | PointEdgeTangent (edge : nat) (x : list K)
  | PointFaceTangent (face tangent : nat) (x : list K)
  | ComponentPoint (comp : nat) (x : list K)
  | InnerProduct (u v : list K) (x : list K)
  | Moment (kind : moment) (dim ent order : nat).

  (** A constructed element: members of the polynomial set, nodes, entity ids. *)
  Record element := mkEl { el_members : nat; el_nodes : list node; el_ids : dict (list nat) }.

  (** [get_topology()[d]] *)
  Definition top (c : cell) (d : nat) : ents (list nat) := option_list (dlookup (DI d) (topology c)).
  Definition num (c : cell) (d : nat) : nat := length (top c d).

  (** reference_element.py l.197-200, [get_vertices_of_subcomplex], on the
      vertices of entity [e] of dimension [d] *)
  Definition entity_vertices (c : cell) (d e : nat) : list (list K) :=
    map (fun v => nth v (vertices K c) []) (option_list (elookup e (top c d))).

  (** reference_element.py l.354-368, [Simplex.make_points].  (Dimensions
      above the cell's raise ValueError; the families never ask for them.) *)
  Definition make_points (c : cell) (d e order : nat) : list (list K) :=
    if Nat.eqb d 0 then [nth e (vertices K c) []]
    else if Nat.ltb d (spatial_dimension c) then make_lattice (entity_vertices c d e) order 1
    else make_lattice (vertices K c) order 1.

  (** expansions.py l.420-434, [polynomial_dimension], nonnegative degrees *)
  Definition polynomial_dimension (c : cell) (degree : nat) : result nat :=
    match c with
    | Point => if Nat.ltb 0 degree then Err ValueError else Ok 1
    | DefaultLine | UFCInterval => Ok (degree + 1)
    | DefaultTriangle | UFCTriangle | IntrepidTriangle => Ok ((degree + 1) * (degree + 2) / 2)
    | DefaultTetrahedron | IntrepidTetrahedron | UFCTetrahedron =>
      Ok ((degree + 1) * (degree + 2) * (degree + 3) / 6)
    | _ => Err ValueError
    end.

  (** polynomial_set.py l.129-137 [ONPolynomialSet] and l.240-249
      [ONSymTensorPolynomialSet]: number of members *)
  Definition on_members (c : cell) (degree components : nat) : result nat :=
    bind (polynomial_dimension c degree) (fun n => Ok (components * n)).
  Definition sym_members (c : cell) (degree : nat) : result nat :=
    let sd := spatial_dimension c in on_members c degree (sd * (sd + 1) / 2).

  (** [get_facet_element()], l.457-459, 506-507, 535-536, 571-574, 602-603, 630-631 *)
  Definition facet_element (c : cell) : result cell :=
    match c with
    | UFCInterval => Ok Point
    | DefaultTriangle => Ok DefaultLine
    | UFCTriangle | IntrepidTriangle => Ok UFCInterval
    | DefaultTetrahedron => Ok DefaultTriangle
    | UFCTetrahedron => Ok UFCTriangle
    | IntrepidTetrahedron => Ok IntrepidTriangle
    | DefaultLine => Err NotImplementedError
    | _ => Err AttributeError
    end.

  Definition is_triangle (c : cell) : bool :=
    match c with DefaultTriangle | UFCTriangle | IntrepidTriangle => true | _ => false end.
  Definition is_line (c : cell) : bool :=
    match c with DefaultLine | UFCInterval => true | _ => false end.

  (** ** Loop idioms *)

  (** [nodes += f(e); ids[e] = range(cur, cur + len); cur += len] for each
      entity [e]; the state is [(cur, nodes)]. *)
  Fixpoint visit (f : nat -> list node) (es : list nat) (st : nat * list node)
    : ents (list nat) * (nat * list node) :=
    match es with
    | [] => ([], st)
    | e :: es' =>
      let '(cur, nodes) := st in
      let ns := f e in
      let '(ids, st') := visit f es' (cur + length ns, nodes ++ ns) in
      ((e, range cur (cur + length ns)) :: ids, st')
    end.

  (** [ids[e] = range(cur, cur + n); cur += n] for each entity [e] *)
  Fixpoint number_each (n : nat) (es : list nat) (cur : nat) : ents (list nat) * nat :=
    match es with
    | [] => ([], cur)
    | e :: es' =>
      let '(ids, cur') := number_each n es' (cur + n) in ((e, range cur (cur + n)) :: ids, cur')
    end.

  (** [{j: [] for j in range(n)}] *)
  Definition empties (n : nat) : ents (list nat) := map (fun j => (j, [])) (range 0 n).

  (** ** Scalar families *)

  (** lagrange.py l.16-36, LagrangeDualSet *)
  Fixpoint lagrange_dims (c : cell) (degree : nat) (t : topo) (st : nat * list node)
    : dict (list nat) * (nat * list node) :=
    match t with
    | [] => ([], st)
    | (dim, es) :: t' =>
      let '(ids, st1) := visit (fun e => map PointEvaluation (make_points c (tuple_sum dim) e degree))
                               (keys (sort_items es)) st in
      let '(rest, st2) := lagrange_dims c degree t' st1 in
      ((dim, ids) :: rest, st2)
    end.
  Definition lagrange_dual (c : cell) (degree : nat) : list node * dict (list nat) :=
    let '(ids, st) := lagrange_dims c degree (sort_dims (topology c)) (0, []) in (snd st, ids).

  (** lagrange.py l.39-46 *)
  Definition Lagrange (c : cell) (degree : nat) : result element :=
    bind (on_members c degree 1) (fun m =>
    let '(nodes, ids) := lagrange_dual c degree in Ok (mkEl m nodes ids)).

  (** entity ids with every entity empty, built over [sorted(top)] (P0.py
      l.29-33, discontinuous.py l.17-21, ...), and the last dimension's entity 0
      set to [l] *)
  Definition all_empty (t : topo) : dict (list nat) :=
    map (fun '(d, es) => (d, map (fun '(e, _) => (e, [])) (sort_items es))) (sort_dims t).
  Fixpoint set_last (l : list nat) (t : dict (list nat)) : dict (list nat) :=
    match t with
    | [] => []
    | [(d, es)] => [(d, eset 0 l es)]
    | x :: t' => x :: set_last l t'
    end.

  (** P0.py l.17-46.  The evaluation point is the average of the vertices. *)
  Definition barycenter (c : cell) : list K :=
    let vs := vertices K c in
    match vs with
    | [] => []
    | v0 :: rest => map (fun x => fdiv x (of_nat (length vs))) (fold_left vadd rest v0)
    end.
  Definition P0 (c : cell) : result element :=
    bind (on_members c 0 1) (fun m =>
    Ok (mkEl m [PointEvaluation (barycenter c)]
             ((fix go (t : dict (list nat)) := match t with
                | [] => [] | [(d, _)] => [(d, [(0, [0])])] | x :: t' => x :: go t' end)
              (all_empty (topology c))))).

  (** discontinuous_lagrange.py l.17-56 *)
  Definition DiscontinuousLagrange (c : cell) (degree : nat) : result element :=
    if Nat.eqb degree 0 then P0 c else
    bind (on_members c degree 1) (fun m =>
    let '(nodes, _) := lagrange_dual c degree in
    Ok (mkEl m nodes (set_last (range 0 (length nodes)) (all_empty (topology c))))).

  (** crouzeix_raviart.py l.15-21 and l.28-70 (the cell has dimension at least
      1).  [nodes[i] = ...] for the facets [i]; [make_points(d-1, i, d)[0]]. *)
  Fixpoint set_nth {A} (i : nat) (x : A) (l : list A) : list A :=
    match l, i with
    | [], _ => []
    | _ :: l', 0 => x :: l'
    | y :: l', S i' => y :: set_nth i' x l'
    end.
  Definition CrouzeixRaviart (c : cell) (degree : nat) : result element :=
    if negb (Nat.eqb degree 1) then Err PlainException else
    bind (on_members c 1 1) (fun m =>
    let d := spatial_dimension c in
    let entity_ids := map (fun '(i, es) => (i, map (fun '(j, _) => (j, @nil nat)) es)) (topology c) in
    let none := PointEvaluation [] in
    let step st i :=
      bind st (fun '(nodes, ids) =>
      match make_points c (d - 1) i d with
      | [] => Err IndexError
      | x :: _ =>
        match lookup ids (DI (d - 1)) i with
        | None => Err KeyError
        | Some l0 =>
          match dset_in (DI (d - 1)) i (l0 ++ [i]) ids with
          | None => Err KeyError
          | Some ids' => Ok (set_nth i (PointEvaluation x) nodes, ids')
          end
        end
      end) in
    bind (fold_left step (keys (top c (d - 1))) (Ok (map (fun _ => none) (top c (d - 1)), entity_ids)))
      (fun '(nodes, ids) => Ok (mkEl m nodes ids))).

  Definition unit_index (sd i : nat) : list nat := map (fun j => if Nat.eqb i j then 1 else 0) (range 0 sd).
  Definition vertex (c : cell) (v : nat) : list K := nth v (vertices K c) [].
  (** the value and the first derivatives at a vertex *)
  Definition jet1 (c : cell) (v : nat) : list node :=
    let sd := spatial_dimension c in
    PointEvaluation (vertex c v) :: map (fun i => PointDerivative (vertex c v) (unit_index sd i)) (range 0 sd).
  Definition jet2 (c : cell) (v : nat) : list node :=
    jet1 c v ++ map (PointDerivative (vertex c v)) [[2; 0]; [1; 1]; [0; 2]].
  Definition first {A} (l : list A) : list A := firstn 1 l.       (* [l[0]] as a list *)

  (** hermite.py l.16-79 *)
  Definition CubicHermite (c : cell) (deg : nat) : result element :=
    if negb (Nat.eqb deg 3) then Err AssertionError else
    bind (on_members c 3 1) (fun m =>
    let sd := spatial_dimension c in
    let '(ids0, st) := visit (jet1 c) (keys (sort_items (top c 0))) (0, []) in
    let ids1 := map (fun '(i, _) => (i, @nil nat)) (top c 1) in
    if Nat.ltb 1 sd then
      let '(ids2, st') := visit (fun f => map PointEvaluation (first (make_points c 2 f 3)))
                                (keys (sort_items (top c 2))) st in
      let rest := map (fun d => (DI d, map (fun '(i, _) => (i, @nil nat)) (top c d))) (range 3 (sd + 1)) in
      Ok (mkEl m (snd st') ([(DI 0, ids0); (DI 1, ids1); (DI 2, ids2)] ++ rest))
    else Ok (mkEl m (snd st) [(DI 0, ids0); (DI 1, ids1)])).

  (** morley.py l.16-58 *)
  Definition Morley (c : cell) : result element :=
    bind (on_members c 2 1) (fun m =>
    if negb (is_triangle c) then Err ValueError else
    let '(ids0, st) := visit (fun v => [PointEvaluation (vertex c v)]) (keys (sort_items (top c 0))) (0, []) in
    let '(ids1, st') := visit (fun e => map (PointNormalDerivative e) (first (make_points c 1 e 2)))
                              (keys (sort_items (top c 1))) st in
    Ok (mkEl m (snd st') [(DI 0, ids0); (DI 1, ids1); (DI 2, [(0, [])])])).

  (** argyris.py l.11-77, 130-136.  The edge loop appends two ranges per edge. *)
  Fixpoint argyris_edges (c : cell) (degree : nat) (es : list nat) (st : nat * list node)
    : ents (list nat) * (nat * list node) :=
    match es with
    | [] => ([], st)
    | e :: es' =>
      let '(cur, nodes) := st in
      let ndnds := map (PointNormalDerivative e) (make_points c 1 e (degree - 3)) in
      let nodes1 := nodes ++ ndnds in
      let ids1 := range cur (cur + length ndnds) in
      let cur1 := cur + length ndnds in
      let '(ids2, cur2, nodes2) :=
        if Nat.ltb 5 degree then
          let ptvalnds := map PointEvaluation (make_points c 1 e (degree - 4)) in
          (ids1 ++ range cur1 (cur1 + length ptvalnds), cur1 + length ptvalnds, nodes1 ++ ptvalnds)
        else (ids1, cur1, nodes1) in
      let '(rest, st') := argyris_edges c degree es' (cur2, nodes2) in
      ((e, ids2) :: rest, st')
    end.
  Definition Argyris (c : cell) (degree : nat) : result element :=
    bind (on_members c degree 1) (fun m =>
    if negb (is_triangle c) then Err ValueError else
    let '(ids0, st0) := visit (jet2 c) (keys (sort_items (top c 0))) (0, []) in
    let '(ids1, (cur, nodes)) := argyris_edges c degree (keys (sort_items (top c 1))) st0 in
    if Nat.ltb 5 degree then
      let internal := map PointEvaluation (make_points c 2 0 (degree - 3)) in
      Ok (mkEl m (nodes ++ internal)
               [(DI 0, ids0); (DI 1, ids1); (DI 2, [(0, range cur (cur + length internal))])])
    else Ok (mkEl m nodes [(DI 0, ids0); (DI 1, ids1); (DI 2, [(0, [])])])).

  (** argyris.py l.80-127, 139-145 *)
  Definition QuinticArgyris (c : cell) : result element :=
    bind (on_members c 5 1) (fun m =>
    if negb (is_triangle c) then Err ValueError else
    let '(ids0, st) := visit (jet2 c) (keys (sort_items (top c 0))) (0, []) in
    let '(ids1, st') := visit (fun e => map (PointNormalDerivative e) (first (make_points c 1 e 2)))
                              (keys (sort_items (top c 1))) st in
    Ok (mkEl m (snd st') [(DI 0, ids0); (DI 1, ids1); (DI 2, [(0, [])])])).

  (** bell.py l.16-77 *)
  Definition Bell (c : cell) : result element :=
    bind (on_members c 5 1) (fun m =>
    if negb (is_triangle c) then Err ValueError else
    let '(ids0, st) := visit (jet2 c) (keys (sort_items (top c 0))) (0, []) in
    let es := keys (sort_items (top c 1)) in
    Ok (mkEl m (snd st ++ map (fun e => Moment MNormalDerivative 1 e 0) es)
             [(DI 0, ids0); (DI 1, map (fun e => (e, [18 + e])) es); (DI 2, [(0, [])])])).

  (** discontinuous_taylor.py l.19-58 *)
  Definition DiscontinuousTaylor (c : cell) (degree : nat) : result element :=
    if Nat.eqb degree 0 then P0 c else
    bind (on_members c degree 1) (fun m =>
    let dim := spatial_dimension c in
    let nodes := Moment MPlain dim 0 0 ::
                 flat_map (fun k => map (PointDerivative (barycenter c)) (mis dim k)) (range 1 (degree + 1)) in
    let ids := map (fun d => (DI d, map (fun '(e, _) => (e, @nil nat)) (top c d))) (range 0 (dim + 1)) in
    match dset_in (DI dim) 0 (range 0 (length nodes)) ids with
    | None => Err KeyError
    | Some ids' => Ok (mkEl m nodes ids')
    end).

  (** gauss_legendre.py l.21-38, gauss_radau.py l.17-37 (both rules return
      [degree + 1] points [pts]) *)
  Definition GaussLegendre (c : cell) (degree : nat) (pts : list (list K)) : result element :=
    if negb (is_line c) then Err ValueError else
    bind (on_members c degree 1) (fun m =>
    Ok (mkEl m (map PointEvaluation pts)
             [(DI 0, [(0, []); (1, [])]); (DI 1, [(0, range 0 (degree + 1))])])).
  (** gauss_lobatto_legendre.py l.21-38; the quadrature rule with [degree + 1]
      points raises ValueError when [degree + 1 < 2] (quadrature.py l.115-116) *)
  Definition GaussLobattoLegendre (c : cell) (degree : nat) (pts : list (list K)) : result element :=
    if negb (is_line c) then Err ValueError else
    bind (on_members c degree 1) (fun m =>
    if Nat.ltb (degree + 1) 2 then Err ValueError else
    Ok (mkEl m (map PointEvaluation pts)
             [(DI 0, [(0, [0]); (1, [degree])]); (DI 1, [(0, range 1 degree)])])).

  (** ** Vector families *)

  Inductive variant := VPoint | VIntegral.

  (** The nodes [for f in range(len(t[sd-1])): for i in range(n): ...] *)
  Definition moments (kind : moment) (d : nat) (count n : nat) : list node :=
    flat_map (fun e => map (fun i => Moment kind d e i) (range 0 n)) (range 0 count).
  (** internal moments against [P^sd]: [for d in range(sd): for i in range(n)] *)
  Definition internal_moments (sd n : nat) : list node :=
    flat_map (fun d => map (fun i => Moment (MComponent d) sd 0 i) (range 0 n)) (range 0 sd).

  (** raviart_thomas.py l.69-143, RTDualSet ([degree] is [k - 1]; the cell has
      dimension at least 1) *)
  Definition rt_nodes (c : cell) (degree : nat) (v : variant) : result (list node) :=
    let sd := spatial_dimension c in
    match v with
    | VIntegral =>
      bind (facet_element c) (fun facet =>
      bind (polynomial_dimension facet degree) (fun nq =>
      let facet_nodes := moments MNormal (sd - 1) (num c (sd - 1)) nq in
      if Nat.ltb 0 degree then
        bind (polynomial_dimension c (degree - 1)) (fun n => Ok (facet_nodes ++ internal_moments sd n))
      else Ok facet_nodes))
    | VPoint =>
      let facet_nodes := flat_map (fun i => map (PointScaledNormal i) (make_points c (sd - 1) i (sd + degree)))
                                  (range 0 (num c (sd - 1))) in
      if Nat.ltb 0 degree then
        let pts := make_points c sd 0 (degree + sd) in
        Ok (facet_nodes ++ flat_map (fun d => map (ComponentPoint d) pts) (range 0 sd))
      else Ok facet_nodes
    end.
  Definition rt_ids (c : cell) (degree : nat) : result (dict (list nat)) :=
    let sd := spatial_dimension c in
    let low := map (fun i => (DI i, empties (num c i))) (range 0 (sd - 1)) in
    let pts_per_facet := length (make_points c (sd - 1) 0 (sd + degree)) in
    let '(fids, cur) := number_each pts_per_facet (range 0 (num c (sd - 1))) 0 in
    if Nat.ltb 0 degree then
      bind (polynomial_dimension c (degree - 1)) (fun n =>
      Ok (low ++ [(DI (sd - 1), fids); (DI sd, [(0, range cur (cur + n * sd))])]))
    else Ok (low ++ [(DI (sd - 1), fids); (DI sd, [(0, [])])]).

  (** raviart_thomas.py l.13-61, RTSpace.  The number of members of the union
      computed by singular values is taken to be the dimension of the documented
      space (P_k)^d + P_k x, i.e. of the direct sum of (P_k)^d and x times the
      homogeneous part of degree k (simplification: the rank computation is not
      modelled). *)
  Definition rt_members (c : cell) (degree : nat) : result nat :=
    bind (polynomial_dimension c degree) (fun n =>
    bind (if Nat.ltb 0 degree then polynomial_dimension c (degree - 1) else Ok 0) (fun n' =>
    Ok (spatial_dimension c * n + (n - n')))).

  (** raviart_thomas.py l.163-173; [k >= 1] *)
  Definition RaviartThomas (c : cell) (k : nat) (v : variant) : result element :=
    let degree := k - 1 in
    bind (rt_members c degree) (fun m =>
    bind (rt_nodes c degree v) (fun nodes =>
    bind (rt_ids c degree) (fun ids => Ok (mkEl m nodes ids)))).

  (** discontinuous_raviart_thomas.py l.19-69 *)
  Definition DiscontinuousRaviartThomas (c : cell) (q : nat) : result element :=
    let degree := q - 1 in
    let sd := spatial_dimension c in
    bind (rt_members c degree) (fun m =>
    let facet_nodes := flat_map (fun i => map (PointScaledNormal i) (make_points c (sd - 1) i (sd + degree)))
                                (range 0 (num c (sd - 1))) in
    let nodes := if Nat.ltb 0 degree then
                   facet_nodes ++ flat_map (fun d => map (ComponentPoint d) (make_points c sd 0 (degree + sd)))
                                           (range 0 sd)
                 else facet_nodes in
    Ok (mkEl m nodes
             (map (fun i => (DI i, empties (num c i))) (range 0 (sd - 1)) ++
              [(DI (sd - 1), empties (num c (sd - 1))); (DI sd, [(0, range 0 (length nodes))])]))).

  (** nedelec.py l.147-229, NedelecDual2D *)
  Definition nedelec2_dual (c : cell) (degree : nat) (v : variant) : result (list node * dict (list nat)) :=
    let sd := spatial_dimension c in
    if negb (Nat.eqb sd 2) then Err PlainException else
    bind (match v with
          | VIntegral =>
            bind (facet_element c) (fun edge =>
            bind (polynomial_dimension edge degree) (fun nq => Ok (moments MTangent (sd - 1) (num c (sd - 1)) nq)))
          | VPoint =>
            Ok (flat_map (fun i => map (PointEdgeTangent i) (make_points c 1 i (degree + 2))) (range 0 (num c 1)))
          end) (fun edge_nodes =>
    let empty := map (fun i => (DI i, empties (num c i))) (range 0 (sd + 1)) in
    let num_edge_pts := length (make_points c 1 0 (degree + 2)) in
    let '(eids, cur) := number_each num_edge_pts (range 0 (num c 1)) 0 in
    if Nat.ltb 0 degree then
      bind (polynomial_dimension c (degree - 1)) (fun n =>
      Ok (edge_nodes ++ internal_moments sd n,
          [nth 0 empty (DI 0, []); (DI 1, eids); (DI 2, [(0, range cur (cur + sd * n))])]))
    else Ok (edge_nodes, [nth 0 empty (DI 0, []); (DI 1, eids); nth 2 empty (DI 2, [])])).

  (** nedelec.py l.235-349, NedelecDual3D.  The face functionals against
      [P_{degree-1}^3] are the first two thirds of the members. *)
  Definition nedelec3_dual (c : cell) (degree : nat) (v : variant) : result (list node * dict (list nat)) :=
    let sd := spatial_dimension c in
    if negb (Nat.eqb sd 3) then Err PlainException else
    bind (match v with
          | VIntegral =>
            bind (facet_element c) (fun facet =>
            bind (facet_element facet) (fun edge =>
            bind (polynomial_dimension edge degree) (fun nq =>
            let edge_nodes := moments MTangent 1 (num c 1) nq in
            if Nat.ltb 0 degree then
              bind (polynomial_dimension facet (degree - 1)) (fun nf =>
              Ok (edge_nodes ++ moments MFaceTangent 2 (num c 2) (2 * (sd * nf) / 3)))
            else Ok edge_nodes)))
          | VPoint =>
            let edge_nodes :=
              flat_map (fun i => map (PointEdgeTangent i) (make_points c 1 i (degree + 2))) (range 0 (num c 1)) in
            Ok (if Nat.ltb 0 degree then
                  edge_nodes ++
                  flat_map (fun i => flat_map (fun x => map (fun k => PointFaceTangent i k x) (range 0 2))
                                              (make_points c 2 i (degree + 2)))
                           (range 0 (num c 2))
                else edge_nodes)
          end) (fun nodes =>
    let empty := map (fun i => (DI i, empties (num c i))) (range 0 (sd + 1)) in
    let '(eids, cur1) := number_each (length (make_points c 1 0 (degree + 2))) (range 0 (num c 1)) 0 in
    let '(fids, cur2) :=
      if Nat.ltb 0 degree then
        number_each (2 * length (make_points c 2 0 (degree + 2))) (range 0 (num c 2)) cur1
      else (empties (num c 2), cur1) in
    if Nat.ltb 1 degree then
      bind (polynomial_dimension c (degree - 2)) (fun n =>
      Ok (nodes ++ internal_moments sd n,
          [nth 0 empty (DI 0, []); (DI 1, eids); (DI 2, fids); (DI 3, [(0, range cur2 (cur2 + n * sd))])]))
    else Ok (nodes, [nth 0 empty (DI 0, []); (DI 1, eids); (DI 2, fids); nth 3 empty (DI 3, [])])).

  (** nedelec.py l.13-64 and l.67-141: dimension of the documented spaces.  In
      2D (P_k)^2 plus rot x times the homogeneous part of degree k; in 3D (P_k)^3
      plus the cross products of x with the homogeneous vector polynomials of
      degree k, whose kernel is x times the homogeneous polynomials of degree
      k - 1 (simplification as for RTSpace: the rank computation is not
      modelled). *)
  Definition nedelec_members (c : cell) (degree : nat) : result nat :=
    bind (polynomial_dimension c degree) (fun n =>
    bind (if Nat.ltb 0 degree then polynomial_dimension c (degree - 1) else Ok 0) (fun n' =>
    bind (if Nat.ltb 1 degree then polynomial_dimension c (degree - 2) else Ok 0) (fun n'' =>
    if Nat.eqb (spatial_dimension c) 2 then Ok (2 * n + (n - n'))
    else Ok (3 * n + (3 * (n - n') - (n' - n'')))))).

  (** nedelec.py l.369-386; [k >= 1] *)
  Definition Nedelec (c : cell) (k : nat) (v : variant) : result element :=
    let degree := k - 1 in
    let sd := spatial_dimension c in
    if Nat.eqb sd 3 then
      bind (nedelec_members c degree) (fun m =>
      bind (nedelec3_dual c degree v) (fun '(nodes, ids) => Ok (mkEl m nodes ids)))
    else if Nat.eqb sd 2 then
      bind (nedelec_members c degree) (fun m =>
      bind (nedelec2_dual c degree v) (fun '(nodes, ids) => Ok (mkEl m nodes ids)))
    else Err PlainException.

  (** brezzi_douglas_marini.py l.14-98 and l.118-130 *)
  Definition BrezziDouglasMarini (c : cell) (k : nat) (v : variant) : result element :=
    if Nat.ltb k 1 then Err PlainException else
    let sd := spatial_dimension c in
    bind (on_members c k sd) (fun m =>
    bind (match v with
          | VIntegral =>
            bind (facet_element c) (fun facet =>
            bind (polynomial_dimension facet k) (fun nq => Ok (moments MNormal (sd - 1) (num c (sd - 1)) nq)))
          | VPoint =>
            Ok (flat_map (fun i => map (PointScaledNormal i) (make_points c (sd - 1) i (sd + k)))
                         (range 0 (num c (sd - 1))))
          end) (fun facet_nodes =>
    (* number of Nedelec(degree - 1) basis functions *)
    bind (if Nat.ltb 1 k then bind (Nedelec c (k - 1) v) (fun ned => Ok (length (el_nodes ned))) else Ok 0)
      (fun internal =>
    let nodes := facet_nodes ++ map (Moment MFrobenius sd 0) (range 0 internal) in
    let low := map (fun i => (DI i, empties (num c i))) (range 0 (sd - 1)) in
    let pts_per_facet := length (make_points c (sd - 1) 0 (sd + k)) in
    let '(fids, cur) := number_each pts_per_facet (range 0 (num c (sd - 1))) 0 in
    Ok (mkEl m nodes (low ++ [(DI (sd - 1), fids);
                              (DI sd, [(0, if Nat.ltb 1 k then range cur (cur + internal) else [])])]))))).

  (** brezzi_douglas_fortin_marini.py l.8-61, 64-102, 108-117.  The space is
      the six linears plus one bubble per edge (rank computation not
      modelled). *)
  Definition BrezziDouglasFortinMarini (c : cell) (degree : nat) : result element :=
    if negb (Nat.eqb degree 2) then Err PlainException else
    let sd := spatial_dimension c in
    if negb (Nat.eqb sd 2) then Err PlainException else
    let deg := degree - 1 in
    let facet_nodes := flat_map (fun i => map (PointScaledNormal i) (make_points c (sd - 1) i (sd + deg)))
                                (range 0 (num c (sd - 1))) in
    let tangent_nodes := flat_map (fun i => map (PointEdgeTangent i) (make_points c (sd - 1) i (sd + deg - 1)))
                                  (range 0 (num c (sd - 1))) in
    let tangent_count := nsum (map (fun i => length (make_points c (sd - 1) i (sd + deg - 1)))
                                   (range 0 (num c (sd - 1)))) in
    let low := map (fun i => (DI i, empties (num c i))) (range 0 (sd - 1)) in
    let pts_per_facet := length (make_points c (sd - 1) 0 (sd + deg)) in
    let '(fids, cur) := number_each pts_per_facet (range 0 (num c (sd - 1))) 0 in
    Ok (mkEl (6 + num c 1) (facet_nodes ++ tangent_nodes)
             (low ++ [(DI (sd - 1), fids); (DI sd, [(0, range cur (cur + tangent_count))])])).

  (** nedelec_second_kind.py l.57-213, 236-262.  [construct_subelement] exists
      on the UFC cells only (l.209-215 raises NotImplementedError). *)
  Definition is_ufc (c : cell) : bool :=
    match c with UFCInterval | UFCTriangle | UFCTetrahedron => true | _ => false end.
  Definition n2_edge_count (c : cell) (degree e : nat) (v : variant) : nat :=
    match v with VIntegral => degree + 1 | VPoint => length (make_points c 1 e (degree + 2)) end.
  Definition NedelecSecondKind (c : cell) (k : nat) (v : variant) : result element :=
    if Nat.ltb k 1 then Err AssertionError else
    let d := spatial_dimension c in
    bind (on_members c k d) (fun m =>
    if negb (Nat.eqb d 2 || Nat.eqb d 3) then Err AssertionError else
    bind (match v with
          | VIntegral => if is_ufc c then Ok (moments MTangent 1 (num c 1) (k + 1)) else Err NotImplementedError
          | VPoint => Ok (flat_map (fun e => map (PointEdgeTangent e) (make_points c 1 e (k + 2))) (range 0 (num c 1)))
          end) (fun edge_dofs =>
    let edge_ids := map (fun e => let n := n2_edge_count c k e v in (e, range (n * e) (n * e + n)))
                        (range 0 (num c 1)) in
    bind (if Nat.eqb d 3 then
            if Nat.ltb k 2 then Ok ([], [(DI 2, empties 4)])
            else match c with
                 | UFCTetrahedron =>
                   bind (RaviartThomas UFCTriangle (k - 1) v) (fun rt =>
                   let num_rts := length (el_nodes rt) in
                   let offset := length edge_dofs in
                   Ok (moments MFrobenius 2 (num c 2) num_rts,
                       [(DI 2, map (fun f => (f, range (offset + num_rts * f) (offset + num_rts * (f + 1))))
                                   (range 0 (num c 2)))]))
                 | _ => Err AssertionError
                 end
          else Ok ([], [])) (fun '(face_dofs, face_ids) =>
    let dofs := edge_dofs ++ face_dofs in
    bind (if (Nat.eqb d 2 && Nat.ltb k 2) || (Nat.eqb d 3 && Nat.ltb k 3) then Ok ([], [])
          else bind (RaviartThomas c (k + 1 - d) v) (fun rt =>
               let n := length (el_nodes rt) in
               Ok (map (Moment MFrobenius d 0) (range 0 n), range (length dofs) (length dofs + n))))
      (fun '(cell_dofs, cell_ids) =>
    Ok (mkEl m (dofs ++ cell_dofs)
             ([(DI 0, empties (d + 1)); (DI 1, edge_ids)] ++ face_ids ++ [(DI d, [(0, cell_ids)])])))))).

  (** ** Tensor families *)

  (** reference_element.py l.340-352, [compute_face_edge_tangents] *)
  Definition face_edge_tangents (c : cell) (d e : nat) : list (list K) :=
    let vs := entity_vertices c d e in
    flat_map (fun source => map (fun dest => vsub (nth dest vs []) (nth source vs []))
                                (range (source + 1) (d + 1)))
             (range 0 d).

  (** regge.py l.48-78, [_generate_dofs] on one dimension *)
  Definition regge_dofs (c : cell) (dim degree : nat) (st : nat * list node) :=
    visit (fun e => flat_map (fun x => map (fun t => InnerProduct t t x) (face_edge_tangents c dim e))
                             (make_points c dim e (degree + 2)))
          (range 0 (num c dim)) st.
  (** regge.py l.17-45, 86-95 *)
  Definition Regge (c : cell) (degree : nat) : result element :=
    bind (sym_members c degree) (fun m =>
    let dim := spatial_dimension c in
    if Nat.ltb dim 2 || Nat.ltb 3 dim then Err ValueError else
    let '(ids1, st1) := regge_dofs c 1 degree (0, []) in
    let '(ids2, st2) := if Nat.eqb dim 3 then
                          let '(i2, s2) := regge_dofs c 2 degree st1 in ([(DI 2, i2)], s2)
                        else ([], st1) in
    let '(ids3, st3) := regge_dofs c dim degree st2 in
    Ok (mkEl m (snd st3) ([(DI 0, empties (dim + 1)); (DI 1, ids1)] ++ ids2 ++ [(DI dim, ids3)]))).

  Definition e1 : list K := [f1; f0].
  Definition e2 : list K := [f0; f1].
  Definition sym_basis : list (list K * list K) := [(e1, e1); (e1, e2); (e2, e2)].

  (** hellan_herrmann_johnson.py l.19-79, 87-97.  The scaled normal used on an
      edge is not modelled: nodes on an edge are moments of kind [MNormalNormal]
      at the [order]-th lattice point of the edge. *)
  Definition HellanHerrmannJohnson (c : cell) (degree : nat) : result element :=
    bind (sym_members c degree) (fun m =>
    if negb (Nat.eqb (spatial_dimension c) 2) then Err ValueError else
    let '(ids1, st1) :=
      visit (fun e => map (Moment MNormalNormal 1 e) (range 0 (length (make_points c 1 e (degree + 2)))))
            (range 0 3) (0, []) in
    let pts := make_points c 2 0 (degree + 2) in
    let tri := flat_map (fun '(v1, v2) => map (InnerProduct v1 v2) pts) sym_basis in
    let offset := length (snd st1) in
    let num_dofs := 3 * length pts in
    Ok (mkEl m (snd st1 ++ tri)
             [(DI 0, empties 3); (DI 1, ids1); (DI 2, [(0, range offset (offset + num_dofs))])])).

  (** mardal_tai_winther.py l.20-35, 40-79, 81-142, 148-160 *)
  Definition MardalTaiWinther (c : cell) (degree : nat) : result element :=
    if negb (Nat.eqb degree 3) then Err AssertionError else
    if negb (Nat.eqb (spatial_dimension c) 2) then Err AssertionError else
    bind (on_members c degree 2) (fun m =>
    let '(ids1, st) := visit (fun f => [Moment MNormal 1 f 0; Moment MTangent 1 f 0; Moment MNormal 1 f 1])
                             (range 0 3) (0, []) in
    let offset := length (snd st) in
    let edge_constraints := flat_map (fun e => [Moment MNormal 1 e 2; Moment MNormal 1 e 3]) (range 0 3) in
    let '(edge_ids, offset') := number_each 2 (range 0 3) offset in
    let cell_dofs := map (Moment MDivergence 2 0) (range (1 * 2 / 2) (3 * 4 / 2)) in
    let cell_ids := range offset' (offset' + length cell_dofs) in
    let ids1' := map (fun '(e, l) => (e, l ++ option_list (elookup e edge_ids))) ids1 in
    Ok (mkEl m (snd st ++ edge_constraints ++ cell_dofs)
             [(DI 0, empties 3); (DI 1, ids1'); (DI 2, [(0, cell_ids)])])).

  (** arnold_winther.py l.28-73, 79-86 *)
  Definition aw_edge (e : nat) : list node :=
    flat_map (fun order => [Moment MNormalNormal 1 e order; Moment MNormalTangential 1 e order]) [0; 1].
  Definition ArnoldWintherNC (c : cell) (degree : nat) : result element :=
    if negb (Nat.eqb degree 2) then Err AssertionError else
    bind (sym_members c degree) (fun m =>
    let '(ids1, cur) := number_each 4 (range 0 3) 0 in
    let edge := flat_map aw_edge (range 0 3) in
    let inner := map (fun k => Moment MFrobenius 2 0 k) (range 0 3) in
    let ids2 := range cur (cur + 3) in
    let cur' := cur + 3 in
    let constraints := map (fun e => Moment MNormalNormal 1 e 2) (range 0 3) in
    let ids1' := map (fun '(e, l) => (e, l ++ [cur' + e])) ids1 in
    Ok (mkEl m (edge ++ inner ++ constraints)
             [(DI 0, empties 3); (DI 1, ids1'); (DI 2, [(0, ids2)])])).

  (** arnold_winther.py l.90-155, 161-167 *)
  Definition ArnoldWinther (c : cell) (degree : nat) : result element :=
    if negb (Nat.eqb degree 3) then Err AssertionError else
    bind (sym_members c degree) (fun m =>
    let '(ids0, (cur0, nodes0)) :=
      visit (fun v => map (fun '(u, w) => InnerProduct u w (vertex c v)) sym_basis) (range 0 3) (0, []) in
    let '(ids1, cur1) := number_each 4 (range 0 3) cur0 in
    let edge := flat_map aw_edge (range 0 3) in
    let inner := map (fun k => Moment MFrobenius 2 0 k) (range 0 3) in
    let cur2 := cur1 + 3 in
    let constraints := map (fun i => Moment MDivergence 2 0 i) (range 3 6 ++ range 9 12) in
    Ok (mkEl m (nodes0 ++ edge ++ inner ++ constraints)
             [(DI 0, ids0); (DI 1, ids1); (DI 2, [(0, range cur1 (cur1 + 3) ++ range cur2 (cur2 + 6))])])).

  (** ** Wrappers *)

  (** discontinuous.py l.14-28: the same nodes, all on the cell *)
  Definition DiscontinuousElement (c : cell) (el : element) : element :=
    mkEl (el_members el) (el_nodes el)
         (set_last (range 0 (length (el_nodes el))) (all_empty (topology c))).
End Families.
