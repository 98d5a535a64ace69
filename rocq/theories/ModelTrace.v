(** The trace element (hdiv_trace.py).  Coordinates in any field. *)
From Verif Require Import Base ModelIndex ModelCell ModelTPE ModelGeom.
From Verif Require ModelFam.

(** An element degree: an int, or a tuple (of degrees of the factors). *)
Inductive deg := DegI (n : nat) | DegT (l : list deg).

(** A discontinuous element as [construct_dg_element] builds it: discontinuous
    Lagrange on a simplex, or the tensor product of two elements. *)
Inductive dgel := DGS (c : cell) (p : nat) | DGT (a b : dgel).

(** its [degree()]: discontinuous_lagrange.py l.45-56 (the polynomial degree),
    tensor_product.py l.214-219 *)
Fixpoint dg_degree (e : dgel) : nat :=
  match e with DGS _ p => p | DGT a b => Nat.max (dg_degree a) (dg_degree b) end.
(** its reference cell: tensor_product.py l.39-40 *)
Fixpoint dg_cell (e : dgel) : cell :=
  match e with DGS c _ => c | DGT a b => TensorProductCell [dg_cell a; dg_cell b] end.

Definition is_point (c : cell) : bool := match c with Point => true | _ => false end.

(** hdiv_trace.py l.268-302, [construct_dg_element].  The sub-elements of a
    product cell are built first, skipping POINT factors ([zip] after the
    length assertion); [TensorProductElement] takes exactly two arguments, and
    unpacking an empty list raises ValueError.  [len] of an int raises
    TypeError; a tuple degree on a simplex or quadrilateral raises TypeError
    inside the discontinuous Lagrange constructor. *)
Fixpoint construct_dg_element (c : cell) (d : deg) : result dgel :=
  match c with
  | DefaultLine | UFCInterval | DefaultTriangle | UFCTriangle | IntrepidTriangle =>
    match d with DegI p => Ok (DGS c p) | DegT _ => Err TypeError end
  | UFCQuadrilateral =>
    match d with DegI p => Ok (DGT (DGS UFCInterval p) (DGS UFCInterval p)) | DegT _ => Err TypeError end
  | TensorProductCell cs =>
    match d with
    | DegI _ => Err TypeError
    | DegT ds =>
      if negb (Nat.eqb (length ds) (length cs)) then Err AssertionError else
      let fix go (cs : list cell) (ds : list deg) : result (list dgel) :=
        match cs, ds with
        | c' :: cs', d' :: ds' =>
          if is_point c' then go cs' ds' else
          match construct_dg_element c' d' with
          | Err e => Err e
          | Ok s => match go cs' ds' with Err e => Err e | Ok l => Ok (s :: l) end
          end
        | _, _ => Ok []
        end in
      match go cs ds with
      | Err e => Err e
      | Ok [] => Err ValueError
      | Ok [e] => Ok e
      | Ok [a; b] => Ok (DGT a b)
      | Ok _ => Err TypeError
      end
    end
  | _ => Err NotImplementedError
  end.

Section Trace.
  Context (K : fieldT).
  Notation vec := (list K).

  (** The nodes of a discontinuous element are point evaluations; the points.
      discontinuous_lagrange.py l.17-56 (through ModelFam), and
      tensor_product.py l.69-206 (through ModelTPE). *)
  Definition fam_point (n : ModelFam.node K) : result vec :=
    match n with ModelFam.PointEvaluation _ x => Ok x | _ => Err ValueError end.
  Definition tp_point (n : ModelTPE.node K) : result vec :=
    match n with ModelTPE.PointEvaluation x => Ok x | _ => Err ValueError end.
  Fixpoint collect {A B} (f : A -> result B) (l : list A) : result (list B) :=
    match l with
    | [] => Ok []
    | x :: l' => match f x with
                 | Err e => Err e
                 | Ok y => match collect f l' with Err e => Err e | Ok r => Ok (y :: r) end
                 end
    end.
  Fixpoint dg_points (e : dgel) : result (list vec) :=
    match e with
    | DGS c p =>
      bind (ModelFam.DiscontinuousLagrange K c p) (fun el => collect fam_point (ModelFam.el_nodes K el))
    | DGT a b =>
      bind (dg_points a) (fun pa => bind (dg_points b) (fun pb =>
      bind (tpe_nodes f0 (spatial_dimension (dg_cell e)) (map ModelTPE.PointEvaluation pa) (map ModelTPE.PointEvaluation pb))
        (collect tp_point)))
    end.

  (** hdiv_trace.py l.51-73: the checks on the cell and the degree, and the
      degree kept *)
  Definition trace_degree (c : cell) (d : deg) : result deg :=
    let sd := spatial_dimension c in
    if Nat.leb sd 1 then Err ValueError else
    match c with
    | TensorProductCell cs =>
      let ds := match d with DegT l => l | DegI n => repeat (DegI n) (length cs) end in
      if Nat.eqb (length cs) (length ds) then Ok (DegT ds) else Err AssertionError
    | DefaultTriangle | UFCTriangle | IntrepidTriangle
    | DefaultTetrahedron | IntrepidTetrahedron | UFCTetrahedron | UFCQuadrilateral =>
      match d with DegT _ => Err ValueError | DegI _ => Ok d end
    | _ => Err NotImplementedError
    end.

  (** l.75-90: one discontinuous element for every dimension whose
      sub-elements have codimension one *)
  Fixpoint facet_elements (c : cell) (d : deg) (t : topo) : result (list (dimT * dgel)) :=
    match t with
    | [] => Ok []
    | (top_dim, _) :: t' =>
      bind (construct_subelement c top_dim) (fun sub =>
      if Nat.eqb (spatial_dimension sub) (spatial_dimension c - 1) then
        bind (construct_dg_element sub d) (fun e =>
        bind (facet_elements c d t') (fun r => Ok ((top_dim, e) :: r)))
      else facet_elements c d t')
    end.

  (** l.92-108: numbering and points; the state is the offset, the dofs and
      the points collected.  [points] are the points of the element's nodes. *)
  Definition state := (nat * dict (list nat) * list vec)%type.
  Definition facet_step (c : cell) (dim : dimT) (points : list vec) (st : state) (i : nat) : result state :=
    let '(offset, ids, pts) := st in
    let nf := length points in
    match dset_in dim i (range offset (offset + nf)) ids with
    | None => Err KeyError
    | Some ids' =>
      bind (collect (fun p => bind (get_entity_transform c dim i) (fun T => T p)) points) (fun new =>
      Ok (offset + nf, ids', pts ++ new))
    end.
  Fixpoint facet_loop (c : cell) (dim : dimT) (points : list vec) (is : list nat) (st : state) : result state :=
    match is with
    | [] => Ok st
    | i :: is' => bind (facet_step c dim points st i) (facet_loop c dim points is')
    end.
  Definition num_entities (c : cell) (dim : dimT) : nat := length (option_list (dlookup dim (topology c))).
  Fixpoint dims_loop (c : cell) (dgs : list (dimT * dgel)) (st : state) : result state :=
    match dgs with
    | [] => Ok st
    | (dim, e) :: dgs' =>
      bind (dg_points e) (fun points =>
      bind (facet_loop c dim points (range 0 (num_entities c dim)) st) (dims_loop c dgs'))
    end.

  Record trace := mkTrace { tr_cell : cell; tr_dgs : list (dimT * dgel); tr_ids : dict (list nat);
                            tr_points : list vec; tr_degree : nat }.
  Definition max_degree (dgs : list (dimT * dgel)) : result nat :=
    match map (fun x => dg_degree (snd x)) dgs with
    | [] => Err ValueError                                     (* max([]) *)
    | n :: l => Ok (fold_left Nat.max l n)
    end.
  (** l.42-125 *)
  Definition HDivTrace (c : cell) (degree : deg) : result trace :=
    bind (trace_degree c degree) (fun d =>
    bind (facet_elements c d (topology c)) (fun dgs =>
    let ids0 := map (fun '(dim, es) => (dim, map (fun '(e, _) => (e, @nil nat)) es)) (topology c) in
    bind (dims_loop c (sort_dims dgs) (0, ids0, [])) (fun '(_, ids, pts) =>
    bind (max_degree dgs) (fun p => Ok (mkTrace c dgs ids pts p))))).
  Definition space_dimension (T : trace) : nat := length (tr_points T).

  (** ** Tabulation, l.141-248 *)
  Inductive slot :=
  | Values (rows : list (list K))          (* an array: one row per basis function *)
  | NaNs (rows columns : nat)              (* an array full of nan *)
  | TraceErr.                              (* an instance of TraceError *)

  (** the discontinuous elements' own [tabulate(order, points)]: the tables,
      in the order of the keys (it is left abstract) *)
  Variable dg_tabulate : dgel -> nat -> list vec -> result (list (list (list K))).
  (** [abs(l) < tolerance], l.20 and l.316, and an equality test *)
  Variable small : K -> bool.
  Variable eqb : K -> K -> bool.

  (** [np.linalg.inv] of a 2x2 or 3x3 matrix (list of rows), exactly, by
      cofactors; LinAlgError for a singular one.  Other sizes do not occur. *)
  Definition entry (M : list vec) (i j : nat) : K := nth j (nth i M []) f0.
  Definition det2 (a b c d : K) : K := fsub (fmul a d) (fmul b c).
  Definition inverse (M : list vec) : result (list vec) :=
    let m := entry M in
    match length M with
    | 2 => let det := det2 (m 0 0) (m 0 1) (m 1 0) (m 1 1) in
           if eqb det f0 then Err LinAlgError else
           Ok [[fdiv (m 1 1) det; fdiv (fopp (m 0 1)) det]; [fdiv (fopp (m 1 0)) det; fdiv (m 0 0) det]]
    | 3 => let cof i j := det2 (m ((i + 1) mod 3) ((j + 1) mod 3)) (m ((i + 1) mod 3) ((j + 2) mod 3))
                               (m ((i + 2) mod 3) ((j + 1) mod 3)) (m ((i + 2) mod 3) ((j + 2) mod 3)) in
           let det := fadd (fadd (fmul (m 0 0) (cof 0 0)) (fmul (m 0 1) (cof 0 1))) (fmul (m 0 2) (cof 0 2)) in
           if eqb det f0 then Err LinAlgError else
           Ok (map (fun i => map (fun j => fdiv (cof j i) det) (seq 0 3)) (seq 0 3))
    | _ => Err NotImplementedError
    end.
  (** l.331-346, [barycentric_coordinates]; points with as many coordinates as
      the vertices.  An empty list of points is an array of shape (0,), which
      does not broadcast against a vertex: ValueError. *)
  Definition barycentric_coordinates (points vertices : list vec) : result (list vec) :=
    let n := length vertices - 1 in
    let last := nth n vertices [] in
    let T := map (fun i => map (fun v => fsub (nth i v f0) (nth i last f0)) (firstn n vertices)) (seq 0 n) in
    bind (inverse T) (fun invT =>
    match points with
    | [] => Err ValueError
    | _ => Ok (map (fun p => let bary := map (fun row => dot row (vsub p last)) invT in
                             bary ++ [fsub f1 (fsum bary)]) points)
    end).
  (** l.306-327, [extract_unique_facet], at least one point *)
  Definition on_facet (coords : vec) : list nat :=
    filter (fun i => small (nth i coords f0)) (seq 0 (length coords)).
  Definition inter (a b : list nat) : list nat := filter (fun i => existsb (Nat.eqb i) b) a.
  Definition extract_unique_facet (coordinates : list vec) : option nat :=
    let facets := map on_facet coordinates in
    match fold_left inter facets (hd [] facets) with [f] => Some f | _ => None end.
  (** l.367-396, [map_to_reference_facet] *)
  Definition map_to_reference_facet (points vertices : list vec) (facet : nat) : result (list vec) :=
    bind (barycentric_coordinates points vertices) (fun all_coords =>
    bind (ufc_simplex (length vertices - 2)) (fun reference =>
    let rv := ModelCell.vertices K reference in
    Ok (map (fun coords =>
          let new := map (fun j => nth j coords f0) (filter (fun j => negb (Nat.eqb j facet)) (seq 0 (length coords))) in
          (* Python's sum of arrays *)
          fold_left vadd (map (fun j => map (fun x => fmul x (nth j new f0)) (nth j rv [])) (seq 0 (length new)))
            (repeat f0 (length (hd [] rv))))
        all_coords))).

  (** [phivals[evalkey][offset:offset + nf, :] = nonzerovals] into zeros *)
  Definition with_rows (dim npts offset : nat) (rows : list (list K)) : list (list K) :=
    map (fun r => if Nat.leb offset r && Nat.ltb r (offset + length rows)
                  then nth (r - offset) rows [] else repeat f0 npts) (seq 0 dim).
  Definition is_zero_key (alpha : list nat) : bool := forallb (Nat.eqb 0) alpha.
  (** l.164-171: the keys *)
  Definition tab_keys (sd order : nat) : list (list nat) := flat_map (fun i => mis sd i) (seq 0 (S order)).
  (** l.237-248 *)
  Definition fill (T : trace) (order npts offset : nat) (rows : list (list K)) : list (list nat * slot) :=
    map (fun alpha => (alpha, if is_zero_key alpha then Values (with_rows (space_dimension T) npts offset rows) else TraceErr))
        (tab_keys (spatial_dimension (tr_cell T)) order).

  (** l.220-235: the loop over all facets; the last match wins (there is at
      most one); the state is the offset and the rows found *)
  Fixpoint find_facet (T : trace) (entity : dimT * nat) (points : list vec) (dgs : list (dimT * dgel))
    (st : nat * option (nat * list (list K))) : result (nat * option (nat * list (list K))) :=
    match dgs with
    | [] => Ok st
    | (dim, e) :: dgs' =>
      bind (dg_points e) (fun ps =>
      let nf := length ps in
      let step st i :=
        bind st (fun '(offset, found) =>
        if deqb dim (fst entity) && Nat.eqb i (snd entity) then
          bind (dg_tabulate e 0 points) (fun tables =>
          match tables with
          | [rows] => Ok (offset + nf, Some (offset, rows))
          | _ => Err ValueError
          end)
        else Ok (offset + nf, found)) in
      bind (fold_left step (range 0 (num_entities (tr_cell T) dim)) (Ok st))
           (fun st' => find_facet T entity points dgs' st'))
    end.

  (** the slots when every key gets the same value *)
  Definition all_slots (T : trace) (order : nat) (s : slot) : list (list nat * slot) :=
    map (fun alpha => (alpha, s)) (tab_keys (spatial_dimension (tr_cell T)) order).

  Definition tabulate (T : trace) (order : nat) (points : list vec) (entity : option (dimT * nat))
    : result (list (list nat * slot)) :=
    let c := tr_cell T in
    match entity with
    | None =>
      match c with
      | DefaultTriangle | UFCTriangle | IntrepidTriangle | DefaultTetrahedron | IntrepidTetrahedron | UFCTetrahedron =>
        let vs := ModelCell.vertices K c in
        bind (barycentric_coordinates points vs) (fun coordinates =>
        match extract_unique_facet coordinates with
        | None => Ok (all_slots T order (NaNs (space_dimension T) (length points)))
        | Some f =>
          bind (map_to_reference_facet points vs f) (fun new_points =>
          match dlookup (DI (spatial_dimension c - 1)) (tr_dgs T) with
          | None => Err KeyError
          | Some e =>
            bind (dg_points e) (fun ps =>
            bind (dg_tabulate e order new_points) (fun tables =>
            match tables with
            | [rows] => Ok (fill T order (length points) (length ps * f) rows)
            | _ => Err ValueError                              (* [nonzerovals, = ...] *)
            end))
          end)
        end)
      | _ => Err NotImplementedError
      end
    | Some (dim, i) =>
      match dlookup dim (tr_dgs T) with
      | None => Ok (all_slots T order TraceErr)
      | Some _ =>
        bind (find_facet T (dim, i) points (sort_dims (tr_dgs T)) (0, None)) (fun '(_, found) =>
        match found with
        | None => Err UnboundLocalError
        | Some (offset, rows) => Ok (fill T order (length points) offset rows)
        end)
      end
    end.
End Trace.
