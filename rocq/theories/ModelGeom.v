(** Geometry of cells (reference_element.py): entity transforms and
    [contains_point].  Coordinates in any field. *)
From Verif Require Import Base ModelIndex ModelCell ModelTPE.

Section Geom.
  Context {K : fieldT}.
  Notation vec := (list K).
  Definition map2 {A B C} (f : A -> B -> C) (a : list A) (b : list B) : list C := map (fun '(x, y) => f x y) (combine a b).
  Definition vsub (a b : vec) : vec := map2 fsub a b.
  Definition vadd (a b : vec) : vec := map2 fadd a b.
  Definition dot (a b : vec) : K := fsum (map2 fmul a b).
  (** column [k] of a list of rows *)
  Definition column (rows : list vec) (k : nat) : vec := map (fun r => nth k r f0) rows.
  (** a map of points, which may raise *)
  Definition pmap := vec -> result vec.

  (** [i, = t] followed by indexing the vertices, l.402-406 and l.413-416 *)
  Definition vertex_transform (vs : list vec) (o : option (list nat)) : result pmap :=
    match o with
    | None => Err KeyError
    | Some [i] => match nth_error vs i with Some v => Ok (fun _ => Ok v) | None => Err IndexError end
    | Some _ => Err ValueError
    end.
  (** get_vertices_of_subcomplex, l.197-200 *)
  Fixpoint subcomplex (vs : list vec) (t : list nat) : result (list vec) :=
    match t with
    | [] => Ok []
    | i :: t' => match nth_error vs i with
                 | None => Err IndexError
                 | Some v => match subcomplex vs t' with Err e => Err e | Ok r => Ok (v :: r) end
                 end
    end.
  (** l.418-443: [A] is a list of rows, [B] a list of columns; division is the
      field's (numpy would give nan for a degenerate reference edge). *)
  Definition affine_transform (celldim subdim : nat) (v_e v_c : list vec) : pmap :=
    let e0 := hd [] v_e in
    let c0 := hd [] v_c in
    let A := map (fun v => let r := vsub v e0 in map (fun x => fdiv x (dot r r)) r) (firstn subdim (tl v_e)) in
    let B := map (fun v => vsub v c0) (firstn subdim (tl v_c)) in
    (* C[i][k] = sum_j B[i][j] A[j][k] *)
    let C := map (fun i => map (fun k => dot (column B i) (column A k)) (seq 0 subdim)) (seq 0 celldim) in
    let Cdot x := map (fun row => dot row x) C in
    let offset := vsub c0 (Cdot e0) in
    fun x => if Nat.eqb (length x) subdim then Ok (vadd offset (Cdot x)) else Err ValueError.
  (** l.392-443, [Simplex.get_entity_transform], for vertices [vs], topology
      [t], and the vertices [sub d] of [construct_subelement(d)]. *)
  Definition simplex_transform (vs : list vec) (t : topo) (sub : nat -> result (list vec)) (d : dimT) (entity : nat) : result pmap :=
    match d with
    | DT _ => Err TypeError                                    (* celldim - dim *)
    | DI dim =>
      let celldim := length (hd [] vs) in
      if Nat.eqb dim 0 then vertex_transform vs (lookup t (DI dim) entity)
      else if Nat.eqb dim celldim then (if Nat.eqb entity 0 then Ok (fun x => Ok x) else Err AssertionError)
      else
        match sub dim with
        | Err NotImplementedError => vertex_transform vs (lookup t (DI 0) entity)
        | Err e => Err e
        | Ok v_e =>
          let subdim := length (hd [] v_e) in
          if negb (Nat.eqb subdim dim) then Err AssertionError
          else match lookup t (DI dim) entity with
               | None => Err KeyError
               | Some ids =>
                 match subcomplex vs ids with
                 | Err e => Err e
                 | Ok v_c => if Nat.ltb (length v_c) (subdim + 1) then Err IndexError
                             else Ok (affine_transform celldim subdim v_e v_c)
                 end
               end
        end
    end.

  (** l.697-704, [_split_slices] and slicing; [split_point] cuts a point *)
  Fixpoint split_point (lengths : list nat) (x : vec) : list vec :=
    match lengths with [] => [] | n :: ls => firstn n x :: split_point ls (skipn n x) end.
  Fixpoint int_dims (ds : list dimT) : option (list nat) :=
    match ds with
    | [] => Some []
    | DI n :: ds' => match int_dims ds' with Some l => Some (n :: l) | None => None end
    | DT _ :: _ => None
    end.
  (** [transform], l.738-741 *)
  Fixpoint chain_transform (ts : list pmap) (xs : list vec) : result vec :=
    match ts, xs with
    | t :: ts', x :: xs' => match t x with
                            | Err e => Err e
                            | Ok y => match chain_transform ts' xs' with Err e => Err e | Ok r => Ok (y ++ r) end
                            end
    | _, _ => Ok []
    end.
  (** l.720-741, [TensorProductCell.get_entity_transform] of the factors' own;
      [counts] are [len(c.get_topology()[d])]; an entity number out of range
      makes [unravel_index] raise ValueError.  At least one factor. *)
  Section TP.
    Variable get : cell -> dimT -> nat -> result pmap.
    Fixpoint factor_counts (cs : list cell) (ds : list dimT) : option (list nat) :=
      match cs, ds with
      | c :: cs', d :: ds' => match dlookup d (topology c), factor_counts cs' ds' with
                              | Some es, Some l => Some (length es :: l) | _, _ => None end
      | _, _ => Some []
      end.
    Fixpoint factor_transforms (cs : list cell) (ds : list dimT) (es : list nat) : result (list pmap) :=
      match cs, ds, es with
      | c :: cs', d :: ds', e :: es' =>
        match get c d e with
        | Err x => Err x
        | Ok t => match factor_transforms cs' ds' es' with Err x => Err x | Ok l => Ok (t :: l) end
        end
      | _, _, _ => Ok []
      end.
    Definition tp_transform (cs : list cell) (d : dimT) (entity : nat) : result pmap :=
      match d with
      | DI _ => Err TypeError
      | DT ds =>
        match factor_counts cs ds with
        | None => Err KeyError
        | Some shape =>
          if negb (Nat.ltb entity (nprod shape)) then Err ValueError
          else match factor_transforms cs ds (unravel shape entity) with
               | Err x => Err x
               | Ok sct => match int_dims ds with
                           | None => Err TypeError
                           | Some lens => Ok (fun x => chain_transform sct (split_point lens x))
                           end
               end
        end
      end.
  End TP.

  Definition sub_vertices (c : cell) (d : nat) : result (list vec) :=
    match construct_subelement c (DI d) with Err e => Err e | Ok s => Ok (vertices K s) end.
  Definition cell_transform (c : cell) := simplex_transform (vertices K c) (topology c) (sub_vertices c).
  (** [get_entity_transform] of every cell class; cubes l.810-818, l.875-883 *)
  Definition cube_transform (n : nat) (d : dimT) (entity : nat) : result pmap :=
    match d with
    | DT _ => Err KeyError
    | DI dim =>
      let cs := repeat UFCInterval n in
      match ulookup (compute_unflattening_map (topology (TensorProductCell cs))) dim entity with
      | None => Err KeyError
      | Some (d', e') => tp_transform cell_transform cs d' e'
      end
    end.
  Fixpoint get_entity_transform (c : cell) (d : dimT) (entity : nat) : result pmap :=
    match c with
    | TensorProductCell cs => tp_transform get_entity_transform cs d entity
    | UFCQuadrilateral => cube_transform 2 d entity
    | UFCHexahedron => cube_transform 3 d entity
    | _ => cell_transform c d entity
    end.

  (** *** contains_point.  Only UFC simplices (l.469-476), products
      (l.762-771) and cubes (l.830-833, l.895-898) have the method. *)
  Variable leb : K -> K -> bool.
  Definition simplex_contains (point : vec) (eps : K) : bool :=
    leb (fsub (fsum point) eps) f1 && forallb (fun c => leb f0 (fadd c eps)) point.
  Section TPC.
    Variable cp : cell -> vec -> K -> result bool.
    Fixpoint factors_contain (cs : list cell) (point : vec) (eps : K) : result bool :=
      match cs with
      | [] => Ok true
      | c :: cs' =>
        let n := spatial_dimension c in
        match cp c (firstn n point) eps with
        | Err e => Err e
        | Ok b => match factors_contain cs' (skipn n point) eps with Err e => Err e | Ok b' => Ok (b && b') end
        end
      end.
    Definition tp_contains (cs : list cell) (point : vec) (eps : K) : result bool :=
      if Nat.eqb (length point) (nsum (map spatial_dimension cs)) then factors_contain cs point eps
      else Err AssertionError.
  End TPC.
  Fixpoint contains_point (c : cell) (point : vec) (eps : K) : result bool :=
    match c with
    | UFCInterval | UFCTriangle | UFCTetrahedron => Ok (simplex_contains point eps)
    | TensorProductCell cs => tp_contains contains_point cs point eps
    | UFCQuadrilateral => tp_contains (fun _ p e => Ok (simplex_contains p e)) [UFCInterval; UFCInterval] point eps
    | UFCHexahedron => tp_contains (fun _ p e => Ok (simplex_contains p e)) [UFCInterval; UFCInterval; UFCInterval] point eps
    | _ => Err AttributeError
    end.
End Geom.
