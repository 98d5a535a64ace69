(** Reference cells: topology, sub-entities, connectivity, product cells,
    flattening (reference_element.py) and entity closure dofs (dual_set.py). *)
From Verif Require Import Base ModelIndex Sorting.

(** Dimension keys: an integer, or a (possibly nested) tuple for product
    cells. *)
Inductive dimT := DI (n : nat) | DT (l : list dimT).

(** Python ordering of dimension keys: integers by value, tuples
    lexicographically.  Comparing an integer with a tuple raises TypeError in
    Python; keys of one dictionary are homogeneous, so the model's choice for
    that case is never used. *)
Fixpoint dcmp (a b : dimT) : comparison :=
  match a, b with
  | DI x, DI y => Nat.compare x y
  | DI _, DT _ => Lt
  | DT _, DI _ => Gt
  | DT l, DT l' =>
    (fix lcmp (l l' : list dimT) : comparison :=
       match l, l' with
       | [], [] => Eq
       | [], _ :: _ => Lt
       | _ :: _, [] => Gt
       | x :: r, y :: r' => match dcmp x y with Eq => lcmp r r' | c => c end
       end) l l'
  end.

Definition dleb (a b : dimT) : bool := match dcmp a b with Gt => false | _ => true end.
Definition deqb (a b : dimT) : bool := match dcmp a b with Eq => true | _ => false end.

(** reference_element.py l.1017-1026, [tuple_sum]. *)
Fixpoint tuple_sum (d : dimT) : nat :=
  match d with DI n => n | DT l => nsum (map tuple_sum l) end.

(** A topology dictionary [t[dim][entity] = vertices] in insertion order. *)
Notation ents V := (list (nat * V)%type).
Notation dict V := (list (dimT * ents V)%type).
Notation topo := (dict (list nat)).

(** dictionary lookups *)
Fixpoint elookup {V} (e : nat) (es : ents V) : option V :=
  match es with
  | [] => None
  | (e', v) :: es' => if Nat.eqb e e' then Some v else elookup e es'
  end.
Fixpoint dlookup {V} (d : dimT) (t : list (dimT * V)) : option V :=
  match t with
  | [] => None
  | (d', v) :: t' => if deqb d d' then Some v else dlookup d t'
  end.
Definition lookup {V} (t : dict V) (d : dimT) (e : nat) : option V :=
  match dlookup d t with Some es => elookup e es | None => None end.

(** [vertices.issuperset(vertices_)] *)
Definition subsetb (small big : list nat) : bool :=
  forallb (fun x => existsb (Nat.eqb x) big) small.

(** order on [(dim, e)] pairs used by [sorted(sub_entities)] *)
Definition deleb (x y : dimT * nat) : bool :=
  match dcmp (fst x) (fst y) with
  | Lt => true | Gt => false | Eq => Nat.leb (snd x) (snd y) end.

(** reference_element.py l.122-138, Cell.__init__: the sorted list of
    entities contained in an entity with vertices [v]. *)
Definition sub_entities_of (t : topo) (v : list nat) : list (dimT * nat) :=
  isort deleb
    (flat_map (fun '(dim_, entities_) =>
       flat_map (fun '(e_, vertices_) =>
         if subsetb vertices_ v then [(dim_, e_)] else []) entities_) t).

Definition sub_entities (t : topo) : dict (list (dimT * nat)) :=
  map (fun '(dim, entities) =>
         (dim, map (fun '(e, v) => (e, sub_entities_of t v)) entities)) t.

(** reference_element.py l.140-153: [connectivity] is a dictionary keyed by
    [(dim0, dim1)]; [setdefault(key, []).append(x)]. *)
Definition conn := list ((nat * nat) * list (list nat)).
Fixpoint setdefault_append (c : conn) (key : nat * nat) (x : list nat) : conn :=
  match c with
  | [] => [(key, [x])]
  | (k, l) :: c' =>
    if Nat.eqb (fst key) (fst k) && Nat.eqb (snd key) (snd k) then (k, l ++ [x]) :: c'
    else (k, l) :: setdefault_append c' key x
  end.
Fixpoint clookup (c : conn) (key : nat * nat) : option (list (list nat)) :=
  match c with
  | [] => None
  | (k, l) :: c' => if Nat.eqb (fst key) (fst k) && Nat.eqb (snd key) (snd k) then Some l
                    else clookup c' key
  end.

(** [filter(lambda x: x[0] == dim1, subs)] then the entity numbers *)
Definition of_dim (dim1 : nat) (subs : list (dimT * nat)) : list nat :=
  map snd (filter (fun x => deqb (fst x) (DI dim1)) subs).

(** sort of dictionary items by key (keys are distinct) *)
Definition ileb {V} (x y : nat * V) : bool := Nat.leb (fst x) (fst y).
Definition sort_items {V} (es : ents V) : ents V := isort ileb es.

Definition connectivity (t : topo) : conn :=
  fold_left (fun c '(dim0, subs) =>
    match dim0 with
    | DT _ => c                                   (* skip tensor product entities *)
    | DI d0 =>
      fold_left (fun c '(_, subsub) =>
        fold_left (fun c dim1 => setdefault_append c (d0, dim1) (of_dim dim1 subsub))
                  (range 0 (d0 + 1)) c)
        (sort_items subs) c
    end) (sub_entities t) [].

(** dual_set.py l.21-32 (DualSet.__init__) and l.139-152
    (make_entity_closure_ids); both have the same body.  The loop variable [d]
    of the innermost loop is used after the loop: it is the state component
    [option dimT].  [entity_closure_ids[d][e] = ids] raises KeyError when [d]
    has no dictionary yet (and NameError, here UnboundLocalError, when unset). *)
Fixpoint eset {V} (e : nat) (v : V) (es : ents V) : ents V :=
  match es with
  | [] => [(e, v)]
  | (e', v') :: es' => if Nat.eqb e e' then (e, v) :: es' else (e', v') :: eset e v es'
  end.
Fixpoint dset_in {V} (d : dimT) (e : nat) (v : V) (t : dict V) : option (dict V) :=
  match t with
  | [] => None
  | (d', es) :: t' => if deqb d d' then Some ((d', eset e v es) :: t')
                      else match dset_in d e v t' with
                           | Some t'' => Some ((d', es) :: t'') | None => None end
  end.

(** inner loop: [for d, se in sub_entities: ids += entity_ids[d][se]] *)
Fixpoint gather (entity_ids : dict (list nat)) (subs : list (dimT * nat))
  (d : option dimT) (ids : list nat) : result (option dimT * list nat) :=
  match subs with
  | [] => Ok (d, ids)
  | (d', se) :: rest =>
    match lookup entity_ids d' se with
    | None => Err KeyError
    | Some l => gather entity_ids rest (Some d') (ids ++ l)
    end
  end.

Fixpoint closure_entities (entity_ids : dict (list nat))
  (es : ents (list (dimT * nat))) (d : option dimT) (acc : dict (list nat))
  : result (option dimT * dict (list nat)) :=
  match es with
  | [] => Ok (d, acc)
  | (e, subs) :: rest =>
    match gather entity_ids subs d [] with
    | Err x => Err x
    | Ok (None, _) => Err UnboundLocalError
    | Ok (Some d', ids) =>
      match dset_in d' e (nsort ids) acc with
      | None => Err KeyError
      | Some acc' => closure_entities entity_ids rest (Some d') acc'
      end
    end
  end.

(** [entity_closure_ids[dim] = {}] then the entity loop.  Dimension keys of a
    dictionary are distinct, so the assignment appends. *)
Fixpoint closure_dims (entity_ids : dict (list nat))
  (ts : dict (list (dimT * nat))) (d : option dimT) (acc : dict (list nat))
  : result (dict (list nat)) :=
  match ts with
  | [] => Ok acc
  | (dim, es) :: rest =>
    match closure_entities entity_ids es d (acc ++ [(dim, [])]) with
    | Err x => Err x
    | Ok (d', acc') => closure_dims entity_ids rest d' acc'
    end
  end.

Definition make_entity_closure_ids (t : topo) (entity_ids : dict (list nat))
  : result (dict (list nat)) :=
  closure_dims entity_ids (sub_entities t) None [].

(** itertools.product *)
Fixpoint cart {A} (ls : list (list A)) : list (list A) :=
  match ls with
  | [] => [[]]
  | l :: ls' => flat_map (fun x => map (cons x) (cart ls')) l
  end.

(** numpy.ravel_multi_index / unravel_index in C order (indices in range). *)
Fixpoint ravel (shape idx : list nat) : nat :=
  match shape, idx with
  | s :: shape', i :: idx' => i * nprod shape' + ravel shape' idx'
  | _, _ => 0
  end.
Fixpoint unravel (shape : list nat) (k : nat) : list nat :=
  match shape with
  | [] => []
  | s :: shape' => (k / nprod shape') :: unravel shape' (k mod nprod shape')
  end.

Definition keys {A B} (l : list (A * B)) : list A := map fst l.

(** order on tuples of entity numbers *)
Fixpoint lleb (a b : list nat) : bool :=
  match a, b with
  | [], _ => true
  | _ :: _, [] => false
  | x :: a', y :: b' => if Nat.ltb x y then true else if Nat.ltb y x then false else lleb a' b'
  end.

Fixpoint enumerate_from {A} (k : nat) (l : list A) : list (nat * A) :=
  match l with [] => [] | x :: l' => (k, x) :: enumerate_from (S k) l' end.
Definition enumerate {A} (l : list A) : list (nat * A) := enumerate_from 0 l.

(** reference_element.py l.674-689, TensorProductCell.__init__, topology part.
    [shape] are the factors' vertex counts, [ts] the factors' topologies. *)
Definition option_list {A} (o : option (list A)) : list A :=
  match o with Some l => l | None => [] end.

Definition tp_entities (shape : list nat) (topds : list (ents (list nat))) : list (list nat * list nat) :=
  map (fun tuple_ei =>
         (tuple_ei,
          map (ravel shape)
              (cart (map (fun '(topd, ei) => option_list (elookup ei topd))
                         (combine topds tuple_ei)))))
      (cart (map (fun topd => nsort (keys topd)) topds)).

Definition tp_topology (shape : list nat) (ts : list topo) : topo :=
  map (fun dim =>
         let topds := map (fun '(t, d) => option_list (dlookup d t)) (combine ts dim) in
         (DT dim,
          (* flatten entity numbers: sort by tuple key, then enumerate *)
          enumerate (map snd (isort (fun x y => lleb (fst x) (fst y)) (tp_entities shape topds)))))
      (cart (map (fun t => keys t) ts)).

(** reference_element.py l.669-672: vertices of the product *)
Definition tp_vertices {K : Type} (vss : list (list (list K))) : list (list K) :=
  map (fun coords => concat coords) (cart vss).

(** reference_element.py l.1053-1062, [flatten_entities]; defaultdict(list)
    with [+=]. *)
Fixpoint dd_extend {V} (fd : nat) (vs : list V) (acc : list (nat * list V)) : list (nat * list V) :=
  match acc with
  | [] => [(fd, vs)]
  | (k, l) :: acc' => if Nat.eqb fd k then (k, l ++ vs) :: acc' else (k, l) :: dd_extend fd vs acc'
  end.
Definition sort_dims {V} (t : list (dimT * V)) : list (dimT * V) :=
  isort (fun x y => dleb (fst x) (fst y)) t.
Definition flatten_entities {V} (t : dict V) : list (nat * ents V) :=
  map (fun '(fd, l) => (fd, enumerate l))
      (fold_left (fun acc '(dim, es) => dd_extend (tuple_sum dim) (map snd (sort_items es)) acc)
                 (sort_dims t) []).

(** reference_element.py l.1065-1077, [compute_unflattening_map]:
    [counter = defaultdict(count)]; keys (flat_dim, flat_entity). *)
Definition counters := list (nat * nat).
Fixpoint next_count (fd : nat) (c : counters) : nat * counters :=
  match c with
  | [] => (0, [(fd, 1)])
  | (k, n) :: c' => if Nat.eqb fd k then (n, (k, S n) :: c')
                    else let '(r, c'') := next_count fd c' in (r, (k, n) :: c'')
  end.
Definition unflat := list ((nat * nat) * (dimT * nat)).
Definition unflatten_step (dim : dimT) (st : counters * unflat) (entity : nat) : counters * unflat :=
  let '(c, m) := st in
  let '(flat_entity, c') := next_count (tuple_sum dim) c in
  (c', m ++ [((tuple_sum dim, flat_entity), (dim, entity))]).
Definition compute_unflattening_map {V} (t : dict V) : unflat :=
  snd (fold_left (fun st '(dim, es) => fold_left (unflatten_step dim) (keys es) st)
                 (sort_dims t) ([], [])).
Fixpoint ulookup (m : unflat) (fd fe : nat) : option (dimT * nat) :=
  match m with
  | [] => None
  | ((a, b), x) :: m' => if Nat.eqb fd a && Nat.eqb fe b then Some x else ulookup m' fd fe
  end.
(** lookup in a flattened dictionary *)
Fixpoint nlookup {V} (k : nat) (l : list (nat * V)) : option V :=
  match l with [] => None | (k', v) :: l' => if Nat.eqb k k' then Some v else nlookup k l' end.
Definition flookup {V} (f : list (nat * ents V)) (fd fe : nat) : option V :=
  match nlookup fd f with Some es => elookup fe es | None => None end.

(** ** Concrete cells.  Cells are a finite set of classes plus products. *)
Inductive cell :=
| Point | DefaultLine | UFCInterval | DefaultTriangle | UFCTriangle | IntrepidTriangle
| DefaultTetrahedron | IntrepidTetrahedron | UFCTetrahedron
| TensorProductCell (cells : list cell) | UFCQuadrilateral | UFCHexahedron.

Definition number (l : list (list nat)) : ents (list nat) := enumerate l.
Definition simplex_topo (faces : list (list (list nat))) : topo :=
  map (fun '(d, l) => (DI d, number l)) (enumerate faces).

(** reference_element.py l.478-656: topologies of the simplex classes. *)
Definition topo_Point := simplex_topo [[[0]]].                                            (* l.478-484 *)
Definition topo_line := simplex_topo [[[0]; [1]]; [[0; 1]]].                             (* l.496-518 *)
Definition topo_DefaultTriangle :=                                                       (* l.521-533 *)
  simplex_topo [[[0]; [1]; [2]]; [[1; 2]; [2; 0]; [0; 1]]; [[0; 1; 2]]].
Definition topo_UFCTriangle :=                                                           (* l.539-549 *)
  simplex_topo [[[0]; [1]; [2]]; [[1; 2]; [0; 2]; [0; 1]]; [[0; 1; 2]]].
Definition topo_IntrepidTriangle :=                                                      (* l.558-569 *)
  simplex_topo [[[0]; [1]; [2]]; [[0; 1]; [1; 2]; [2; 0]]; [[0; 1; 2]]].
Definition topo_DefaultTetrahedron :=                                                    (* l.577-600 *)
  simplex_topo [[[0]; [1]; [2]; [3]]; [[1; 2]; [2; 0]; [0; 1]; [0; 3]; [1; 3]; [2; 3]];
                [[1; 3; 2]; [2; 3; 0]; [3; 1; 0]; [0; 1; 2]]; [[0; 1; 2; 3]]].
Definition topo_IntrepidTetrahedron :=                                                   (* l.606-628 *)
  simplex_topo [[[0]; [1]; [2]; [3]]; [[0; 1]; [1; 2]; [2; 0]; [0; 3]; [1; 3]; [2; 3]];
                [[0; 1; 3]; [1; 2; 3]; [0; 3; 2]; [0; 2; 1]]; [[0; 1; 2; 3]]].
Definition topo_UFCTetrahedron :=                                                        (* l.634-656 *)
  simplex_topo [[[0]; [1]; [2]; [3]]; [[2; 3]; [1; 3]; [1; 2]; [0; 3]; [0; 2]; [0; 1]];
                [[1; 2; 3]; [0; 2; 3]; [0; 1; 3]; [0; 1; 2]]; [[0; 1; 2; 3]]].

(** a flattened dictionary viewed as a topology again *)
Definition as_topo (f : list (nat * ents (list nat))) : topo := map (fun '(d, es) => (DI d, es)) f.

(** vertex counts *)
Fixpoint num_vertices (c : cell) : nat :=
  match c with
  | Point => 1
  | DefaultLine | UFCInterval => 2
  | DefaultTriangle | UFCTriangle | IntrepidTriangle => 3
  | DefaultTetrahedron | IntrepidTetrahedron | UFCTetrahedron => 4
  | TensorProductCell cs => nprod (map num_vertices cs)
  | UFCQuadrilateral => 4
  | UFCHexahedron => 8
  end.

(** [get_topology()]; quadrilateral and hexahedron l.778-788, l.841-851. *)
Fixpoint topology (c : cell) : topo :=
  match c with
  | Point => topo_Point
  | DefaultLine | UFCInterval => topo_line
  | DefaultTriangle => topo_DefaultTriangle
  | UFCTriangle => topo_UFCTriangle
  | IntrepidTriangle => topo_IntrepidTriangle
  | DefaultTetrahedron => topo_DefaultTetrahedron
  | IntrepidTetrahedron => topo_IntrepidTetrahedron
  | UFCTetrahedron => topo_UFCTetrahedron
  | TensorProductCell cs => tp_topology (map num_vertices cs) (map topology cs)
  | UFCQuadrilateral => as_topo (flatten_entities (tp_topology [2; 2] [topo_line; topo_line]))
  | UFCHexahedron => as_topo (flatten_entities (tp_topology [2; 2; 2] [topo_line; topo_line; topo_line]))
  end.

(** [get_vertices()] over any field *)
Section Vertices.
  Context (K : fieldT).
  Notation o := (@f0 K). Notation i := (@f1 K). Notation m := (fopp (@f1 K)).
  Definition vertices_line := [[o]; [i]].
  Fixpoint vertices (c : cell) : list (list K) :=
    match c with
    | Point => [[]]
    | DefaultLine => [[m]; [i]]
    | UFCInterval => vertices_line
    | DefaultTriangle => [[m; m]; [i; m]; [m; i]]
    | UFCTriangle | IntrepidTriangle => [[o; o]; [i; o]; [o; i]]
    | DefaultTetrahedron => [[m; m; m]; [i; m; m]; [m; i; m]; [m; m; i]]
    | IntrepidTetrahedron | UFCTetrahedron => [[o; o; o]; [i; o; o]; [o; i; o]; [o; o; i]]
    | TensorProductCell cs => tp_vertices (map vertices cs)
    | UFCQuadrilateral => tp_vertices [vertices_line; vertices_line]
    | UFCHexahedron => tp_vertices [vertices_line; vertices_line; vertices_line]
    end.
End Vertices.

(** [get_spatial_dimension()] = [len(self.vertices[0])], and [get_dimension()]
    (l.178-180, 445-448, 706-709, 790-793, 853-856). *)
Fixpoint spatial_dimension (c : cell) : nat :=
  match c with
  | Point => 0
  | DefaultLine | UFCInterval => 1
  | DefaultTriangle | UFCTriangle | IntrepidTriangle => 2
  | DefaultTetrahedron | IntrepidTetrahedron | UFCTetrahedron => 3
  | TensorProductCell cs => nsum (map spatial_dimension cs)
  | UFCQuadrilateral => 2
  | UFCHexahedron => 3
  end.
Fixpoint get_dimension (c : cell) : dimT :=
  match c with
  | TensorProductCell cs => DT (map get_dimension cs)
  | _ => DI (spatial_dimension c)
  end.

(** reference_element.py l.1029-1035, [is_hypercube].  [reduce] of an empty
    list raises TypeError. *)
Fixpoint is_hypercube (c : cell) : result bool :=
  match c with
  | DefaultLine | UFCInterval | UFCQuadrilateral | UFCHexahedron => Ok true
  | TensorProductCell cs =>
    (fix all (first : bool) (acc : bool) (cs : list cell) : result bool :=
       match cs with
       | [] => if first then Err TypeError else Ok acc
       | c' :: cs' => match is_hypercube c' with
                      | Err e => Err e
                      | Ok b => all false (acc && b) cs'
                      end
       end) true true cs
  | _ => Ok false
  end.

(** [numpy.sum(ref_el.get_dimension())]: an int sums to itself, a flat tuple of
    ints to its sum, a tuple of equally shaped tuples likewise; a ragged tuple
    is not an array of numbers (numpy raises; ValueError since 1.24). *)
Fixpoint np_shape (d : dimT) : option (list nat) :=
  match d with
  | DI _ => Some []
  | DT l =>
    match l with
    | [] => Some [0]
    | d0 :: _ =>
      match np_shape d0 with
      | None => None
      | Some s =>
        if forallb (fun d' => match np_shape d' with
                              | Some s' => if list_eq_dec Nat.eq_dec s s' then true else false
                              | None => false end) l
        then Some (length l :: s) else None
      end
    end
  end.
Definition np_sum (d : dimT) : result nat :=
  match np_shape d with Some _ => Ok (tuple_sum d) | None => Err ValueError end.

(** reference_element.py l.1038-1050, [flatten_reference_cube]; the lookup in
    [{2: ..., 3: ...}] raises KeyError for other dimensions. *)
Definition flatten_reference_cube (c : cell) : result cell :=
  match np_sum (get_dimension c) with
  | Err e => Err e
  | Ok s =>
    if Nat.leb s 1 then Ok c
    else match is_hypercube c with
         | Err e => Err e
         | Ok false => Err TypeError
         | Ok true => if Nat.eqb s 2 then Ok UFCQuadrilateral
                      else if Nat.eqb s 3 then Ok UFCHexahedron else Err KeyError
         end
  end.

(** reference_element.py l.937-962: factories by dimension. *)
Definition default_simplex (d : nat) : result cell :=
  match d with 1 => Ok DefaultLine | 2 => Ok DefaultTriangle | 3 => Ok DefaultTetrahedron
          | _ => Err RuntimeError end.
Definition ufc_simplex (d : nat) : result cell :=
  match d with 0 => Ok Point | 1 => Ok UFCInterval | 2 => Ok UFCTriangle | 3 => Ok UFCTetrahedron
          | _ => Err RuntimeError end.
