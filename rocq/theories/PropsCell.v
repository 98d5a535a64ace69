(** C05, C06, C16, C17, C40: cells, sub-entities, products, flattening. *)
From Coq Require Import Sorted Permutation String.
From Verif Require Import Base Sorting ModelCell SpecCell SpecCart ProofsCell ProofsCart ProofsTopo ProofsFlatten
  ProofsTP ModelFactory SpecFactory ProofsFactory.
Local Open Scope nat_scope.

(** C05: for every topology (well-formed dictionary, contained entities have no
    larger dimension) and every dof assignment, the closure dictionary has an
    entry for exactly the entities of the cell, and it is the sorted list of
    the dofs of all contained entities (each entity counted once). *)
Theorem C05_entity_closure_dofs :
  forall (t : topo) (ids : dict (list nat)),
    proper_dict t -> graded t -> covers t ids ->
    exists r, make_entity_closure_ids t ids = Ok r /\
      (forall d e, lookup t d e = None -> lookup r d e = None) /\
      (forall d e v, lookup t d e = Some v ->
         exists l subs, lookup r d e = Some l /\ StronglySorted (leT Nat.leb) l /\
           NoDup subs /\ (forall x, In x subs <-> contained t v x) /\
           Permutation l (flat_map (dofs_on ids) subs)).
Proof. exact closure_ids_spec. Qed.
Print Assumptions C05_entity_closure_dofs.

(** C05 applies to every cell of the library, nested products included. *)
Theorem C05_every_cell_topology_admissible :
  forall c : cell, proper_dict (topology c) /\ graded (topology c).
Proof. intros c. split; [eapply good_proper|eapply good_graded]; apply good_cell. Qed.
Print Assumptions C05_every_cell_topology_admissible.

(** An entity without an entry in the dof dictionary makes the computation fail. *)
Example C05_missing_entry :
  make_entity_closure_ids topo_line [(DI 0, [(0, [0]); (1, [1])])] = Err KeyError.
Proof. reflexivity. Qed.
Example C05_nonvacuous :
  let ids := [(DI 0, [(0, [0]); (1, [1]); (2, [2])]); (DI 1, [(0, [4]); (1, [3]); (2, [5])]); (DI 2, [(0, [6])])] in
  covers topo_UFCTriangle ids /\
  make_entity_closure_ids topo_UFCTriangle ids =
  Ok [(DI 0, [(0, [0]); (1, [1]); (2, [2])]); (DI 1, [(0, [1; 2; 4]); (1, [0; 2; 3]); (2, [0; 1; 5])]);
      (DI 2, [(0, [0; 1; 2; 3; 4; 5; 6])])].
Proof.
  split; [|reflexivity]. intros d e v H.
  apply lookup_in in H as (es & H1 & H2); [|apply (good_proper 3), goodb_good; reflexivity].
  simpl in H1. decompose [or] H1; try contradiction; clear H1;
  match goal with H : (_, _) = (d, es) |- _ => inversion H; subst; clear H end;
  simpl in H2; decompose [or] H2; try contradiction; clear H2;
  match goal with H : (_, _) = (e, v) |- _ => inversion H; subst; clear H end; eexists; reflexivity.
Qed.

(** C06 *)
Theorem C06_connectivity :
  forall t d0 d1 es, proper_dict t -> dlookup (DI d0) t = Some es -> es <> [] -> d1 <= d0 ->
    exists L, clookup (connectivity t) (d0, d1) = Some L /\ List.length L = List.length es /\
      forall k e v, nth_error (nsort (keys es)) k = Some e -> elookup e es = Some v ->
        exists l, nth_error L k = Some l /\ StronglySorted lt l /\
          forall e1, In e1 l <-> contained t v (DI d1, e1).
Proof. exact connectivity_spec. Qed.
Print Assumptions C06_connectivity.

(** pairs that are not (dimension present, lower or equal dimension) have no entry *)
Theorem C06_connectivity_domain :
  forall t d0 d1, proper_dict t ->
    (clookup (connectivity t) (d0, d1) <> None <->
     d1 <= d0 /\ exists es, dlookup (DI d0) t = Some es /\ es <> []).
Proof.
  intros t d0 d1 Hp. rewrite connectivity_lookup by auto.
  destruct (dlookup (DI d0) t) as [es|] eqn:E.
  - destruct (Nat.leb_spec d1 d0) as [H|H]; simpl.
    + destruct es as [|x es]; simpl.
      * split; [congruence|]. intros (_ & es' & H1 & H2). congruence.
      * split; [|discriminate]. intros _. split; auto. eexists; split; [reflexivity|discriminate].
    + split; [congruence|]. intros [H1 _]; lia.
  - split; [congruence|]. intros (_ & es & H & _). discriminate.
Qed.
Print Assumptions C06_connectivity_domain.

(** containment of entities is reflexive and transitive *)
Theorem C06_containment_preorder :
  forall t d e v, lookup t d e = Some v ->
    contained t v (d, e) /\
    forall d' e' v' x, contained t v (d', e') -> lookup t d' e' = Some v' -> contained t v' x -> contained t v x.
Proof.
  intros t d e v H. split.
  - exists v. split; auto. intros x; auto.
  - intros d' e' v' x (w & H1 & H2) H3 (u & H4 & H5). simpl in *. assert (w = v') by congruence. subst w.
    exists u. split; auto. eapply incl_tran; eauto.
Qed.
Print Assumptions C06_containment_preorder.

Example C06_nonvacuous :
  clookup (connectivity topo_UFCTetrahedron) (2, 1) = Some [[0; 1; 2]; [0; 3; 4]; [1; 3; 5]; [2; 4; 5]].
Proof. reflexivity. Qed.

(** C16 *)
Theorem C16_dimensions :
  forall cs D, In D (keys (topology (TensorProductCell cs))) <->
    exists dims, D = DT dims /\ Forall2 (fun c d => In d (keys (topology c))) cs dims.
Proof. exact tp_keys_cells. Qed.
Print Assumptions C16_dimensions.

(** [counts] are the numbers of factor entities, [nvs] of factor vertices.
    Entities of dimension [dims] are numbered [0..prod counts - 1]; the entity
    made of factor entities [idx] has the row-major number of [idx] and its
    vertices are exactly the row-major numbers of the tuples of vertices of the
    factor entities (no vertex repeated). *)
Theorem C16_product_entities :
  forall cs dims,
    Forall2 (fun c d => In d (keys (topology c))) cs dims ->
    let counts := map (fun '(c, d) => List.length (option_list (dlookup d (topology c)))) (combine cs dims) in
    let nvs := map num_vertices cs in
    (forall k, lookup (topology (TensorProductCell cs)) (DT dims) k <> None <-> k < nprod counts) /\
    (forall idx vss,
       Forall2 (fun '(c, (d, e)) vs => lookup (topology c) d e = Some vs) (combine cs (combine dims idx)) vss ->
       List.length idx = List.length cs ->
       exists vs, lookup (topology (TensorProductCell cs)) (DT dims) (row_major counts idx) = Some vs /\
         NoDup vs /\
         forall w, In w vs <-> exists vi, Forall2 (fun l x => In x l) vss vi /\ w = row_major nvs vi).
Proof. exact tp_entity. Qed.
Print Assumptions C16_product_entities.

(** ... and that vertex number is the one under which [get_vertices()] lists the
    concatenation of the factor vertices' coordinates; every entity's vertex
    numbers are in range. *)
Theorem C16_product_vertices :
  forall (K : fieldT) cs vi coords,
    picks (map (vertices K) cs) vi coords ->
    nth_error (vertices K (TensorProductCell cs)) (row_major (map num_vertices cs) vi) = Some (concat coords).
Proof. exact tp_vertex. Qed.
Print Assumptions C16_product_vertices.

Theorem C16_vertex_numbers_valid :
  forall K c d e vs w, lookup (topology c) d e = Some vs -> In w vs -> w < List.length (vertices K c).
Proof. intros K c d e vs w H Hw. rewrite vertices_length. eapply vertex_in_range; eauto. Qed.
Print Assumptions C16_vertex_numbers_valid.

Example C16_nonvacuous :
  let cs := [UFCTriangle; UFCInterval] in
  Forall2 (fun c d => In d (keys (topology c))) cs [DI 1; DI 0] /\
  Forall2 (fun '(c, (d, e)) vs => lookup (topology c) d e = Some vs)
    (combine cs (combine [DI 1; DI 0] [1; 1])) [[0; 2]; [1]] /\
  lookup (topology (TensorProductCell cs)) (DT [DI 1; DI 0]) 3 = Some [1; 5].
Proof.
  split; [|split; [|reflexivity]].
  - constructor; [simpl; auto|]. constructor; [simpl; auto|constructor].
  - constructor; [reflexivity|]. constructor; [reflexivity|constructor].
Qed.

(** C17 *)
Theorem C17_flatten_unflatten :
  forall V (t : dict V), proper_dict t ->
    (forall d es, In (d, es) t -> StronglySorted lt (keys es)) ->
    let m := compute_unflattening_map t in
    (forall fd fe v, flookup (flatten_entities t) fd fe = Some v <->
       exists d e, ulookup m fd fe = Some (d, e) /\ lookup t d e = Some v) /\
    (forall d e, (exists v, lookup t d e = Some v) ->
       exists fe, ulookup m (tuple_sum d) fe = Some (d, e)) /\
    (forall fd fe d e, ulookup m fd fe = Some (d, e) ->
       fd = tuple_sum d /\ (exists v, lookup t d e = Some v)) /\
    (forall fd fe fd' fe' x, ulookup m fd fe = Some x -> ulookup m fd' fe' = Some x -> fd = fd' /\ fe = fe') /\
    (forall fd, exists n, forall fe, ulookup m fd fe <> None <-> fe < n).
Proof. intros V t. exact (flatten_unflatten t). Qed.
Print Assumptions C17_flatten_unflatten.

(** every product cell's topology meets the hypotheses, so the flattened
    topology of a quadrilateral or hexahedron answers for the right entity *)
Theorem C17_product_cells_admissible :
  forall c, proper_dict (topology c) /\
    forall d es, In (d, es) (topology c) -> StronglySorted lt (keys es).
Proof.
  intros c. pose proof (good_cell c) as G. split; [eapply good_proper; eauto|].
  destruct G as (_ & H & _). intros d es Hin. rewrite (H d es Hin). apply SSorted_seq.
Qed.
Print Assumptions C17_product_cells_admissible.

Theorem C17_cube_topologies :
  let I := UFCInterval in
  forall fd fe v,
    (lookup (topology UFCQuadrilateral) (DI fd) fe = Some v <->
     exists d e, ulookup (compute_unflattening_map (topology (TensorProductCell [I; I]))) fd fe = Some (d, e) /\
                 lookup (topology (TensorProductCell [I; I])) d e = Some v) /\
    (lookup (topology UFCHexahedron) (DI fd) fe = Some v <->
     exists d e, ulookup (compute_unflattening_map (topology (TensorProductCell [I; I; I]))) fd fe = Some (d, e) /\
                 lookup (topology (TensorProductCell [I; I; I])) d e = Some v).
Proof.
  intros I fd fe v.
  assert (G : forall f, lookup (as_topo f) (DI fd) fe = flookup f fd fe).
  { intros f. unfold lookup, flookup. induction f as [|[k l] f IH]; simpl; auto.
    change (deqb (DI fd) (DI k)) with (match Nat.compare fd k with Eq => true | _ => false end).
    destruct (Nat.eqb_spec fd k) as [->|Hne]; [rewrite Nat.compare_refl; auto|].
    destruct (Nat.compare fd k) eqn:E; auto. apply Nat.compare_eq in E; congruence. }
  split.
  - cbn [topology]. rewrite G.
    destruct (C17_product_cells_admissible (TensorProductCell [I; I])) as [A B].
    destruct (flatten_unflatten _ A B) as [H _]. exact (H fd fe v).
  - cbn [topology]. rewrite G.
    destruct (C17_product_cells_admissible (TensorProductCell [I; I; I])) as [A B].
    destruct (flatten_unflatten _ A B) as [H _]. exact (H fd fe v).
Qed.
Print Assumptions C17_cube_topologies.

(** The sortedness hypothesis is needed: with a dictionary written in another
    insertion order the two functions disagree. *)
Theorem C17_insertion_order_refuted :
  exists (t : dict nat), proper_dict t /\
    exists fd fe d e, ulookup (compute_unflattening_map t) fd fe = Some (d, e) /\
      flookup (flatten_entities t) fd fe <> lookup t d e.
Proof.
  exists [(DT [DI 0; DI 0], [(1, 11); (0, 10)])]. split.
  - split; [repeat constructor; simpl; intuition|]. intros d es [H|[]]. inversion H; subst.
    repeat constructor; simpl; intuition discriminate.
  - exists 0, 0, (DT [DI 0; DI 0]), 1. split; [reflexivity|]. vm_compute. discriminate.
Qed.
Print Assumptions C17_insertion_order_refuted.

Example C17_nonvacuous :
  let t := topology (TensorProductCell [UFCInterval; UFCInterval]) in
  ulookup (compute_unflattening_map t) 1 2 = Some (DT [DI 1; DI 0], 0) /\
  flookup (flatten_entities t) 1 2 = Some [0; 2].
Proof. split; reflexivity. Qed.

(** C40 *)
Theorem C40_ufc_cell_exact :
  forall s c, ufc_cell s = Ok c <->
    exists ns cs, ns <> [] /\ s = joined ns /\ Forall2 documented ns cs /\ c = product_of cs.
Proof. exact ufc_cell_ok. Qed.
Print Assumptions C40_ufc_cell_exact.

Theorem C40_ufc_cell_refuses_rest : forall s e, ufc_cell s = Err e -> e = RuntimeError.
Proof. exact ufc_cell_err. Qed.
Print Assumptions C40_ufc_cell_refuses_rest.

(** dimensions: every vertex of every cell has [spatial_dimension] coordinates,
    the sum of the dimensions of the named factors *)
Theorem C40_dimension :
  forall K c, Forall (fun v => List.length v = spatial_dimension c) (vertices K c) /\
    vertices K c <> [] /\ tuple_sum (get_dimension c) = spatial_dimension c.
Proof.
  intros K c. split; [apply vertices_dim|]. split; [|apply tuple_sum_dimension].
  intros E. pose proof (vertices_length K c) as H. rewrite E in H. simpl in H.
  assert (0 < num_vertices c); [|lia]. clear.
  induction c as [c Hc|cs IH] using cell_ind'.
  - destruct c; simpl; try lia. exfalso; eapply Hc; reflexivity.
  - cbn [num_vertices]. induction IH; simpl; [lia|]. unfold nprod in *. nia.
Qed.
Print Assumptions C40_dimension.

(** the cube factory on every cell: the dimension must be a regular array (a
    nested product of unequal depths is not), otherwise numpy raises ValueError *)
Theorem C40_flatten_reference_cube :
  forall c,
    (~ (exists s, uniform s (get_dimension c)) -> flatten_reference_cube c = Err ValueError) /\
    forall s, uniform s (get_dimension c) ->
    (spatial_dimension c <= 1 -> flatten_reference_cube c = Ok c) /\
    (hypercube c -> spatial_dimension c = 2 -> flatten_reference_cube c = Ok UFCQuadrilateral) /\
    (hypercube c -> spatial_dimension c = 3 -> flatten_reference_cube c = Ok UFCHexahedron) /\
    (hypercube c -> 4 <= spatial_dimension c -> flatten_reference_cube c = Err KeyError) /\
    (~ hypercube c -> 2 <= spatial_dimension c -> flatten_reference_cube c = Err TypeError).
Proof.
  intros c. split.
  { intros H. unfold flatten_reference_cube, np_sum. destruct (np_shape (get_dimension c)) as [s|] eqn:E; [|reflexivity].
    exfalso. apply H. exists s. now apply np_shape_uniform. }
  intros s H. rewrite (flatten_cube c s H). repeat split.
  - intros H1. apply Nat.leb_le in H1. rewrite H1. reflexivity.
  - intros Hh H1. rewrite H1, (is_hypercube_true c Hh). reflexivity.
  - intros Hh H1. rewrite H1, (is_hypercube_true c Hh). reflexivity.
  - intros Hh H1. rewrite (is_hypercube_true c Hh).
    destruct (Nat.leb_spec (spatial_dimension c) 1); [lia|].
    destruct (Nat.eqb_spec (spatial_dimension c) 2); [lia|].
    destruct (Nat.eqb_spec (spatial_dimension c) 3); [lia|]. reflexivity.
  - intros Hh H1. destruct (Nat.leb_spec (spatial_dimension c) 1); [lia|].
    destruct (is_hypercube c) as [[]|e] eqn:E; [|reflexivity|].
    + exfalso. apply Hh. apply is_hypercube_sound; auto.
    + apply is_hypercube_err in E; subst; reflexivity.
Qed.
Print Assumptions C40_flatten_reference_cube.

(** a cube written as a nested product is not accepted *)
Theorem C40_nested_cube_refuted :
  exists c, hypercube c /\ spatial_dimension c = 3 /\ flatten_reference_cube c = Err ValueError.
Proof.
  exists (TensorProductCell [TensorProductCell [UFCInterval; UFCInterval]; UFCInterval]).
  repeat split; repeat constructor.
Qed.
Print Assumptions C40_nested_cube_refuted.

Theorem C40_simplex_factories :
  forall d, (ufc_simplex d = Err RuntimeError <-> 4 <= d) /\
    (default_simplex d = Err RuntimeError <-> d = 0 \/ 4 <= d) /\
    (forall c, ufc_simplex d = Ok c \/ default_simplex d = Ok c -> spatial_dimension c = d /\ num_vertices c = S d).
Proof.
  intros d. destruct d as [|[|[|[|d]]]]; simpl; repeat split; intros; try discriminate; try lia; auto;
  repeat match goal with
  | H : _ \/ _ |- _ => destruct H
  | H : Ok _ = Ok _ |- _ => inversion H; subst; clear H
  end; try discriminate; try lia; auto.
Qed.
Print Assumptions C40_simplex_factories.

Example C40_nonvacuous :
  ufc_cell "triangle * interval" = Ok (TensorProductCell [UFCTriangle; UFCInterval]) /\
  ufc_cell "triangle *interval" = Err RuntimeError /\
  hypercube (TensorProductCell [UFCInterval; DefaultLine]) /\
  uniform [2] (get_dimension (TensorProductCell [UFCInterval; DefaultLine])).
Proof.
  split; [reflexivity|]. split; [reflexivity|]. split; [repeat constructor|].
  apply (uni_tuple [] (DI 1) [DI 1]). repeat constructor.
Qed.
