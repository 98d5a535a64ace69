(** C18: entity transforms. *)
From Coq Require Import Sorted Permutation.
From Verif Require Import Base ModelIndex Sorting ModelCell ModelTPE ModelGeom SpecCell SpecCart SpecGeom ProofsIndex ProofsCell ProofsCart ProofsTopo ProofsTP ProofsFlatten PropsCell ProofsGeom.

Section C18.
  Context {K : fieldT}.
  Add Field KF2 : (@f_th K).
  Notation vec := (list K). Notation o := (@f0 K).
  Lemma good_affine n d (v_c : list vec) : 1 <= d <= 3 -> length v_c = S d -> Forall (fun v => length v = n) v_c ->
    good_T (K := K) (affine_transform n d (ufc_verts d) v_c) d (ufc_verts d) v_c n.
  Proof.
    intros Hd Hv Hn. split; [|split].
    - apply affine_coords with (cst := fun k => nth k (hd [] v_c) o) (lin := fun k => map (fun v => fsub (nth k v o) (nth k (hd [] v_c) o)) (tl v_c)).
      + intros k Hk. rewrite map_length. destruct v_c; simpl in *; lia.
      + intros x Hx. eexists. split; [apply affine_closed; auto|]. split; [apply length_comb|]. intros k Hk. rewrite nth_comb by auto.
        assert (Hd' : d = 1 \/ d = 2 \/ d = 3) by lia. destruct Hd' as [-> | [-> | ->]].
        * destruct v_c as [|a [|b [|]]]; try discriminate. destruct x as [|x0 [|]]; try discriminate. cbn. ring.
        * destruct v_c as [|a [|b [|c [|]]]]; try discriminate. destruct x as [|x0 [|x1 [|]]]; try discriminate. cbn. ring.
        * destruct v_c as [|a [|b [|c [|e [|]]]]]; try discriminate. destruct x as [|x0 [|x1 [|x2 [|]]]]; try discriminate. cbn. ring.
    - assert (V : Forall2 (fun w v => comb n (bary w) v_c = v /\ length w = d) (ufc_verts d) v_c).
      { assert (Hd' : d = 1 \/ d = 2 \/ d = 3) by lia. destruct Hd' as [-> | [-> | ->]].
        * destruct v_c as [|a [|b [|]]]; try discriminate.
          inversion Hn as [|? ? L0 Hn1]; subst. inversion Hn1 as [|? ? L1 Hn2]; subst.
          repeat constructor; (apply (list_ext (length a)); [apply length_comb|auto|]); intros k Hk; rewrite nth_comb by auto; cbn; ring.
        * destruct v_c as [|a [|b [|c [|]]]]; try discriminate.
          inversion Hn as [|? ? L0 Hn1]; subst. inversion Hn1 as [|? ? L1 Hn2]; subst. inversion Hn2 as [|? ? L2 Hn3]; subst.
          repeat constructor; (apply (list_ext (length a)); [apply length_comb|auto|]); intros k Hk; rewrite nth_comb by auto; cbn; ring.
        * destruct v_c as [|a [|b [|c [|e [|]]]]]; try discriminate.
          inversion Hn as [|? ? L0 Hn1]; subst. inversion Hn1 as [|? ? L1 Hn2]; subst. inversion Hn2 as [|? ? L2 Hn3]; subst. inversion Hn3 as [|? ? L3 Hn4]; subst.
          repeat constructor; (apply (list_ext (length a)); [apply length_comb|auto|]); intros k Hk; rewrite nth_comb by auto; cbn; ring. }
      eapply F2_impl; [|exact V]. intros w v (E & Lw). cbv beta. rewrite affine_closed by auto. rewrite E. reflexivity.
    - assert (Hd' : d = 1 \/ d = 2 \/ d = 3) by lia. destruct Hd' as [-> | [-> | ->]]; repeat constructor.
  Qed.
  Lemma good_vertex (v : vec) : good_T (fun _ => Ok v) 0 [[]] [v] (length v).
  Proof. split; [apply affine_const|]. split; repeat constructor. Qed.
  Lemma good_whole d (vs : list vec) : Forall (fun v => length v = d) vs -> good_T (fun x => Ok x) d vs vs d.
  Proof. intros H. split; [apply affine_id|]. split; auto. clear. induction vs; constructor; auto. Qed.

  Ltac small H d e := destruct d as [|[|[|[|d]]]]; try (discriminate H); destruct e as [|[|[|[|[|[|e]]]]]]; try (discriminate H).
  Lemma simplex_ok c : In c [Point; UFCInterval; UFCTriangle; UFCTetrahedron] -> vsub_ok (@cell_transform K) c.
  Proof.
    intros Hc D e ids H. destruct D as [d|l].
    2:{ exfalso. simpl in Hc. intuition subst; discriminate. }
    simpl in Hc. destruct Hc as [<-|[<-|[<-|[<-|[]]]]]; small H d e; inversion H; subst; clear H;
      (eexists _, _, _; split; [reflexivity|]; split; [reflexivity|]; split; [reflexivity|]).
    all: first [ exact (good_vertex _) | apply good_whole; repeat constructor
               | match goal with |- good_T _ ?d _ _ ?n => eapply (good_affine n d); [lia|reflexivity|repeat constructor] end ].
  Qed.
  Lemma repeat_ok n : Forall (vsub_ok (@cell_transform K)) (repeat UFCInterval n).
  Proof. induction n; constructor; auto. apply simplex_ok. simpl; auto. Qed.
  Lemma cube_ok n c : (n = 2 /\ c = UFCQuadrilateral) \/ (n = 3 /\ c = UFCHexahedron) -> vsub_ok (@get_entity_transform K) c.
  Proof.
    intros Hc D e ids H. destruct D as [d|l].
    2:{ exfalso. destruct Hc as [[_ ->]|[_ ->]]; discriminate. }
    assert (U : exists D' e', ulookup (compute_unflattening_map (topology (TensorProductCell (repeat UFCInterval n)))) d e = Some (D', e') /\
       lookup (topology (TensorProductCell (repeat UFCInterval n))) D' e' = Some ids).
    { destruct Hc as [[-> ->]|[-> ->]]; apply (C17_cube_topologies d e ids) in H; exact H. }
    destruct U as (D' & e' & U & L).
    assert (Hs : d = tuple_sum D').
    { destruct (C17_product_cells_admissible (TensorProductCell (repeat UFCInterval n))) as [A B].
      destruct (flatten_unflatten _ A B) as (_ & _ & F & _). destruct (F _ _ _ _ U) as (E & _). exact E. }
    destruct (tp_good _ _ _ _ _ (repeat_ok n) L) as (ds & T & sub & -> & E1 & E2 & G).
    exists d, T.
    assert (HD : In (DT (map DI ds)) (keys (topology (TensorProductCell (repeat UFCInterval n))))).
    { unfold lookup in L. destruct (dlookup (DT (map DI ds)) _) as [es|] eqn:E; [|discriminate].
      apply dlookup_in in E; [|destruct (good_cell (TensorProductCell (repeat UFCInterval n))); auto]. apply in_map with (f := fst) in E. exact E. }
    apply tp_keys_cells in HD as (dims & E & HD). inversion E; subst dims; clear E.
    assert (Sd : nsum ds = d).
    { subst d. simpl. rewrite map_map. simpl. rewrite map_id. reflexivity. }
    assert (Hd01 : Forall (fun d => d = 0 \/ d = 1) ds).
    { clear -HD. revert n HD. induction ds as [|d ds IH]; intros n HD; constructor.
      - destruct n; simpl in HD; inversion HD as [|? ? ? ? Hd HD']; subst. simpl in Hd. intuition congruence.
      - destruct n; simpl in HD; inversion HD as [|? ? ? ? Hd HD']; subst. eauto. }
    assert (Ll : length ds = n).
    { apply F2_len in HD. rewrite repeat_length, map_length in HD. auto. }
    destruct Hc as [[-> ->]|[-> ->]].
    - destruct ds as [|d1 [|d2 [|]]]; try discriminate. inversion Hd01 as [|? ? H1 Hd]; subst. inversion Hd as [|? ? H2 Hd']; subst.
      assert (E : get_entity_transform UFCQuadrilateral (DI (tuple_sum (DT (map DI [d1; d2])))) e = Ok T).
      { cbn [get_entity_transform]. unfold cube_transform. rewrite U. exact E1. }
      destruct H1 as [-> | ->], H2 as [-> | ->]; cbn in E2; inversion E2; subst sub;
        (eexists; split; [reflexivity|]; split; [exact E|]; split; [reflexivity|exact G]).
    - destruct ds as [|d1 [|d2 [|d3 [|]]]]; try discriminate. inversion Hd01 as [|? ? H1 Hd]; subst. inversion Hd as [|? ? H2 Hd']; subst. inversion Hd' as [|? ? H3 Hd'']; subst.
      assert (E : get_entity_transform UFCHexahedron (DI (tuple_sum (DT (map DI [d1; d2; d3])))) e = Ok T).
      { cbn [get_entity_transform]. unfold cube_transform. rewrite U. exact E1. }
      destruct H1 as [-> | ->], H2 as [-> | ->], H3 as [-> | ->]; cbn in E2; inversion E2; subst sub;
        (eexists; split; [reflexivity|]; split; [exact E|]; split; [reflexivity|exact G]).
  Qed.
  Lemma factor_ok c : ufc_factor c -> vsub_ok (@get_entity_transform K) c.
  Proof.
    destruct c; simpl; intros H; try contradiction.
    1-4: intros D e ids Hl; refine (simplex_ok _ _ D e ids Hl); simpl; auto.
    - apply (cube_ok 2); auto.
    - apply (cube_ok 3); auto.
  Qed.
End C18.

(** For every cell of the UFC family and every entity of it (vertex numbers
    [ids]): the transform exists, is affine, and maps vertex number [j] of the
    reference sub-entity to the coordinates of vertex number [ids_j] of the
    cell. *)
Theorem C18_entity_transform : forall (K : fieldT) c D e ids,
  ufc_family c -> lookup (topology c) D e = Some ids ->
  exists T sub,
    get_entity_transform c D e = Ok T /\ construct_subelement c D = Ok sub /\
    Forall2 (fun w v => T w = Ok v) (vertices K sub) (map (fun i => nth i (vertices K c) []) ids) /\
    affine_map T (tuple_sum D) (spatial_dimension c).
Proof.
  intros K c D e ids Hc H.
  assert (F : ufc_factor c -> exists T sub,
    get_entity_transform c D e = Ok T /\ construct_subelement c D = Ok sub /\
    Forall2 (fun w v => T w = Ok v) (vertices K sub) (map (fun i => nth i (vertices K c) []) ids) /\
    affine_map T (tuple_sum D) (spatial_dimension c)).
  { intros Hf. destruct (factor_ok (K := K) _ Hf _ _ _ H) as (d & T & sub & -> & E1 & E2 & A & V & _).
    exists T, sub. split; [exact E1|]. split; [exact E2|]. split; [exact V|exact A]. }
  destruct c as [| | | | | | | | |cs| |]; try (apply F; exact Hc). clear F.
  destruct Hc as (_ & Hc).
  assert (G : Forall (vsub_ok (@get_entity_transform K)) cs) by (eapply Forall_impl; [|exact Hc]; intros c; apply factor_ok).
  destruct (tp_good _ _ _ _ _ G H) as (ds & T & sub & -> & E1 & E2 & A & V & _).
  exists T, sub. split; [exact E1|]. split; [exact E2|]. split; [exact V|]. simpl. rewrite map_map. simpl. rewrite map_id. exact A.
Qed.
Print Assumptions C18_entity_transform.

(** For a simplex with any vertices and any topology whose sub-entities are the
    UFC reference simplices: the transform of an edge, face or solid facet
    takes a point to the point with the same barycentric coordinates in the
    entity. *)
Theorem C18_simplex_formula : forall (K : fieldT) (n d e : nat) (vs : list (list K)) t sub ids x,
  Forall (fun v => length v = n) vs -> vs <> [] -> 1 <= d <= 3 -> d <> n ->
  (exists s, ufc_simplex d = Ok s /\ sub d = Ok (vertices K s)) ->
  lookup t (DI d) e = Some ids -> length ids = S d -> Forall (fun i => i < length vs) ids -> length x = d ->
  exists T, simplex_transform vs t sub (DI d) e = Ok T /\
    T x = Ok (comb n (bary x) (map (fun i => nth i vs []) ids)).
Proof.
  intros K n d e vs t sub ids x Hn Hne Hd Hdn (s & Hs & Hsub) Hl Hlen Hids Hx.
  assert (Hvs : vertices K s = ufc_verts d).
  { assert (Hd' : d = 1 \/ d = 2 \/ d = 3) by lia. destruct Hd' as [-> | [-> | ->]]; simpl in Hs; inversion Hs; reflexivity. }
  assert (Hc : subcomplex vs ids = Ok (map (fun i => nth i vs []) ids)).
  { clear -Hids. induction Hids as [|i ids Hi Hids IH]; [reflexivity|]. simpl. rewrite IH.
    rewrite (nth_error_nth' vs [] Hi). reflexivity. }
  assert (Hh : length (hd [] vs) = n).
  { destruct vs as [|v vs']; [congruence|]. inversion Hn; auto. }
  assert (Hse : length (hd [] (vertices K s)) = d).
  { rewrite Hvs. assert (Hd' : d = 1 \/ d = 2 \/ d = 3) by lia. destruct Hd' as [-> | [-> | ->]]; reflexivity. }
  exists (affine_transform n d (ufc_verts d) (map (fun i => nth i vs []) ids)). split.
  - unfold simplex_transform. rewrite Hh. destruct (Nat.eqb_spec d 0); [lia|]. destruct (Nat.eqb_spec d n); [congruence|].
    rewrite Hsub, Hse, Nat.eqb_refl, Hl, Hc. simpl negb. cbv iota. rewrite map_length, Hlen.
    destruct (Nat.ltb_spec (S d) (d + 1)); [lia|]. rewrite Hvs. reflexivity.
  - apply affine_closed; auto.
    + rewrite map_length; auto.
    + apply Forall_map. eapply Forall_impl; [|exact Hids]. intros i Hi. cbv beta in *.
      rewrite Forall_forall in Hn. apply Hn, nth_In, Hi.
Qed.
Print Assumptions C18_simplex_formula.

(** Vertices are constant maps and the cell itself is the identity, for every
    simplex class. *)
Theorem C18_vertices_and_cell : forall (K : fieldT) c,
  In c [Point; DefaultLine; UFCInterval; DefaultTriangle; UFCTriangle; IntrepidTriangle; DefaultTetrahedron; IntrepidTetrahedron; UFCTetrahedron] ->
  (forall i, i < num_vertices c -> exists T, get_entity_transform c (DI 0) i = Ok T /\ forall x, T x = Ok (nth i (vertices K c) [])) /\
  (c <> Point -> exists T, get_entity_transform c (DI (spatial_dimension c)) 0 = Ok T /\ forall x : list K, T x = Ok x).
Proof.
  intros K c Hc. split.
  - intros i Hi. destruct c; try (exfalso; simpl in Hc; intuition discriminate); clear Hc; simpl in Hi;
      (destruct i as [|[|[|[|i]]]]; try lia; eexists; (split; [reflexivity|]); intros; reflexivity).
  - intros Hp. destruct c; try (exfalso; simpl in Hc; intuition discriminate); try congruence; clear Hc;
      eexists; (split; [reflexivity|]); intros; reflexivity.
Qed.
Print Assumptions C18_vertices_and_cell.

(** Refuted for the Default and Intrepid triangles and tetrahedra: they cannot
    construct sub-elements, and the transform of an edge or face is the constant
    map to vertex number [e]; edges 4 and 5 of the tetrahedra raise KeyError. *)
Theorem C18_default_cells_refuted : forall (K : fieldT) c d e ids,
  In c [DefaultTriangle; IntrepidTriangle; DefaultTetrahedron; IntrepidTetrahedron] ->
  0 < d < spatial_dimension c -> lookup (topology c) (DI d) e = Some ids ->
  (e < num_vertices c -> exists T, get_entity_transform c (DI d) e = Ok T /\ forall x, T x = Ok (nth e (vertices K c) [])) /\
  (num_vertices c <= e -> @get_entity_transform K c (DI d) e = Err KeyError).
Proof.
  intros K c d e ids Hc Hd H.
  destruct c; try (exfalso; simpl in Hc; intuition discriminate); clear Hc; simpl in Hd;
    (destruct d as [|[|[|d]]]; try lia); (destruct e as [|[|[|[|[|[|e]]]]]]; try discriminate H);
    (split; intros He; simpl in He; try lia; try reflexivity; eexists; (split; [reflexivity|]); intros; reflexivity).
Qed.
Print Assumptions C18_default_cells_refuted.

(** Products of products are refused: a nested dimension tuple never yields a
    transform. *)
Theorem C18_nested_refused : forall (K : fieldT) cs ds e (T : list K -> result (list K)),
  Exists (fun d => exists l, d = DT l) ds -> get_entity_transform (TensorProductCell cs) (DT ds) e = Ok T -> False.
Proof.
  intros K cs ds e T H. cbn [get_entity_transform]. unfold tp_transform.
  assert (E : int_dims ds = None).
  { induction H as [d ds (l & ->)|d ds H IH]; [reflexivity|]. simpl. rewrite IH. destruct d; reflexivity. }
  rewrite E. destruct (factor_counts cs ds) as [shape|]; [|discriminate]. destruct (negb (e <? nprod shape)); [discriminate|].
  match goal with |- context [factor_transforms ?g ?a ?b ?c] => destruct (factor_transforms g a b c) end; discriminate.
Qed.
Print Assumptions C18_nested_refused.

Example C18_nonvacuous :
  ufc_family (TensorProductCell [UFCTriangle; UFCQuadrilateral]) /\
  lookup (topology (TensorProductCell [UFCTriangle; UFCQuadrilateral])) (DT [DI 1; DI 1]) 5 = Some [2; 3; 10; 11].
Proof. split; [split; [discriminate|repeat constructor]|vm_compute; reflexivity]. Qed.
