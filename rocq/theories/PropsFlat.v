(** C14, C15, C17: elements on flattened (quadrilateral, hexahedral) cells. *)
From Coq Require Import Sorted Permutation.
From Verif Require Import Base ModelIndex Sorting ModelCell ModelArray ModelConcat ModelTPE SpecCell SpecCart SpecConcat
  ProofsIndex ProofsCell ProofsCart ProofsTopo ProofsFlatten ProofsTP ProofsTPE ProofsFlatE.

(** The dofs of flat entity [(d, e)] are the dofs of the product entity that
    tabulation on [(d, e)] is forwarded to, and every dof is still on exactly
    one entity.  [same_skeleton]: the numbering lists the entities of the
    product cell, in the cell's order. *)
Definition same_skeleton {V W} (a : dict V) (b : dict W) : Prop :=
  map (fun '(d, es) => (d, map fst es)) a = map (fun '(d, es) => (d, map fst es)) b.

Theorem C14_flattened_numbering :
  forall (product : cell) (ids : dict (list nat)),
    same_skeleton ids (topology product) ->
    let flat := flattened_entity_ids ids in
    (forall d e l, flookup flat d e = Some l <->
       exists pd pe, ulookup (compute_unflattening_map (topology product)) d e = Some (pd, pe) /\
                     lookup ids pd pe = Some l) /\
    (forall n, partitions ids n -> Permutation (flat_map (fun '(_, es) => flat_map snd es) flat) (seq 0 n)).
Proof.
  intros product ids Hs flat. change (skeleton ids = skeleton (topology product)) in Hs. split.
  - pose proof (good_cell product) as G.
    assert (Kk : forall d es, In (d, es) ids -> exists es', In (d, es') (topology product) /\ keys es = keys es').
    { intros d es H. assert (Hin : In (d, keys es) (skeleton ids)) by (apply in_map_iff; exists (d, es); auto).
      rewrite Hs in Hin. apply in_map_iff in Hin as ([d' es'] & E & Hin). inversion E; subst. eauto. }
    assert (P : proper_dict ids).
    { split; [rewrite skeleton_keys, Hs, <- skeleton_keys; apply G|].
      intros d es H. destruct (Kk d es H) as (es' & H' & ->). destruct G as (_ & G2 & _). rewrite (G2 d es' H'). apply seq_NoDup. }
    destruct (flatten_unflatten ids P) as [H _].
    { intros d es H. destruct (Kk d es H) as (es' & H' & ->). destruct G as (_ & G2 & _). rewrite (G2 d es' H'). apply SSorted_seq. }
    intros d e l. unfold flat, flattened_entity_ids. rewrite H. split; intros (pd & pe & A & B); exists pd, pe; split; auto.
    + rewrite <- (ulookup_skeleton ids _ Hs). auto.
    + rewrite (ulookup_skeleton ids _ Hs). auto.
  - intros n H. unfold flat, flattened_entity_ids. rewrite flatten_all_dofs. exact H.
Qed.
Print Assumptions C14_flattened_numbering.

(** product elements meet the hypothesis whenever their factors do *)
Theorem C14_product_skeleton :
  forall cA cB (A B : dict (list nat)) dimB,
    same_skeleton A (topology cA) -> same_skeleton B (topology cB) ->
    same_skeleton (tpe_entity_ids dimB A B) (topology (TensorProductCell [cA; cB])).
Proof. intros cA cB A B dimB HA HB. exact (tpe_skeleton cA cB A B dimB HA HB). Qed.
Print Assumptions C14_product_skeleton.

(** the flat cell built for products of intervals has the flattened topology,
    also when the cube is built as (I x I) x I *)
Theorem C14_flattened_cell_topology :
  let I := UFCInterval in
  forall product flat, In product [TensorProductCell [I; I]; TensorProductCell [TensorProductCell [I; I]; I];
                                   TensorProductCell [I; TensorProductCell [I; I]]] ->
    flattened_cell product = Ok flat ->
    forall d e, lookup (topology flat) (DI d) e = flookup (flatten_entities (topology product)) d e.
Proof.
  intros I product flat Hin Hf d e.
  assert (G : forall f, lookup (as_topo f) (DI d) e = flookup f d e).
  { intros f. unfold lookup, flookup. induction f as [|[k l] f IH]; simpl; auto.
    change (deqb (DI d) (DI k)) with (match Nat.compare d k with Eq => true | _ => false end).
    destruct (Nat.eqb_spec d k) as [->|Hne]; [rewrite Nat.compare_refl; auto|].
    destruct (Nat.compare d k) eqn:E; auto. apply Nat.compare_eq in E; congruence. }
  destruct Hin as [<-|[<-|[<-|[]]]]; inversion Hf; subst; rewrite <- G; reflexivity.
Qed.
Print Assumptions C14_flattened_cell_topology.

(** tabulation on a flat entity is tabulation on the product entity the
    numbering uses; other entities are refused *)
Theorem C15_flattened_tabulation :
  forall (K : Type) (product : cell) tab order (points : list (list K)),
    (forall d e pd pe, ulookup (compute_unflattening_map (topology product)) d e = Some (pd, pe) ->
       flattened_tabulate product tab order points (Some (d, e)) = tab order points (Some (pd, pe))) /\
    (forall d e, flookup (flatten_entities (topology product)) d e = None ->
       flattened_tabulate product tab order points (Some (d, e)) = Err KeyError).
Proof.
  intros K product tab order points. unfold flattened_tabulate. split.
  - intros d e pd pe ->. reflexivity.
  - intros d e H. destruct (ulookup _ d e) as [[pd pe]|] eqn:E; auto. exfalso.
    pose proof (good_cell product) as G. destruct (flatten_unflatten (topology product)) as (H1 & _ & H3 & _).
    + eapply good_proper; eauto.
    + destruct G as (_ & G2 & _). intros d' es Hin. rewrite (G2 d' es Hin). apply SSorted_seq.
    + destruct (H3 d e pd pe E) as (_ & v & Hv).
      assert (flookup (flatten_entities (topology product)) d e = Some v) by (apply H1; eauto). congruence.
Qed.
Print Assumptions C15_flattened_tabulation.

Example C14_flattened_nonvacuous :
  let I := UFCInterval in
  let p2 := [(DI 0, [(0, [0]); (1, [1])]); (DI 1, [(0, [2])])] in
  same_skeleton p2 (topology I) /\
  same_skeleton (tpe_entity_ids 3 p2 p2) (topology (TensorProductCell [I; I])) /\
  flookup (flattened_entity_ids (tpe_entity_ids 3 p2 p2)) 1 2 = Some [6] /\
  ulookup (compute_unflattening_map (topology (TensorProductCell [I; I]))) 1 2 = Some (DT [DI 1; DI 0], 0).
Proof. repeat split; reflexivity. Qed.
