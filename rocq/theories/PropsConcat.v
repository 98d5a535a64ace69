(** C07, C08, C09, C36: mixed, enriched and nodally enriched elements. *)
From Coq Require Import Permutation QArith Qcanon.
From Verif Require Import Base ModelIndex ModelCell ModelArray ModelConcat SpecCell SpecCart SpecConcat
  ProofsCell ProofsTopo ProofsArray ProofsConcat ProofsIds ProofsMerge.
Local Open Scope nat_scope.

(** ** C07 *)
Definition dims {F} (els : list (dual F)) : list nat := map (fun e => length (d_nodes e)) els.

Lemma partitions_bound ids n d e k : proper_dict ids -> partitions ids n -> In k (dofs_on ids (d, e)) -> k < n.
Proof.
  intros Hp H Hk. unfold partitions in H. rewrite all_dofs_perm with (L := dkeys ids) in H; auto using dkeys_NoDup.
  - assert (Hi : In k (flat_map (dofs_on ids) (dkeys ids))).
    { apply in_flat_map. exists (d, e). split; auto. apply in_dkeys; auto. simpl.
      unfold dofs_on in Hk; simpl in Hk. destruct (lookup ids d e); [discriminate|destruct Hk]. }
    apply (Permutation_in _ H) in Hi. apply in_seq in Hi. lia.
  - intros x. apply in_dkeys; auto.
  - intros x. apply in_dkeys; auto.
Qed.

Lemma nth_error_concat_block {A B} (f : A -> list B) l : forall i a k, nth_error l i = Some a -> k < length (f a) ->
  nth_error (flat_map f l) (block_start (map (fun x => length (f x)) l) i + k) = nth_error (f a) k.
Proof.
  induction l as [|a l IH]; intros [|i] b k H Hk; try discriminate; simpl in H.
  - inversion H; subst. unfold block_start; simpl. apply nth_error_app1; auto.
  - cbn [map flat_map]. rewrite block_start_cons, nth_error_app2 by lia.
    replace (length (f a) + block_start (map (fun x => length (f x)) l) i + k - length (f a))
      with (block_start (map (fun x => length (f x)) l) i + k) by lia. apply IH; auto.
Qed.

Lemma in_concatenated (els : list (nat * dict (list nat))) x i e k :
  Forall (fun e => forall k, In k (dofs_on (snd e) x) -> k < fst e) els ->
  nth_error els i = Some e -> k < fst e ->
  (In (block_start (map fst els) i + k) (concatenated els x) <-> In k (dofs_on (snd e) x)).
Proof.
  intros Hf Hi Hk. unfold concatenated. rewrite in_flat_map. split.
  - intros (i' & Hi' & H). apply in_seq in Hi'. apply in_map_iff in H as (k' & E & H).
    destruct (nth_error els i') as [e'|] eqn:E'; [|apply nth_error_None in E'; lia].
    rewrite (nth_error_nth _ _ _ E') in H.
    assert (Hk' : k' < fst e') by (rewrite Forall_forall in Hf; apply (Hf e'); auto; eapply nth_error_In; eauto).
    assert (G : forall (els : list (nat * dict (list nat))) i i' e e', nth_error els i = Some e -> nth_error els i' = Some e' -> k < fst e -> k' < fst e' ->
      block_start (map fst els) i' + k' = block_start (map fst els) i + k -> (e = e' /\ k = k') : Prop).
    { clear. intros els. revert k k'. induction els as [|[n ids] els IH]; intros k k' [|i] [|i'] e e' H H' Hk Hk' E; try discriminate; simpl in H, H'.
      - inversion H; inversion H'; subst. unfold block_start in E; simpl in E. split; auto; lia.
      - inversion H; subst. cbn [map fst] in E. rewrite block_start_cons in E. unfold block_start in E at 2. simpl in *. lia.
      - inversion H'; subst. cbn [map fst] in E. rewrite block_start_cons in E. unfold block_start in E at 1. simpl in *. lia.
      - cbn [map fst] in E. rewrite !block_start_cons in E. eapply IH; eauto. lia. }
    destruct (G els i i' e e' Hi E' Hk Hk' E) as [-> ->]. exact H.
  - intros H. exists i. split; [apply in_seq; split; [lia|]; simpl; apply nth_error_Some; congruence|].
    apply in_map_iff. exists k. split; auto. rewrite (nth_error_nth _ _ _ Hi). exact H.
Qed.

(** For every list of constituents on a common topology: the construction
    succeeds, keeps exactly the entities of the cell, concatenates the
    constituents' dofs on each entity with the cumulative offsets, and if each
    constituent numbers each of its dofs exactly once so does the result; dof
    [start_i + k] is node [k] of constituent [i], on the same entity. *)
Theorem C07_concatenated_numbering :
  forall (F : Type) (t : topo) (els : list (dual F)),
    proper_dict t ->
    Forall (fun e => proper_dict (d_ids e) /\ same_entities (d_ids e) t) els ->
    exists r, concat_dual t els = Ok r /\ proper_dict (d_ids r) /\ same_entities (d_ids r) t /\
      length (d_nodes r) = nsum (dims els) /\
      (forall d e, lookup t d e <> None ->
         lookup (d_ids r) d e = Some (concatenated (map numbering els) (d, e))) /\
      (forall i e k, nth_error els i = Some e -> k < length (d_nodes e) ->
         nth_error (d_nodes r) (block_start (dims els) i + k) = nth_error (d_nodes e) k) /\
      (Forall (fun e => partitions (d_ids e) (length (d_nodes e))) els ->
         partitions (d_ids r) (length (d_nodes r)) /\
         forall i e k d en, nth_error els i = Some e -> k < length (d_nodes e) ->
           (In (block_start (dims els) i + k) (dofs_on (d_ids r) (d, en)) <-> In k (dofs_on (d_ids e) (d, en)))).
Proof.
  intros F t els Ht Hf. unfold concat_dual.
  destruct (concatenate_ok t (map numbering els) Ht) as (ids & E & P & S & L & Part).
  { apply Forall_map. exact Hf. }
  rewrite E. eexists. split; [reflexivity|]. cbn [d_ids d_nodes]. split; auto. split; auto.
  assert (Hd : map fst (map numbering els) = dims els) by (rewrite map_map; reflexivity).
  assert (Hl : length (flat_map d_nodes els) = nsum (dims els)).
  { clear. induction els as [|e els IH]; simpl; auto. rewrite app_length, IH. reflexivity. }
  split; auto. split; auto. split.
  { intros i e k H Hk. apply nth_error_concat_block; auto. }
  intros Hpart. split.
  { rewrite Hl, <- Hd. apply Part. apply Forall_map. exact Hpart. }
  intros i e k d en H Hk.
  destruct (lookup t d en) as [v|] eqn:Et.
  - replace (dofs_on ids (d, en)) with (concatenated (map numbering els) (d, en)).
    + rewrite <- Hd. apply (in_concatenated _ (d, en) i (numbering e) k); auto.
      * apply Forall_map. rewrite Forall_forall in *. intros x Hx k' Hk'. simpl in *.
        eapply partitions_bound; [apply (Hf x Hx)|apply (Hpart x Hx)|exact Hk'].
      * rewrite nth_error_map, H. reflexivity.
    + unfold dofs_on; simpl. rewrite L by congruence. reflexivity.
  - assert (Hn : lookup ids d en = None) by (apply S; auto).
    rewrite Forall_forall in Hf. destruct (Hf e (nth_error_In _ _ H)) as [_ Se].
    assert (Hn' : lookup (d_ids e) d en = None) by (apply Se; auto).
    unfold dofs_on; simpl. rewrite Hn, Hn'. simpl. tauto.
Qed.
Print Assumptions C07_concatenated_numbering.

(** a constituent with an entity the cell does not have is refused *)
Theorem C07_unknown_entity_refused :
  forall (F : Type) (t : topo) (e : dual F) (els : list (dual F)) d en,
    proper_dict t -> proper_dict (d_ids e) -> lookup t d en = None -> lookup (d_ids e) d en <> None ->
    concat_dual t (e :: els) = Err KeyError.
Proof.
  intros F t e els d en Ht Hp Hn He. unfold concat_dual, concatenate_entity_dofs. cbn [map numbering add_elements].
  destruct (init_dict t Ht) as [Pz Lz].
  destruct (lookup (d_ids e) d en) as [l|] eqn:E; [|congruence].
  rewrite (add_dofs_keyerror 0 _ _ d en l); auto.
  - apply in_flatten_dict; auto.
  - rewrite Lz, Hn. reflexivity.
Qed.
Print Assumptions C07_unknown_entity_refused.

(** the nodally enriched element uses the same numbering *)
Theorem C07_nodal_enriched_numbering :
  forall (F : Type) (t : topo) (els : list (dual F)),
    proper_dict t -> els <> [] ->
    Forall (fun e => proper_dict (d_ids e) /\ same_entities (d_ids e) t) els ->
    Forall (fun e => partitions (d_ids e) (length (d_nodes e))) els ->
    let r := nodal_enriched_dual els in
    same_entities (d_ids r) t /\
    partitions (d_ids r) (length (d_nodes r)) /\
    (forall d e, lookup t d e <> None ->
       lookup (d_ids r) d e = Some (concatenated (map numbering els) (d, e))) /\
    (forall i e k, nth_error els i = Some e -> k < length (d_nodes e) ->
       nth_error (d_nodes r) (block_start (dims els) i + k) = nth_error (d_nodes e) k) /\
    (forall i e k d en, nth_error els i = Some e -> k < length (d_nodes e) ->
       (In (block_start (dims els) i + k) (dofs_on (d_ids r) (d, en)) <-> In k (dofs_on (d_ids e) (d, en)))).
Proof.
  intros F t els Ht Hne Hf Hpart r.
  destruct (merge_ids_ok (map numbering els)) as (P & D & L & Part).
  { apply Forall_map. rewrite Forall_forall in *. intros e He. apply (Hf e He). }
  assert (Hd : map fst (map numbering els) = dims els) by (rewrite map_map; reflexivity).
  assert (Hl : length (flat_map d_nodes els) = nsum (dims els)).
  { clear. induction els as [|e els IH]; simpl; auto. rewrite app_length, IH. reflexivity. }
  assert (S : same_entities (merge_entity_ids (map numbering els)) t).
  { intros d e. split; intros H.
    - destruct (lookup t d e) eqn:E; auto. destruct els as [|e0 els0]; [congruence|].
      exfalso. assert (HD : lookup (merge_entity_ids (map numbering (e0 :: els0))) d e <> None); [|congruence].
      apply D. exists (numbering e0). split; [simpl; auto|]. inversion Hf as [|? ? [_ S0] _]; subst.
      simpl. intros Hn. apply S0 in Hn. congruence.
    - destruct (lookup (merge_entity_ids (map numbering els)) d e) eqn:E; auto. exfalso.
      assert (HD : lookup (merge_entity_ids (map numbering els)) d e <> None) by congruence.
      apply D in HD as (x & Hx & Hx'). apply in_map_iff in Hx as (e1 & <- & Hx). rewrite Forall_forall in Hf.
      apply Hx'. apply (proj2 (Hf e1 Hx)). auto. }
  unfold r, nodal_enriched_dual; cbn [d_ids d_nodes]. split; auto. split.
  { rewrite Hl, <- Hd. apply (Part t); auto; apply Forall_map; auto. rewrite Forall_forall in *. intros e He. apply (Hf e He). }
  assert (LL : forall d e, lookup t d e <> None ->
       lookup (merge_entity_ids (map numbering els)) d e = Some (concatenated (map numbering els) (d, e))).
  { intros d e H. destruct (lookup (merge_entity_ids (map numbering els)) d e) eqn:E.
    - apply L in E. congruence.
    - apply S in E. congruence. }
  split; auto. split.
  { intros i e k H Hk. apply nth_error_concat_block; auto. }
  intros i e k d en H Hk.
  destruct (lookup t d en) as [v|] eqn:Et.
  - replace (dofs_on (merge_entity_ids (map numbering els)) (d, en)) with (concatenated (map numbering els) (d, en)).
    + rewrite <- Hd. apply (in_concatenated _ (d, en) i (numbering e) k); auto.
      * apply Forall_map. rewrite Forall_forall in *. intros x Hx k' Hk'. simpl in *.
        eapply partitions_bound; [apply (Hf x Hx)|apply (Hpart x Hx)|exact Hk'].
      * rewrite nth_error_map, H. reflexivity.
    + unfold dofs_on; simpl. rewrite LL by congruence. reflexivity.
  - assert (Hn : lookup (merge_entity_ids (map numbering els)) d en = None) by (apply S; auto).
    rewrite Forall_forall in Hf. destruct (Hf e (nth_error_In _ _ H)) as [_ Se].
    assert (Hn' : lookup (d_ids e) d en = None) by (apply Se; auto).
    unfold dofs_on; simpl. rewrite Hn, Hn'. simpl. tauto.
Qed.
Print Assumptions C07_nodal_enriched_numbering.

Definition p1_line : dual nat := mkDual [10; 11] [(DI 0, [(0, [0]); (1, [1])]); (DI 1, [(0, [])])].
Definition b2_line : dual nat := mkDual [20] [(DI 0, [(0, []); (1, [])]); (DI 1, [(0, [0])])].
Example C07_nonvacuous :
  concat_dual topo_line [p1_line; b2_line; p1_line] =
    Ok (mkDual [10; 11; 20; 10; 11] [(DI 0, [(0, [0; 3]); (1, [1; 4])]); (DI 1, [(0, [2])])]) /\
  nodal_enriched_dual [p1_line; b2_line; p1_line] =
    mkDual [10; 11; 20; 10; 11] [(DI 0, [(0, [0; 3]); (1, [1; 4])]); (DI 1, [(0, [2])])] /\
  partitions (d_ids p1_line) 2 /\ partitions (d_ids b2_line) 1 /\
  same_entities (d_ids p1_line) topo_line /\ same_entities (d_ids b2_line) topo_line /\
  proper_dict (d_ids p1_line) /\ proper_dict (d_ids b2_line) /\ proper_dict topo_line.
Proof.
  assert (S : forall l1 l2 l3 : list nat, same_entities [(DI 0, [(0, l1); (1, l2)]); (DI 1, [(0, l3)])] topo_line).
  { intros l1 l2 l3 d e. unfold lookup; simpl. destruct (deqb d (DI 0)); [|destruct (deqb d (DI 1))];
    destruct e as [|[|e]]; simpl; split; auto; discriminate. }
  assert (P : forall l1 l2 l3 : list nat, proper_dict [(DI 0, [(0, l1); (1, l2)]); (DI 1, [(0, l3)])]).
  { intros. split; [repeat constructor; simpl; intuition discriminate|].
    intros d es [H|[H|[]]]; inversion H; subst; repeat constructor; simpl; intuition discriminate. }
  split; [reflexivity|]. split; [reflexivity|]. split; [apply Permutation_refl|]. split; [apply Permutation_refl|].
  split; [apply S|]. split; [apply S|]. split; [apply P|]. split; [apply P|]. apply P.
Qed.

(** ** C08 *)
Theorem C08_mixed_tabulation_block_diagonal :
  forall (K : Type) (zero : K) (els : list (@constituent K)) (npts : nat),
    Forall (well_shaped npts) els ->
    exists out, mixed_tabulate zero els npts = Ok out /\
      (forall d, tlookup d out <> None <-> exists e, In e els /\ tlookup d (c_table e) <> None) /\
      forall d arr, tlookup d out = Some arr ->
        ashape arr = [nsum (map c_dim els); nsum (map (fun e => nprod (c_vshape e)) els); npts] /\
        forall i e k p, nth_error els i = Some e -> k < c_dim e -> p < npts ->
          let row := block_start (map c_dim els) i + k in
          let c0 := block_start (map (fun e => nprod (c_vshape e)) els) i in
          (forall cidx, in_shape (c_vshape e) cidx ->
             aget arr [row; c0 + row_major (c_vshape e) cidx; p] =
             match tlookup d (c_table e) with Some t => aget t (k :: cidx ++ [p]) | None => zero end) /\
          (forall c, c < nsum (map (fun e => nprod (c_vshape e)) els) ->
             ~ (c0 <= c < c0 + nprod (c_vshape e)) -> aget arr [row; c; p] = zero).
Proof. intros. apply mixed_tabulate_spec; auto. Qed.
Print Assumptions C08_mixed_tabulation_block_diagonal.

Definition tabc (dim : nat) (vs : list nat) (npts base : nat) : @constituent nat :=
  {| c_dim := dim; c_vshape := vs;
     c_table := [([0; 0], mkArray (dim :: vs ++ [npts]) (fun idx => base + row_major (dim :: vs ++ [npts]) idx))] |}.
Lemma tabc_ok dim vs npts base : 0 < dim -> 0 < nprod vs -> well_shaped npts (tabc dim vs npts base).
Proof.
  intros H1 H2. split; auto. split; auto. split; [repeat constructor; simpl; tauto|].
  intros d t [H|[]]. inversion H; subst. reflexivity.
Qed.
Example C08_nonvacuous :
  Forall (well_shaped 2) [tabc 2 [2] 2 100; tabc 3 [] 2 200; tabc 1 [2; 2] 2 300] /\
  match mixed_tabulate 0 [tabc 2 [2] 2 100; tabc 3 [] 2 200; tabc 1 [2; 2] 2 300] 2 with
  | Ok [([0; 0], a)] => map (aget a) [[0; 1; 0]; [4; 2; 1]; [5; 6; 1]; [4; 0; 1]] = [102; 205; 307; 0]
  | _ => False
  end.
Proof. split; [repeat constructor; try apply tabc_ok; simpl; lia || (intros; auto)|reflexivity]. Qed.

(** ** C09 *)
(** scalar and vector valued constituents; the other value shapes are in
    PropsEnriched.v *)
Theorem C09_enriched_tabulation_stacks :
  forall (K : Type) (zero : K) (els : list (@constituent K)) (vs : list nat) (npts : nat),
    (vs = [] \/ exists n, vs = [n] /\ n <> 1) ->
    Forall (fun e => c_vshape e = vs) els -> Forall (well_shaped npts) els ->
    exists out, enriched_tabulate zero els vs npts = Ok out /\
      (forall d, tlookup d out <> None <-> exists e, In e els /\ tlookup d (c_table e) <> None) /\
      forall d arr, tlookup d out = Some arr ->
        ashape arr = nsum (map c_dim els) :: vs ++ [npts] /\
        forall i e k idx, nth_error els i = Some e -> k < c_dim e -> in_shape (vs ++ [npts]) idx ->
          aget arr (block_start (map c_dim els) i + k :: idx) =
          match tlookup d (c_table e) with Some t => aget t (k :: idx) | None => zero end.
Proof. intros. apply enriched_tabulate_spec; auto. Qed.
Print Assumptions C09_enriched_tabulation_stacks.

(** Tensor valued constituents can never be tabulated: the table is allocated
    with the value components flattened, and the constituents' tables are not
    reshaped to it, so numpy refuses the assignment. *)
Theorem C09_tensor_valued_tabulation_refuted :
  forall (K : Type) (zero : K) (e : @constituent K) (els : list (@constituent K)) (a b npts : nat),
    2 <= a -> 2 <= b -> c_vshape e = [a; b] -> well_shaped npts e -> c_table e <> [] ->
    enriched_tabulate zero (e :: els) [a; b] npts = Err ValueError.
Proof.
  intros K zero e els a b npts Ha Hb Hv (H1 & H2 & H3 & H4) Hne. unfold enriched_tabulate.
  assert (E : Nat.eqb (nprod [a; b]) 1 = false).
  { apply Nat.eqb_neq. simpl. rewrite Nat.mul_1_r. nia. }
  rewrite E. cbn [enriched_elements]. destruct (c_table e) as [|[d t] tab]; [congruence|].
  cbn [enriched_keys tlookup]. unfold assign_slice, broadcast.
  rewrite (H4 d t (or_introl eq_refl)), Hv. cbn [zeros ashape slice_shape app].
  unfold bcast_shape. cbn [length Nat.sub strip_ones]. rewrite Nat.add_comm, Nat.add_sub.
  destruct (c_dim e) as [|[|n]]; try reflexivity. cbn [strip_ones length Nat.sub repeat app].
  unfold bcast_ok. cbn [combine forallb]. destruct a as [|[|a]]; try lia. cbn [Nat.eqb orb andb]. reflexivity.
Qed.
Print Assumptions C09_tensor_valued_tabulation_refuted.

(** Construction succeeds exactly when there is at least one dof mapping and all
    cells, mappings and value shapes agree; otherwise ValueError. *)
Theorem C09_construction_checks :
  forall (C M : Type) (decC : forall x y : C, {x = y} + {x <> y}) (decM : forall x y : M, {x = y} + {x <> y})
    (els : list (C * list M * list nat)),
    (enriched_checks decC decM els = Ok tt <->
       (exists e m, In e els /\ In m (snd (fst e))) /\
       (forall e e', In e els -> In e' els -> fst (fst e) = fst (fst e') /\ snd e = snd e') /\
       (forall e e' m m', In e els -> In e' els -> In m (snd (fst e)) -> In m' (snd (fst e')) -> m = m')) /\
    (enriched_checks decC decM els <> Ok tt -> enriched_checks decC decM els = Err ValueError).
Proof.
  intros C M decC decM els.
  assert (AS : forall A (dec : forall x y : A, {x = y} + {x <> y}) l,
    all_same dec l = true <-> forall x y, In x l -> In y l -> x = y).
  { intros A dec l. unfold all_same. destruct l as [|x l]; [split; auto; intros _ x y []|].
    rewrite forallb_forall. split.
    - intros H. assert (G : forall y, In y (x :: l) -> x = y).
      { intros y [->|Hy]; auto. specialize (H y Hy). destruct (dec x y); [auto|discriminate]. }
      intros y z Hy Hz. rewrite <- (G y Hy). auto.
    - intros H y Hy. destruct (dec x y) as [|n]; auto. exfalso. apply n, H; simpl; auto. }
  unfold enriched_checks.
  destruct (all_same decC (map (fun e => fst (fst e)) els)) eqn:E1; simpl;
  [destruct (all_same decM (flat_map (fun e => snd (fst e)) els)) eqn:E2; simpl;
  [destruct (all_same (list_eq_dec Nat.eq_dec) (map snd els)) eqn:E3; simpl|]|].
  - rewrite AS in E1, E2, E3. destruct els as [|e0 els0]; [split; auto; split; [discriminate|]; intros ((e & m & [] & _) & _)|].
    destruct (flat_map (fun e => snd (fst e)) (e0 :: els0)) as [|m ms] eqn:E4.
    + split; auto. split; [discriminate|]. intros ((e & m & He & Hm) & _).
      assert (Hi : In m (flat_map (fun e => snd (fst e)) (e0 :: els0))) by (apply in_flat_map; eauto).
      rewrite E4 in Hi. destruct Hi.
    + split; [|congruence]. split; auto. intros _. split; [|split].
      * assert (Hi : In m (flat_map (fun e => snd (fst e)) (e0 :: els0))) by (rewrite E4; simpl; auto).
        apply in_flat_map in Hi as (e & He & Hm). eauto.
      * intros e e' He He'. split.
        -- apply E1; apply in_map_iff; eauto.
        -- apply E3; apply in_map_iff; eauto.
      * rewrite <- E4 in E2. intros e e' m1 m2 He He' Hm Hm'. apply E2; apply in_flat_map; eauto.
  - split; auto. split; [discriminate|]. intros (_ & H & _). assert (T : all_same (list_eq_dec Nat.eq_dec) (map snd els) = true); [|congruence].
    apply AS. intros x y Hx Hy. apply in_map_iff in Hx as (e & <- & He), Hy as (e' & <- & He'). apply (H e e'); auto.
  - split; auto. split; [discriminate|]. intros (_ & _ & H). assert (T : all_same decM (flat_map (fun e => snd (fst e)) els) = true); [|congruence].
    apply AS. intros x y Hx Hy. apply in_flat_map in Hx as (e & He & Hx), Hy as (e' & He' & Hy). apply (H e e'); auto.
  - split; auto. split; [discriminate|]. intros (_ & H & _). assert (T : all_same decC (map (fun e => fst (fst e)) els) = true); [|congruence].
    apply AS. intros x y Hx Hy. apply in_map_iff in Hx as (e & <- & He), Hy as (e' & <- & He'). apply (H e e'); auto.
Qed.
Print Assumptions C09_construction_checks.
Example C09_nonvacuous :
  Forall (well_shaped 2) [tabc 2 [3] 2 100; tabc 4 [3] 2 200] /\
  match enriched_tabulate 0 [tabc 2 [3] 2 100; tabc 4 [3] 2 200] [3] 2 with
  | Ok [([0; 0], a)] => map (aget a) [[0; 1; 0]; [2; 0; 0]; [5; 2; 1]] = [102; 200; 223]
  | _ => False
  end /\
  enriched_tabulate 0 [tabc 2 [2; 2] 2 100] [2; 2] 2 = Err ValueError /\
  enriched_checks Nat.eq_dec Nat.eq_dec [(0, [5; 5], [2]); (0, [5], [2])] = Ok tt /\
  enriched_checks Nat.eq_dec Nat.eq_dec [(0, [5; 5], [2]); (0, [6], [2])] = Err ValueError.
Proof. split; [repeat constructor; try apply tabc_ok; simpl; lia || (intros; auto)|]. repeat split; reflexivity. Qed.

(** ** C36 *)
Section Zero.
  Context {K : fieldT}.
  Add Field Kf : (f_th K).
  Lemma fmul_0_l (x : K) : fmul f0 x = f0.
  Proof. ring. Qed.
End Zero.
(** Zero padding: row [start_i + k] of the merged coefficients represents the
    same function as row [k] of constituent [i], for any expansion functions
    with values [phi]. *)
Theorem C36_coefficients_padded :
  forall (K : fieldT) (cs : list (array K)) (vs : list nat),
    cs <> [] -> Forall (fun c => exists m n, ashape c = m :: vs ++ [n]) cs ->
    exists r, merge_coeffs f0 cs = Ok r /\
      (let members := map (fun c => hd 0 (ashape c)) cs in
       let N := list_max (map (fun c => last (ashape c) 0) cs) in
       ashape r = nsum members :: vs ++ [N] /\
      forall i c m n k cidx (phi : nat -> K), nth_error cs i = Some c -> ashape c = m :: vs ++ [n] -> k < m ->
         fsum (map (fun j => fmul (aget r (block_start members i + k :: cidx ++ [j])) (phi j)) (seq 0 N)) =
         fsum (map (fun j => fmul (aget c (k :: cidx ++ [j])) (phi j)) (seq 0 n))).
Proof.
  intros K cs vs Hne Hf. destruct (merge_coeffs_spec f0 cs vs Hne Hf) as (r & E & S & A).
  exists r. split; auto. cbv zeta. split; [exact S|].
  intros i c m n k cidx phi Hi Hs Hk. destruct (coeff_parts c m vs n Hs) as (P1 & P2 & _).
  rewrite <- (fsum_pad (fun j => fmul (aget c (k :: cidx ++ [j])) (phi j)) n (list_max (map (fun c => last (ashape c) 0) cs))).
  - f_equal. apply map_ext. intros j. pose proof (A i c k cidx j Hi ltac:(lia)) as A'. unfold lead in A'. rewrite A', P2.
    destruct (Nat.ltb j n); auto. apply fmul_0_l.
  - rewrite <- P2. assert (Hm : Forall (fun x => x <= list_max (map (fun c => last (ashape c) 0) cs)) (map (fun c => last (ashape c) 0) cs)).
    { apply list_max_le; auto. }
    rewrite Forall_forall in Hm. apply Hm. apply in_map_iff. exists c. split; auto. eapply nth_error_In; eauto.
Qed.
Print Assumptions C36_coefficients_padded.

(** disagreeing value shapes are refused *)
Theorem C36_value_shapes_checked :
  forall (K : fieldT) (cs : list (array K)) c c' m vs n m' vs' n',
    In c cs -> In c' cs -> ashape c = m :: vs ++ [n] -> ashape c' = m' :: vs' ++ [n'] -> vs <> vs' ->
    merge_coeffs (@f0 K) cs = Err AssertionError.
Proof.
  intros K cs c c' m vs n m' vs' n' H H' S S' Hne. apply (merge_coeffs_refuses f0 cs c c'); auto.
  destruct (coeff_parts _ _ _ _ S) as (_ & _ & ->), (coeff_parts _ _ _ _ S') as (_ & _ & ->). auto.
Qed.
Print Assumptions C36_value_shapes_checked.

(** Derivative matrices: either one of the largest constituents' matrices is
    used and every constituent's matrices agree (up to [close]) with its leading
    block, or construction is refused because some entry disagrees with a
    largest constituent. *)
Theorem C36_derivative_matrices_merged :
  forall (K : Type) (close : K -> K -> bool) (dss : list (list (list (list K)))), dss <> [] ->
    (exists big, merge_dmats close dss = Ok big /\ In big dss /\
       (forall ds, In ds dss -> length (hd [] ds) <= length (hd [] big)) /\
       (forall ds x d b i j u v, In ds dss -> nth_error ds x = Some d -> nth_error big x = Some b ->
          (exists r, nth_error d i = Some r /\ nth_error r j = Some u) ->
          (exists r, nth_error b i = Some r /\ nth_error r j = Some v) -> close u v = true)) \/
    (merge_dmats close dss = Err AssertionError /\
       exists big ds, In big dss /\ In ds dss /\ (forall ds', In ds' dss -> length (hd [] ds') <= length (hd [] big)) /\
         exists x d b i j u v, nth_error ds x = Some d /\ nth_error big x = Some b /\
          (exists r, nth_error d i = Some r /\ nth_error r j = Some u) /\
          (exists r, nth_error b i = Some r /\ nth_error r j = Some v) /\ close u v = false).
Proof. intros. apply merge_dmats_spec; auto. Qed.
Print Assumptions C36_derivative_matrices_merged.

Example C36_nonvacuous :
  let c1 := mkArray [2; 2; 3] (fun idx => Q2Qc (inject_Z (Z.of_nat (1 + row_major [2; 2; 3] idx)))) in
  let c2 := mkArray [1; 2; 5] (fun idx => Q2Qc (inject_Z (Z.of_nat (50 + row_major [1; 2; 5] idx)))) in
  match @merge_coeffs QcField 0%Qc [c1; c2] with
  | Ok r => ashape r = [3; 2; 5] /\ aget r [1; 1; 2] = Q2Qc 12 /\ aget r [1; 1; 3] = 0%Qc /\ aget r [2; 1; 4] = Q2Qc 59
  | Err _ => False
  end /\
  merge_dmats Nat.eqb [[[[0; 1]; [0; 0]]]; [[[0; 1; 2]; [0; 0; 3]; [0; 0; 0]]]; [[[0]]]]
    = Ok [[[0; 1; 2]; [0; 0; 3]; [0; 0; 0]]] /\
  merge_dmats Nat.eqb [[[[0; 1]; [0; 0]]]; [[[0; 2; 2]; [0; 0; 3]; [0; 0; 0]]]] = Err AssertionError.
Proof. repeat split; reflexivity. Qed.
