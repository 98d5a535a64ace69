(** C14, C15: tensor product elements. *)
From Coq Require Import Permutation QArith Qcanon.
From Verif Require Import Base ModelIndex ModelCell ModelArray ModelConcat ModelTPE SpecIndex SpecCell SpecCart SpecConcat
  ProofsIndex ProofsCell ProofsCart ProofsTopo ProofsArray ProofsConcat ProofsIds ProofsTP ProofsTPE.
Local Open Scope nat_scope.

(** ** C14 *)
(** Entities of dimension [(dA, dB)] are the pairs of entities in row-major
    order (of the insertion order of the factors' dictionaries); the dofs of a
    pair are [x * dim B + y]. *)
Theorem C14_product_numbering :
  forall (A B : dict (list nat)) (dimB : nat), proper_dict A -> proper_dict B ->
    let r := tpe_entity_ids dimB A B in
    proper_dict r /\
    (forall D k, lookup r D k <> None -> exists dA dB, D = DT [dA; dB]) /\
    (forall dA dB esA esB, dlookup dA A = Some esA -> dlookup dB B = Some esB ->
       (forall k, lookup r (DT [dA; dB]) k <> None <-> k < length esA * length esB) /\
       forall i j eA lA eB lB, nth_error esA i = Some (eA, lA) -> nth_error esB j = Some (eB, lB) ->
         exists l, lookup r (DT [dA; dB]) (row_major [length esA; length esB] [i; j]) = Some l /\
           length l = length lA * length lB /\
           (forall a b x y, nth_error lA a = Some x -> nth_error lB b = Some y ->
              nth_error l (a * length lB + b) = Some (x * dimB + y)) /\
           (forall z, In z l <-> exists x y, In x lA /\ In y lB /\ z = x * dimB + y)).
Proof.
  intros A B dimB [NA _] [NB _] r. split; [apply tpe_ids_proper; auto|]. split.
  { intros D k H. unfold lookup in H. destruct (dlookup D r) as [es|] eqn:E; [|congruence].
    apply dlookup_in in E; [|apply (tpe_ids_proper dimB A B NA NB)].
    assert (Hk : In D (keys r)) by (apply in_map_iff; exists (D, es); auto).
    unfold r in Hk. rewrite tpe_ids_keys in Hk. apply in_flat_map in Hk as (a & _ & Hk).
    apply in_map_iff in Hk as (b & <- & _). eauto. }
  intros dA dB esA esB HA HB. pose proof (tpe_ids_dlookup dimB A B dA dB esA esB NA NB HA HB) as E.
  unfold lookup, r. rewrite E. split.
  - intros k. rewrite elookup_enumerate, nth_error_Some, tpe_ents_length. tauto.
  - intros i j eA lA eB lB Hi Hj. exists (pair_dofs dimB lA lB). split.
    + rewrite elookup_enumerate. eapply tpe_ents_nth; eauto.
    + split; [unfold pair_dofs; apply flat_map_const_length; intros; apply map_length|]. split.
      * intros a b x y Ha Hb. unfold pair_dofs.
        assert (b < length lB) by (apply nth_error_Some; congruence).
        rewrite (nth_flat_map _ (length lB) lA a b x); auto; [rewrite nth_error_map, Hb; auto|intros; apply map_length].
      * intros z. unfold pair_dofs. rewrite in_flat_map. split.
        -- intros (x & Hx & H). apply in_map_iff in H as (y & <- & Hy). eauto.
        -- intros (x & y & Hx & Hy & ->). exists x. split; auto. apply in_map_iff. eauto.
Qed.
Print Assumptions C14_product_numbering.

(** each dof once *)
Theorem C14_product_partition :
  forall (A B : dict (list nat)) nA nB, partitions A nA -> partitions B nB ->
    partitions (tpe_entity_ids nB A B) (nA * nB).
Proof. intros. apply tpe_partitions; auto. Qed.
Print Assumptions C14_product_partition.

(** ... on exactly the entities of the product cell, the number of the pair
    [(i, j)] being the one the cell gives to the product of entities [i] and
    [j] (C16).  The factors' dictionaries list the cell's entities in
    increasing order. *)
Theorem C14_agrees_with_cell_topology :
  forall (cA cB : cell) (A B : dict (list nat)) dimB,
    proper_dict A -> proper_dict B ->
    same_entities A (topology cA) -> same_entities B (topology cB) ->
    (forall d es, In (d, es) A -> es <> [] /\ keys es = seq 0 (length es)) ->
    (forall d es, In (d, es) B -> es <> [] /\ keys es = seq 0 (length es)) ->
    same_entities (tpe_entity_ids dimB A B) (topology (TensorProductCell [cA; cB])) /\
    forall dA dB i j lA lB, lookup A dA i = Some lA -> lookup B dB j = Some lB ->
      let nA := length (option_list (dlookup dA (topology cA))) in
      let nB := length (option_list (dlookup dB (topology cB))) in
      exists l, lookup (tpe_entity_ids dimB A B) (DT [dA; dB]) (row_major [nA; nB] [i; j]) = Some l /\
        forall z, In z l <-> exists x y, In x lA /\ In y lB /\ z = x * dimB + y.
Proof.
  intros cA cB A B dimB PA PB SA SB HA HB.
  assert (Len : forall c (X : dict (list nat)), proper_dict X -> same_entities X (topology c) ->
     (forall d es, In (d, es) X -> es <> [] /\ keys es = seq 0 (length es)) ->
     forall d es, dlookup d X = Some es -> exists es', dlookup d (topology c) = Some es' /\ length es' = length es).
  { intros c X PX SX HX d es E. pose proof E as E'. apply dlookup_in in E'; [|apply PX]. destruct (HX d es E') as [Hne Hk].
    pose proof (good_cell c) as G. destruct G as (G1 & G2 & _).
    assert (L : forall k, lookup X d k <> None <-> k < length es).
    { intros k. unfold lookup. rewrite E, (enum_ok_lookup es k Hk), nth_error_Some, map_length. tauto. }
    destruct (dlookup d (topology c)) as [es'|] eqn:Et.
    - exists es'. split; auto. pose proof Et as Et'. apply dlookup_in in Et'; auto. pose proof (G2 d es' Et') as Hk'.
      assert (L' : forall k, lookup (topology c) d k <> None <-> k < length es').
      { intros k. unfold lookup. rewrite Et, (enum_ok_lookup es' k Hk'), nth_error_Some, map_length. tauto. }
      assert (LL : forall k, k < length es <-> k < length es').
      { intros k. rewrite <- L, <- L'. split; intros H Hn; apply H, SX; auto. }
      destruct (Nat.lt_total (length es) (length es')) as [H|[H|H]]; auto.
      + apply (LL (length es)) in H. lia.
      + apply (LL (length es')) in H. lia.
    - exfalso. assert (H : lookup X d 0 <> None) by (apply L; destruct es; [congruence|simpl; lia]).
      apply H, SX. unfold lookup. rewrite Et. reflexivity. }
  assert (Rev : forall c (X : dict (list nat)), proper_dict X -> same_entities X (topology c) ->
     forall d k, lookup (topology c) d k <> None -> exists es, dlookup d X = Some es).
  { intros c X PX SX d k H. destruct (dlookup d X) as [es|] eqn:E; eauto. exfalso. apply H, SX.
    unfold lookup. rewrite E. reflexivity. }
  destruct (C14_product_numbering A B dimB PA PB) as (Pr & Dr & Nr).
  set (r := tpe_entity_ids dimB A B) in *.
  assert (Cnt : forall dA dB esA esB, dlookup dA A = Some esA -> dlookup dB B = Some esB ->
     forall k, lookup r (DT [dA; dB]) k <> None <-> lookup (topology (TensorProductCell [cA; cB])) (DT [dA; dB]) k <> None).
  { intros dA dB esA esB EA EB k. destruct (Nr dA dB esA esB EA EB) as [N _].
    destruct (Len cA A PA SA HA dA esA EA) as (esA' & EA' & LA). destruct (Len cB B PB SB HB dB esB EB) as (esB' & EB' & LB).
    destruct (tp_entity [cA; cB] [dA; dB]) as [T _].
    { repeat constructor.
      - apply dlookup_in in EA'; [|apply (good_cell cA)]. apply in_map_iff. exists (dA, esA'); auto.
      - apply dlookup_in in EB'; [|apply (good_cell cB)]. apply in_map_iff. exists (dB, esB'); auto. }
    rewrite T, N. cbn [combine map]. unfold nents. rewrite EA', EB'. simpl. rewrite LA, LB. lia. }
  split.
  - intros D k. split; intros H.
    + destruct (lookup (topology (TensorProductCell [cA; cB])) D k) as [v|] eqn:E; auto. exfalso.
      assert (Hk : In D (keys (topology (TensorProductCell [cA; cB])))).
      { unfold lookup in E. destruct (dlookup D _) as [es|] eqn:E'; [|discriminate].
        apply dlookup_in in E'; [|apply (good_cell (TensorProductCell [cA; cB]))]. apply in_map_iff. exists (D, es); auto. }
      apply tp_keys_cells in Hk as (dims & -> & Hd).
      inversion Hd as [|? dA ? ? InA Hd']; subst. inversion Hd' as [|? dB ? ? InB Hd'']; subst. inversion Hd''; subst.
      assert (Hn : lookup (topology (TensorProductCell [cA; cB])) (DT [dA; dB]) k <> None) by congruence.
      assert (KK : forall c d, In d (keys (topology c)) -> exists es, dlookup d (topology c) = Some es /\ (es <> [] -> exists e, lookup (topology c) d e <> None)).
      { intros c d Hin. apply in_map_iff in Hin as ([d' es] & E1 & Hin). simpl in E1; subst d'.
        apply dlookup_in in Hin; [|apply (good_cell c)]. exists es. split; auto. intros Hne. exists (fst (hd (0, []) es)).
        unfold lookup. rewrite Hin. destruct es as [|[e w] es]; [congruence|]. simpl. rewrite Nat.eqb_refl. discriminate. }
      destruct (KK cA dA InA) as (esA' & EA' & NA). destruct (KK cB dB InB) as (esB' & EB' & NB).
      destruct (tp_entity [cA; cB] [dA; dB]) as [T _]; [repeat constructor; auto|].
      pose proof (proj1 (T k) Hn) as Hlt. cbn [combine map] in Hlt. unfold nents in Hlt. rewrite EA', EB' in Hlt. simpl in Hlt.
      destruct (Rev cA A PA SA dA) with (k := fst (hd (0, []) esA')) as (esA & EA).
      { unfold lookup. rewrite EA'. destruct esA' as [|[e w] es]; [simpl in Hlt; lia|]. simpl. rewrite Nat.eqb_refl. discriminate. }
      destruct (Rev cB B PB SB dB) with (k := fst (hd (0, []) esB')) as (esB & EB).
      { unfold lookup. rewrite EB'. destruct esB' as [|[e w] es]; [simpl in Hlt; lia|]. simpl. rewrite Nat.eqb_refl. discriminate. }
      apply (Cnt dA dB esA esB EA EB k) in Hn. congruence.
    + destruct (lookup r D k) as [v|] eqn:E; auto. exfalso.
      destruct (Dr D k) as (dA & dB & ->); [congruence|].
      assert (Hex : exists esA esB, dlookup dA A = Some esA /\ dlookup dB B = Some esB).
      { unfold lookup in E. destruct (dlookup (DT [dA; dB]) r) as [es|] eqn:E'; [|discriminate].
        apply dlookup_in in E'; [|apply Pr].
        assert (Hk : In (DT [dA; dB]) (keys r)) by (apply in_map_iff; exists (DT [dA; dB], es); auto).
        unfold r in Hk. rewrite tpe_ids_keys in Hk. apply in_flat_map in Hk as (a & Ha & Hk).
        apply in_map_iff in Hk as (b & Eab & Hb). inversion Eab; subst.
        apply in_map_iff in Ha as ([a' esA] & Ea & Ha). apply in_map_iff in Hb as ([b' esB] & Eb & Hb). simpl in Ea, Eb. subst.
        exists esA, esB. split; apply dlookup_in; auto; [apply PA|apply PB]. }
      destruct Hex as (esA & esB & EA & EB).
      assert (Hn : lookup r (DT [dA; dB]) k <> None) by congruence.
      apply (Cnt dA dB esA esB EA EB k) in Hn. congruence.
  - intros dA dB i j lA lB LA LB.
    unfold lookup in LA, LB. destruct (dlookup dA A) as [esA|] eqn:EA; [|discriminate].
    destruct (dlookup dB B) as [esB|] eqn:EB; [|discriminate].
    destruct (Len cA A PA SA HA dA esA EA) as (esA' & EA' & HLA). destruct (Len cB B PB SB HB dB esB EB) as (esB' & EB' & HLB).
    rewrite EA', EB'. cbn [option_list]. rewrite HLA, HLB. cbv zeta.
    pose proof EA as IA. apply dlookup_in in IA; [|apply PA]. destruct (HA _ _ IA) as [_ KA].
    pose proof EB as IB. apply dlookup_in in IB; [|apply PB]. destruct (HB _ _ IB) as [_ KB].
    rewrite (enum_ok_lookup esA i KA) in LA. rewrite (enum_ok_lookup esB j KB) in LB.
    rewrite nth_error_map in LA, LB.
    destruct (nth_error esA i) as [[eA lA']|] eqn:NA; [|discriminate]. destruct (nth_error esB j) as [[eB lB']|] eqn:NB; [|discriminate].
    simpl in LA, LB. inversion LA; inversion LB; subst.
    destruct (Nr dA dB esA esB EA EB) as [_ N]. destruct (N i j eA lA eB lB NA NB) as (l & L1 & _ & _ & L4). eauto.
Qed.
Print Assumptions C14_agrees_with_cell_topology.

(** node [i * dim B + j] of the product is built from node [i] of A and node
    [j] of B; the product of point evaluations evaluates at the concatenated
    point. *)
Theorem C14_product_nodes :
  forall (K : Type) (zero : K) (sd : nat) (As Bs : list (node K)) l,
    tpe_nodes zero sd As Bs = Ok l ->
    length l = length As * length Bs /\
    (forall i j x y, nth_error As i = Some (PointEvaluation x) -> nth_error Bs j = Some (PointEvaluation y) ->
       nth_error l (i * length Bs + j) = Some (PointEvaluation (x ++ y))) /\
    (forall i j c s x y, nth_error As i = Some (ComponentPointEvaluation c s x) -> nth_error Bs j = Some (PointEvaluation y) ->
       nth_error l (i * length Bs + j) = Some (ComponentPointEvaluation c [sd] (x ++ y))).
Proof.
  intros K zero sd As Bs l H. destruct (tpe_nodes_ok zero sd Bs As l H) as [L N]. split; auto. split.
  - intros i j x y Hi Hj. destruct (N i j _ _ Hi Hj) as (n & H1 & H2). simpl in H2. congruence.
  - intros i j c s x y Hi Hj. destruct (N i j _ _ Hi Hj) as (n & H1 & H2). simpl in H2. congruence.
Qed.
Print Assumptions C14_product_nodes.

(** when a pair of functionals is not supported, construction is refused *)
Theorem C14_unsupported_nodes_refused :
  forall (K : Type) (zero : K) (sd : nat) (As Bs : list (node K)),
    (forall l, tpe_nodes zero sd As Bs <> Ok l) ->
    tpe_nodes zero sd As Bs = Err NotImplementedError.
Proof. intros. apply tpe_nodes_refuses; auto. Qed.
Print Assumptions C14_unsupported_nodes_refused.

Definition p2_line : dict (list nat) := [(DI 0, [(0, [0]); (1, [1])]); (DI 1, [(0, [2])])].
Definition p1_tri : dict (list nat) :=
  [(DI 0, [(0, [0]); (1, [1]); (2, [2])]); (DI 1, [(0, []); (1, []); (2, [])]); (DI 2, [(0, [])])].
Example C14_nonvacuous :
  partitions p1_tri 3 /\ partitions p2_line 3 /\
  lookup (tpe_entity_ids 3 p1_tri p2_line) (DT [DI 0; DI 0]) (row_major [3; 2] [2; 1]) = Some [7] /\
  lookup (tpe_entity_ids 3 p1_tri p2_line) (DT [DI 0; DI 1]) 1 = Some [5] /\
  tpe_nodes 0 2 [PointEvaluation [5]; PointEvaluation [6]] [PointEvaluation [7]; PointEvaluation [8]] =
    Ok [PointEvaluation [5; 7]; PointEvaluation [5; 8]; PointEvaluation [6; 7]; PointEvaluation [6; 8]] /\
  tpe_nodes 0 2 [PointEvaluation [5]] [OtherFunctional] = Err NotImplementedError.
Proof. repeat split; try reflexivity; apply Permutation_refl. Qed.

(** ** C15 *)
(** Value shapes supported by the product: two scalars, or one scalar and one
    vector with two components. *)
Definition supported_shapes (vA vB : list nat) : Prop :=
  (vA = [] /\ vB = []) \/ (vA = [2] /\ vB = []) \/ (vA = [] /\ vB = [2]).

Lemma entry_supported {K} (mul : K -> K -> K) vA vB nA nB npts (a b : array K) :
  supported_shapes vA vB -> 0 < npts ->
  ashape a = nA :: vA ++ [npts] -> ashape b = nB :: vB ++ [npts] ->
  exists r, tpe_entry mul (length vA) (length vB) npts a b = Ok r /\
    ashape r = nA * nB :: vA ++ vB ++ [npts] /\
    forall i j ca cb p, i < nA -> j < nB -> in_shape vA ca -> in_shape vB cb -> p < npts ->
      aget r (i * nB + j :: ca ++ cb ++ [p]) = mul (aget a (i :: ca ++ [p])) (aget b (j :: cb ++ [p])).
Proof.
  intros [[-> ->]|[[-> ->]|[-> ->]]] Hn Ha Hb; cbn [app length] in *.
  - destruct (tpe_entry_scalar mul nA nB npts a b Ha Hb) as (r & H1 & H2 & H3). exists r. repeat split; auto.
    intros i j ca cb p Hi Hj Hca Hcb Hp. inversion Hca; inversion Hcb; subst. cbn [app]. auto.
  - destruct (tpe_entry_vectorA mul nA nB npts a b Hn Ha Hb) as (r & H1 & H2 & H3). exists r. repeat split; auto.
    intros i j ca cb p Hi Hj Hca Hcb Hp. inversion Hca as [|? c ? ? Hc Hca']; inversion Hca'; inversion Hcb; subst. cbn [app]. auto.
  - destruct (tpe_entry_vectorB mul nA nB npts a b Hn Ha Hb) as (r & H1 & H2 & H3). exists r. repeat split; auto.
    intros i j ca cb p Hi Hj Hca Hcb Hp. inversion Hcb as [|? c ? ? Hc Hcb']; inversion Hcb'; inversion Hca; subst. cbn [app]. auto.
Qed.

Lemma tpe_combine_spec {K} (mul : K -> K -> K) sdA sdB vA vB nA nB npts order Atab Btab :
  supported_shapes vA vB -> 1 <= sdA + sdB -> 0 < npts ->
  full_table sdA order nA npts vA Atab -> full_table sdB order nB npts vB Btab ->
  exists r, tpe_combine mul sdA sdB (length vA) (length vB) npts order Atab Btab = Ok r /\
    (forall k, tlookup k r <> None <-> length k = sdA + sdB /\ nsum k <= order) /\
    forall al be a b, length al = sdA -> length be = sdB -> nsum al + nsum be <= order ->
      tlookup al Atab = Some a -> tlookup be Btab = Some b ->
      exists t, tlookup (al ++ be) r = Some t /\ ashape t = nA * nB :: vA ++ vB ++ [npts] /\
        forall i j ca cb p, i < nA -> j < nB -> in_shape vA ca -> in_shape vB cb -> p < npts ->
          aget t (i * nB + j :: ca ++ cb ++ [p]) = mul (aget a (i :: ca ++ [p])) (aget b (j :: cb ++ [p])).
Proof.
  intros Hs Hsd Hn FA FB. unfold tpe_combine.
  assert (Nat.ltb 1 (length vA + length vB) = false) as ->
    by (apply Nat.ltb_ge; destruct Hs as [[-> ->]|[[-> ->]|[-> ->]]]; simpl; lia).
  set (P := fun (k : list nat) (t : array K) =>
    forall a b, tlookup (firstn sdA k) Atab = Some a -> tlookup (firstn sdB (skipn sdA k)) Btab = Some b ->
    ashape t = nA * nB :: vA ++ vB ++ [npts] /\
        forall i j ca cb p, i < nA -> j < nB -> in_shape vA ca -> in_shape vB cb -> p < npts ->
          aget t (i * nB + j :: ca ++ cb ++ [p]) = mul (aget a (i :: ca ++ [p])) (aget b (j :: cb ++ [p]))).
  destruct (tpe_keys_spec mul sdA sdB (length vA) (length vB) npts Atab Btab P
    (flat_map (fun i => mis (sdA + sdB) i) (seq 0 (S order))) []) as (r & Er & Hr).
  { intros k Hk. apply alphas_in in Hk as [L S]; [|lia].
    assert (E : k = firstn sdA k ++ firstn sdB (skipn sdA k)).
    { rewrite <- (firstn_skipn sdA k) at 1. f_equal. symmetry. apply firstn_all2. rewrite skipn_length. lia. }
    assert (S' : nsum (firstn sdA k) + nsum (firstn sdB (skipn sdA k)) <= order).
    { rewrite <- nsum_app, <- E. exact S. }
    destruct (FA (firstn sdA k)) as (a & Ha & Sa); [rewrite firstn_length; lia|lia|].
    destruct (FB (firstn sdB (skipn sdA k))) as (b & Hb & Sb); [rewrite firstn_length, skipn_length; lia|lia|].
    destruct (entry_supported mul vA vB nA nB npts a b Hs Hn Sa Sb) as (t & Et & St & Vt).
    exists a, b, t. unfold get_key. rewrite Ha, Hb. split; [|split; [|split]]; auto.
    intros a' b' Ha' Hb'. assert (a' = a) by congruence. assert (b' = b) by congruence. subst. auto. }
  exists r. split; auto. split.
  - intros k. rewrite <- alphas_in by lia. destruct (Hr k) as [H1 H2]. split.
    + intros H. destruct (in_dec (list_eq_dec Nat.eq_dec) k
        (flat_map (fun i => mis (sdA + sdB) i) (seq 0 (S order)))) as [Hin|Hin]; auto.
      rewrite (H2 Hin) in H. simpl in H. congruence.
    + intros H. destruct (H1 H) as (t & -> & _). discriminate.
  - intros al be a b La Lb S Ha Hb. destruct (split_alpha sdA sdB al be La Lb) as [E1 E2].
    destruct (Hr (al ++ be)) as [H1 _]. destruct H1 as (t & Et & Pt).
    { apply alphas_in; [lia|]. rewrite app_length, nsum_app. split; lia. }
    exists t. split; auto. unfold P in Pt. rewrite E1, E2 in Pt. auto.
Qed.

Lemma combine_fst {X Y} (xs : list X) (ys : list Y) : length xs = length ys -> map fst (combine xs ys) = xs.
Proof. revert ys; induction xs as [|x xs IH]; intros [|y ys]; simpl; intros; auto; try discriminate. f_equal; auto. Qed.
Lemma combine_snd {X Y} (xs : list X) (ys : list Y) : length xs = length ys -> map snd (combine xs ys) = ys.
Proof. revert ys; induction xs as [|x xs IH]; intros [|y ys]; simpl; intros; auto; try discriminate. f_equal; auto. Qed.

(** Tabulation on the product of entity [eA] of dimension [dA] and entity [eB]
    of dimension [dB], at the points [(x, y)]: exactly the multi-indices up to
    the order are present; the entry for [(alpha, beta)] at function
    [i * dim B + j] is the product of A's entry for [alpha], [i] at [x] and
    B's entry for [beta], [j] at [y], component by component. *)
Theorem C15_product_tabulation :
  forall (K : Type) (mul : K -> K -> K) (A B : factor K) vA vB dA dB eA eB esA esB sA sB order nA nB
         (xs ys : list (list K)) Atab Btab,
    fe_vdim A = length vA -> fe_vdim B = length vB -> supported_shapes vA vB ->
    1 <= spatial_dimension (fe_cell A) + spatial_dimension (fe_cell B) ->
    dlookup dA (topology (fe_cell A)) = Some esA -> eA < length esA ->
    dlookup dB (topology (fe_cell B)) = Some esB -> eB < length esB ->
    construct_subelement (fe_cell A) dA = Ok sA -> construct_subelement (fe_cell B) dB = Ok sB ->
    xs <> [] -> length ys = length xs ->
    Forall (fun x => length x = spatial_dimension sA) xs -> Forall (fun y => length y = spatial_dimension sB) ys ->
    fe_tab A order xs dA eA = Ok Atab -> fe_tab B order ys dB eB = Ok Btab ->
    full_table (spatial_dimension (fe_cell A)) order nA (length xs) vA Atab ->
    full_table (spatial_dimension (fe_cell B)) order nB (length xs) vB Btab ->
    exists r,
      tpe_tabulate mul A B order (map (fun '(x, y) => x ++ y) (combine xs ys))
        (Some (DT [dA; dB], row_major [length esA; length esB] [eA; eB])) = Ok r /\
      (forall k, tlookup k r <> None <->
         length k = spatial_dimension (fe_cell A) + spatial_dimension (fe_cell B) /\ nsum k <= order) /\
      forall al be a b, length al = spatial_dimension (fe_cell A) -> length be = spatial_dimension (fe_cell B) ->
        nsum al + nsum be <= order ->
        tlookup al Atab = Some a -> tlookup be Btab = Some b ->
        exists t, tlookup (al ++ be) r = Some t /\ ashape t = nA * nB :: vA ++ vB ++ [length xs] /\
          forall i j ca cb p, i < nA -> j < nB -> in_shape vA ca -> in_shape vB cb -> p < length xs ->
            aget t (i * nB + j :: ca ++ cb ++ [p]) = mul (aget a (i :: ca ++ [p])) (aget b (j :: cb ++ [p])).
Proof.
  intros K mul A B vA vB dA dB eA eB esA esB sA sB order nA nB xs ys Atab Btab
    HvA HvB Hs Hsd EA LA EB LB SA SB Hne Hl FX FY TA TB FA FB.
  unfold tpe_tabulate. rewrite EA, EB.
  assert (R : row_major [length esA; length esB] [eA; eB] = ravel [length esA; length esB] [eA; eB]).
  { unfold row_major. cbn. lia. }
  assert (In' : in_shape [length esA; length esB] [eA; eB]) by (repeat constructor; auto).
  rewrite R.
  assert (Nat.ltb (ravel [length esA; length esB] [eA; eB]) (nprod [length esA; length esB]) = true) as ->.
  { apply Nat.ltb_lt. cbn. nia. }
  rewrite (unravel_ravel _ _ In'), SA, SB.
  assert (E1 : map (firstn (spatial_dimension sA)) (map (fun '(x, y) => x ++ y) (combine xs ys)) = xs).
  { rewrite map_map. transitivity (map fst (combine xs ys)); [|apply combine_fst; auto].
    apply map_ext_in. intros [x y] Hin. simpl. apply in_combine_l in Hin. rewrite Forall_forall in FX.
    rewrite <- (FX x Hin). rewrite firstn_app, Nat.sub_diag, firstn_all. simpl. apply app_nil_r. }
  assert (E2 : map (fun p => firstn (spatial_dimension sB) (skipn (spatial_dimension sA) p))
     (map (fun '(x, y) => x ++ y) (combine xs ys)) = ys).
  { rewrite map_map. transitivity (map snd (combine xs ys)); [|apply combine_snd; auto].
    apply map_ext_in. intros [x y] Hin. simpl. pose proof (in_combine_l _ _ _ _ Hin) as Hx. apply in_combine_r in Hin.
    rewrite Forall_forall in FX, FY. rewrite <- (FX x Hx), <- (FY y Hin).
    rewrite skipn_app, Nat.sub_diag, skipn_all. simpl. apply firstn_all. }
  rewrite E1, E2, TA, TB, HvA, HvB, map_length, combine_length, Hl, Nat.min_id.
  apply tpe_combine_spec; auto. destruct xs; [congruence|simpl; lia].
Qed.
Print Assumptions C15_product_tabulation.

(** no entity means the cell's interior *)
Theorem C15_default_entity :
  forall (K : Type) (mul : K -> K -> K) (A B : factor K) order pts,
    tpe_tabulate mul A B order pts None =
    tpe_tabulate mul A B order pts (Some (DT [get_dimension (fe_cell A); get_dimension (fe_cell B)], 0)).
Proof. reflexivity. Qed.
Print Assumptions C15_default_entity.

(** entity numbers outside the product cell are refused *)
Theorem C15_bad_entity_refused :
  forall (K : Type) (mul : K -> K -> K) (A B : factor K) order pts dA dB esA esB e,
    dlookup dA (topology (fe_cell A)) = Some esA -> dlookup dB (topology (fe_cell B)) = Some esB ->
    length esA * length esB <= e ->
    tpe_tabulate mul A B order pts (Some (DT [dA; dB], e)) = Err ValueError.
Proof.
  intros K mul A B order pts dA dB esA esB e EA EB He. unfold tpe_tabulate. rewrite EA, EB.
  destruct (Nat.ltb_spec e (nprod [length esA; length esB])) as [H|H]; [cbn in H; lia|reflexivity].
Qed.
Print Assumptions C15_bad_entity_refused.

(** two vector-valued factors are refused whatever they return *)
Theorem C15_two_vectors_refused :
  forall (K : Type) (mul : K -> K -> K) (A B : factor K) order pts ent r,
    1 < fe_vdim A + fe_vdim B -> tpe_tabulate mul A B order pts ent <> Ok r.
Proof.
  intros K mul A B order pts ent r Hv. unfold tpe_tabulate.
  destruct ent as [[[n|[|dA [|dB [|? ?]]]] e]|]; try discriminate;
  cbn [get_dimension map];
  destruct (dlookup _ (topology (fe_cell A))); try discriminate; destruct (dlookup _ (topology (fe_cell B))); try discriminate;
  destruct (Nat.ltb _ _); try discriminate;
  destruct (unravel _ _) as [|? [|? [|? ?]]]; try discriminate;
  destruct (construct_subelement (fe_cell A) _); try discriminate; destruct (construct_subelement (fe_cell B) _); try discriminate;
  destruct (fe_tab A _ _ _ _); try discriminate; destruct (fe_tab B _ _ _ _); try discriminate;
  unfold tpe_combine; destruct (Nat.ltb_spec 1 (fe_vdim A + fe_vdim B)); try discriminate; lia.
Qed.
Print Assumptions C15_two_vectors_refused.

(** The number of components is hard-wired to two: with a three-component
    vector factor of four functions the result has a wrong shape (the code
    does not notice), so the claim does not extend to other vector factors. *)
Theorem C15_three_components_refuted :
  exists (a b : array nat) r, ashape a = [4; 3; 1] /\ ashape b = [1; 1] /\
    tpe_entry Nat.mul 1 0 1 a b = Ok r /\ ashape r <> [4; 3; 1].
Proof.
  exists (zeros 0 [4; 3; 1]), (zeros 0 [1; 1]). eexists. split; [reflexivity|]. split; [reflexivity|].
  split; [reflexivity|]. vm_compute. discriminate.
Qed.
Print Assumptions C15_three_components_refuted.

(** P1 x P1 on an interval times an interval, values and first derivatives *)
Definition p1_factor : factor Z := {| fe_cell := UFCInterval; fe_vdim := 0;
  fe_tab := fun order pts d e =>
    let npts := length pts in
    Ok [([0], mkArray [2; npts] (fun idx => let x := hd 0%Z (nth (nth 1 idx 0) pts []) in
                if Nat.eqb (hd 0 idx) 0 then (1 - x)%Z else x));
        ([1], mkArray [2; npts] (fun idx => if Nat.eqb (hd 0 idx) 0 then (-1)%Z else 1%Z))] |}.
Example C15_nonvacuous :
  full_table 1 1 2 2 [] (match fe_tab p1_factor 1 [[5%Z]; [6%Z]] (DI 1) 0 with Ok t => t | _ => [] end) /\
  exists r t, tpe_tabulate Z.mul p1_factor p1_factor 1 [[5; 7]; [6; 9]]%Z (Some (DT [DI 1; DI 1], 0)) = Ok r /\
    tlookup [0; 1] r = Some t /\ map (fun k => aget t [k; 1]) [0; 1; 2; 3] = [5; -5; -6; 6]%Z.
Proof.
  split.
  - intros [|k [|? ?]] H1 H2; simpl in H1, H2; try discriminate. destruct k as [|[|k]]; [| |lia];
      eexists; split; reflexivity.
  - eexists. eexists. split; [reflexivity|]. split; [reflexivity|]. vm_compute. reflexivity.
Qed.
