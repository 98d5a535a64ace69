(** Dual sets of Nedelec elements of the second kind, and tensor families. *)
From Coq Require Import Permutation.
From Verif Require Import Base ModelIndex SpecIndex ProofsIndex Sorting ModelCell SpecCell ProofsCell ModelConcat SpecConcat
  ModelFam SpecFam ProofsFam ProofsFam2 ProofsFam3.

Section Proofs.
  Context {K : fieldT} (HK : char0 K).
  Notation node := (node K).
  Notation element := (element K).
  Notation make_points := (make_points K).

  Lemma number_each_affine n off m : forall a,
    fst (number_each n (seq a m) (off + n * a)) = map (fun e => (e, range (off + n * e) (off + n * e + n))) (seq a m).
  Proof.
    induction m as [|m IH]; intros a; [reflexivity|]. cbn [seq number_each map].
    specialize (IH (S a)). replace (off + n * a + n) with (off + n * S a) by lia.
    destruct (number_each n (seq (S a) m) _) as [ids c']. cbn [fst] in *. rewrite IH. reflexivity.
  Qed.
  (** blocks of [n] consecutive numbers starting at [off] *)
  Lemma blocks_seqd c d (f : nat -> list node) n off m :
    (forall e, e < m -> Forall (node_on c d e) (f e) /\ length (f e) = n) ->
    forall ids, ids = map (fun e => (e, range (off + n * e) (off + n * e + n))) (range 0 m) ->
    seqd c off (flat1 d ids) (map f (range 0 m)) /\ keys ids = range 0 m.
  Proof.
    intros Hf ids ->.
    assert (R : range 0 m = seq 0 m) by (unfold range; now rewrite Nat.sub_0_r). rewrite R.
    rewrite <- (number_each_affine n off m 0).
    rewrite Nat.mul_0_r, Nat.add_0_r. destruct (number_each n (seq 0 m) off) as [ids c'] eqn:E.
    pose proof (number_each_keys _ _ _ _ _ E) as Ek.
    apply (number_each_seqd c d f) in E as (S1 & _).
    2:{ intros e He. apply in_seq in He. apply Hf. lia. }
    split; assumption.
  Qed.

  (** ** Second kind *)
  Lemma n2_edges c k v : simplex c -> 2 <= spatial_dimension c -> (v = VPoint \/ is_ufc c = true) ->
    (match v with
     | VIntegral => if is_ufc c then Ok (moments K MTangent 1 (num c 1) (k + 1)) else Err NotImplementedError
     | VPoint => Ok (flat_map (fun e => map (PointEdgeTangent K e) (make_points c 1 e (k + 2))) (range 0 (num c 1)))
     end) = Ok (concat (map (edge_fun c v k) (range 0 (num c 1)))).
  Proof.
    intros Hc Hd Hv. destruct v.
    - now rewrite flat_map_concat_map.
    - destruct Hv as [Hv| ->]; [discriminate|]. now rewrite moments_concat.
  Qed.
  Lemma n2_count c k v e : simplex c -> 2 <= spatial_dimension c -> e < num c 1 ->
    n2_edge_count K c k e v = k + 1.
  Proof. intros Hc Hd He. destruct v; cbn; [now apply edge_points|reflexivity]. Qed.
  Lemma n2_edge_ids c k v : simplex c -> 2 <= spatial_dimension c ->
    map (fun e => let n := n2_edge_count K c k e v in (e, range (n * e) (n * e + n))) (range 0 (num c 1)) =
    map (fun e => (e, range (0 + (k + 1) * e) (0 + (k + 1) * e + (k + 1)))) (range 0 (num c 1)).
  Proof.
    intros Hc Hd. apply map_ext_in. intros e He. apply in_range in He. cbn zeta.
    rewrite n2_count by (assumption || lia). reflexivity.
  Qed.

  Lemma NSK2_ok c k v : triangle c -> 1 <= k -> (v = VPoint \/ is_ufc c = true) ->
    complete c (2 * binom (k + 2) 2) (NedelecSecondKind K c k v).
  Proof.
    intros Ht Hk Hv. destruct (triangle_simplex c Ht) as (Hc & Hd & N0 & N1 & _).
    unfold NedelecSecondKind. destruct (Nat.ltb_spec k 1); [lia|].
    unfold on_members. rewrite dimension_binom by assumption. cbn [bind]. rewrite n2_edges, n2_edge_ids by (assumption || lia).
    rewrite Hd. cbn [Nat.eqb orb negb bind andb]. rewrite N1.
    destruct (blocks_seqd c 1 (edge_fun c v k) (k + 1) 0 3) with (ids := map (fun e => (e, range (0 + (k + 1) * e)
       (0 + (k + 1) * e + (k + 1)))) (range 0 3)) as (S1 & K1); [|reflexivity|].
    { intros e He. apply edge_fun_ok; auto; lia. }
    assert (L : length (concat (map (edge_fun (K := K) c v k) (range 0 3))) = (k + 1) * 3).
    { rewrite (concat_const _ (k + 1)); [reflexivity|].
      intros e He'. apply in_range in He'. apply edge_fun_ok; auto; lia. }
    rewrite app_nil_r. rewrite orb_false_r.
    destruct (Nat.ltb_spec k 2) as [H2|H2]; cbn [bind].
    - apply (dual2 c _ _ _ _ (map (edge_fun c v k) (range 0 3)) [] _ _ _ Hc Hd (empties_seqd c 0 0 3)).
      + rewrite nil_length. exact S1.
      + constructor.
      + reflexivity.
      + reflexivity.
      + exact K1.
      + reflexivity.
      + rewrite nil_length, L. replace k with 1 by lia. reflexivity.
      + rewrite concat_nils. reflexivity.
    - assert (HR := RaviartThomas_ok HK c (k + 1 - 2) v Hc ltac:(lia) ltac:(lia)).
      rewrite Hd in HR. destruct (complete_length _ _ _ HR) as (rt & -> & El). cbn [bind]. rewrite El.
      apply (dual2 c _ _ _ _ (map (edge_fun c v k) (range 0 3))
               (map (Moment K MFrobenius 2 0) (range 0 (rt_dim 2 (k + 1 - 2 - 1)))) _ _ _ Hc Hd (empties_seqd c 0 0 3)).
      + rewrite nil_length. exact S1.
      + apply moments_on.
      + rewrite nil_length, moment_length. unfold range. f_equal. lia.
      + reflexivity.
      + exact K1.
      + reflexivity.
      + rewrite nil_length, L, moment_length. destruct k as [|[|k]]; try lia.
        replace (S (S k) + 1 - 2 - 1) with k by lia. unfold rt_dim.
        replace (k + 2 - 1) with (k + 1) by lia. change (2 - 1) with 1. rewrite binom_1.
        replace (S (S k) + 2) with (S (S (k + 2))) by lia.
        rewrite (binom_SS (S (k + 2)) 1), (binom_SS (k + 2) 1), !binom_1. lia.
      + rewrite concat_nils. reflexivity.
  Qed.

  (** second-kind face moments: against RT functions on the face *)
  Definition rt_face (n : nat) (e : nat) : list node := map (fun i => Moment K MFrobenius 2 e i) (range 0 n).

  Lemma NSK3_ok k v : 1 <= k -> complete UFCTetrahedron (3 * binom (k + 3) 3) (NedelecSecondKind K UFCTetrahedron k v).
  Proof.
    intros Hk. set (c := UFCTetrahedron).
    assert (Hc : simplex c) by exact I. assert (Hd : spatial_dimension c = 3) by reflexivity.
    unfold NedelecSecondKind. destruct (Nat.ltb_spec k 1); [lia|].
    unfold on_members. rewrite dimension_binom by assumption. cbn [bind].
    rewrite n2_edges, n2_edge_ids by (auto || (rewrite ?Hd; lia)).
    rewrite Hd. cbn [Nat.eqb orb negb bind andb].
    change (num c 1) with 6. change (num c 2) with 4.
    destruct (blocks_seqd c 1 (edge_fun c v k) (k + 1) 0 6) with (ids := map (fun e => (e, range (0 + (k + 1) * e)
       (0 + (k + 1) * e + (k + 1)))) (range 0 6)) as (S1 & K1); [|reflexivity|].
    { intros e He. apply edge_fun_ok; auto; cbn; lia. }
    assert (L : length (concat (map (edge_fun (K := K) c v k) (range 0 6))) = (k + 1) * 6).
    { rewrite (concat_const _ (k + 1)); [reflexivity|].
      intros e He'. apply in_range in He'. apply edge_fun_ok; auto; cbn; lia. }
    set (r := if Nat.ltb k 2 then 0 else rt_dim 2 (k - 1 - 1)).
    assert (HF : (if Nat.ltb k 2 then Ok ([], [(DI 2, empties 4)])
            else match c with
                 | UFCTetrahedron =>
                   bind (RaviartThomas K UFCTriangle (k - 1) v) (fun rt =>
                   let num_rts := length (el_nodes K rt) in
                   let offset := length (concat (map (edge_fun (K := K) c v k) (range 0 6))) in
                   Ok (moments K MFrobenius 2 4 num_rts,
                       [(DI 2, map (fun f => (f, range (offset + num_rts * f) (offset + num_rts * (f + 1))))
                                   (range 0 4))]))
                 | _ => Err AssertionError
                 end) = Ok (concat (map (rt_face r) (range 0 4)),
                      [(DI 2, map (fun f => (f, range ((k + 1) * 6 + r * f) ((k + 1) * 6 + r * f + r))) (range 0 4))])).
    { unfold r. destruct (Nat.ltb_spec k 2).
      - do 2 f_equal. unfold empties. do 3 f_equal. unfold range. cbn. now rewrite !Nat.add_0_r, !Nat.sub_diag.
      - unfold c. assert (HR := RaviartThomas_ok HK UFCTriangle (k - 1) v I ltac:(lia) ltac:(cbn; lia)).
        destruct (complete_length _ _ _ HR) as (rt & -> & El). cbn [bind]. cbn zeta. fold c. rewrite El, L, moments_concat.
        change (spatial_dimension UFCTriangle) with 2. do 2 f_equal. do 2 f_equal.
        apply map_ext. intros f. do 2 f_equal. lia. }
    cbn zeta in HF |- *. rewrite HF. clear HF. cbn [bind].
    destruct (blocks_seqd c 2 (rt_face r) r ((k + 1) * 6) 4) with
      (ids := map (fun f => (f, range ((k + 1) * 6 + r * f) ((k + 1) * 6 + r * f + r))) (range 0 4))
      as (S2 & K2); [|reflexivity|].
    { intros e He. split; [apply moments_on|apply moment_length]. }
    assert (L2 : length (concat (map (rt_face r) (range 0 4))) = r * 4).
    { rewrite (concat_const _ r); [reflexivity|]. intros. apply moment_length. }
    rewrite app_length, L, L2.
    destruct (Nat.ltb_spec k 3) as [H3|H3]; cbn [bind app Nat.add].
    - apply (dual3 c _ _ _ _ _ (map (edge_fun c v k) (range 0 6)) (map (rt_face r) (range 0 4)) [] _ _ _ Hc Hd
               (empties_seqd c 0 0 4)).
      + rewrite nil_length. exact S1.
      + rewrite nil_length, L. exact S2.
      + constructor.
      + reflexivity.
      + reflexivity.
      + exact K1.
      + exact K2.
      + reflexivity.
      + rewrite nil_length, L, L2. unfold r. assert (k = 1 \/ k = 2) as [-> | ->] by lia; reflexivity.
      + rewrite concat_nils. cbn [app]. now rewrite !app_nil_r.
    - assert (HR := RaviartThomas_ok HK c (k + 1 - 3) v Hc ltac:(lia) ltac:(cbn; lia)).
      rewrite Hd in HR. destruct (complete_length _ _ _ HR) as (rt & -> & El). cbn [bind]. rewrite El.
      apply (dual3 c _ _ _ _ _ (map (edge_fun c v k) (range 0 6)) (map (rt_face r) (range 0 4))
               (map (Moment K MFrobenius 3 0) (range 0 (rt_dim 3 (k + 1 - 3 - 1)))) _ _ _ Hc Hd (empties_seqd c 0 0 4)).
      + rewrite nil_length. exact S1.
      + rewrite nil_length, L. exact S2.
      + apply moments_on.
      + rewrite nil_length, moment_length, L, L2. unfold range. f_equal; lia.
      + reflexivity.
      + exact K1.
      + exact K2.
      + reflexivity.
      + rewrite nil_length, L, L2, moment_length. unfold r. destruct (Nat.ltb_spec k 2); [lia|].
        destruct k as [|[|[|k]]]; try lia. unfold rt_dim.
        change (2 - 1) with 1. change (3 - 1) with 2.
        replace (S (S (S k)) - 1 - 1) with (S k) by lia. replace (S (S (S k)) + 1 - 3 - 1) with k by lia.
        replace (S k + 2 - 1) with (k + 2) by lia. replace (k + 3 - 1) with (k + 2) by lia.
        replace (S (S (S k)) + 3) with (S (S (S (S (k + 2))))) by lia.
        replace (k + 3) with (S (k + 2)) by lia. replace (S k + 2) with (S (k + 2)) by lia.
        rewrite ?binom_SS, ?binom_1, ?binom_0. lia.
      + rewrite concat_nils. cbn [app]. now rewrite app_assoc.
  Qed.

  (** ** Regge *)
  Definition regge_fun (c : cell) (degree dim e : nat) : list node :=
    flat_map (fun x => map (fun t => InnerProduct K t t x) (face_edge_tangents K c dim e))
             (make_points c dim e (degree + 2)).
  Lemma const_flat_map {A B} (f : A -> list B) n l : (forall x, length (f x) = n) -> length (flat_map f l) = n * length l.
  Proof. intros H. induction l; cbn [flat_map length]; [lia|]. rewrite app_length, H, IHl. lia. Qed.
  Lemma regge_fun_ok c degree dim e : simplex c -> 1 <= dim <= spatial_dimension c -> e < num c dim -> 
    Forall (node_on c dim e) (regge_fun c degree dim e) /\
    length (regge_fun c degree dim e) = length (face_edge_tangents K c dim e) * binom (degree + 1) dim.
  Proof.
    intros Hc Hd He. split.
    - apply flat_map_on. intros x Hx. apply map_on. intros t _. cbn. eapply make_points_interior; eauto; lia.
    - unfold regge_fun. rewrite (const_flat_map _ (length (face_edge_tangents K c dim e))) by (intros; apply map_length).
      rewrite make_points_length by assumption. f_equal. f_equal. lia.
  Qed.
  Lemma tangents_count c dim e : length (face_edge_tangents K c dim e) = nsum (map (fun s => dim - s) (range 0 dim)).
  Proof.
    unfold face_edge_tangents. generalize (entity_vertices K c dim e). intros vs.
    generalize (range 0 dim). intros l. induction l as [|s l IH]; [reflexivity|].
    cbn [flat_map map]. rewrite app_length, IH, map_length, length_range. unfold nsum. cbn. lia.
  Qed.
  Lemma regge_visit c degree dim cur nodes ids st : simplex c -> 1 <= dim <= spatial_dimension c ->
    regge_dofs K c dim degree (cur, nodes) = (ids, st) ->
    let N := map (regge_fun c degree dim) (range 0 (num c dim)) in
    seqd c cur (flat1 dim ids) N /\ st = (cur + length (concat N), nodes ++ concat N) /\
    keys ids = range 0 (num c dim) /\
    length (concat N) = nsum (map (fun s => dim - s) (range 0 dim)) * binom (degree + 1) dim * num c dim.
  Proof.
    intros Hc Hd E N. unfold regge_dofs in E.
    pose proof (visit_keys _ _ _ _ _ E) as Ek.
    apply (visit_seqd c dim) in E as (S1 & ->).
    2:{ intros e He. apply in_range in He. apply regge_fun_ok; auto; lia. }
    repeat split; auto.
    unfold N. rewrite (concat_const _ (nsum (map (fun s => dim - s) (range 0 dim)) * binom (degree + 1) dim)).
    - rewrite length_range. lia.
    - intros e He. apply in_range in He. rewrite <- (tangents_count c dim e). apply regge_fun_ok; auto; lia.
  Qed.

  Lemma Regge2_ok c degree : triangle c -> complete c (3 * binom (degree + 2) 2) (Regge K c degree).
  Proof.
    intros Ht. destruct (triangle_simplex c Ht) as (Hc & Hd & N0 & N1 & _).
    destruct (nums2 c Hc Hd) as (_ & _ & N2).
    unfold Regge, sym_members, on_members. rewrite dimension_binom by assumption. rewrite Hd.
    cbn [bind Nat.ltb Nat.leb orb Nat.eqb].
    destruct (regge_dofs K c 1 degree (0, [])) as [ids1 st1] eqn:E1.
    destruct (regge_visit c degree 1 _ _ _ _ Hc ltac:(lia) E1) as (S1 & -> & K1 & L1).
    destruct (regge_dofs K c 2 degree _) as [ids2 st2] eqn:E2.
    destruct (regge_visit c degree 2 _ _ _ _ Hc ltac:(lia) E2) as (S2 & -> & K2 & L2).
    clear E1 E2. rewrite N1 in *. rewrite N2 in *.
    set (M1 := map (regge_fun c degree 1) (range 0 3)) in *. set (M2 := map (regge_fun c degree 2) (range 0 1)) in *.
    cbn [fst snd Nat.add app].
    apply (complete_intro _ _ _ _ _ (map (fun _ => []) (range 0 3) ++ (M1 ++ M2))).
    - rewrite (concat_app (map _ _)), (concat_app M1), concat_nils. reflexivity.
    - rewrite !flatten_cons. cbn [flatten_dict flat_map]. rewrite app_nil_r.
      apply seqd_app; [apply empties_seqd|]. rewrite nil_length. apply seqd_app; assumption.
    - unfold skel. cbn [map]. rewrite K1, K2, empties_keys.
      clear -Hc Hd. destruct c; try contradiction; try discriminate; reflexivity.
    - reflexivity.
    - rewrite (concat_app (map _ _)), (concat_app M1), concat_nils, !app_length, L1, L2.
      replace (degree + 2) with (S (degree + 1)) by lia. rewrite binom_SS, !binom_1. cbn. lia.
  Qed.
  Lemma Regge3_ok c degree : simplex c -> spatial_dimension c = 3 ->
    complete c (6 * binom (degree + 3) 3) (Regge K c degree).
  Proof.
    intros Hc Hd. destruct (nums3 c Hc Hd) as (N0 & N1 & N2 & N3).
    unfold Regge, sym_members, on_members. rewrite dimension_binom by assumption. rewrite Hd.
    cbn [bind Nat.ltb Nat.leb orb Nat.eqb].
    destruct (regge_dofs K c 1 degree (0, [])) as [ids1 st1] eqn:E1.
    destruct (regge_visit c degree 1 _ _ _ _ Hc ltac:(lia) E1) as (S1 & -> & K1 & L1).
    destruct (regge_dofs K c 2 degree _) as [ids2 st2] eqn:E2.
    destruct (regge_visit c degree 2 _ _ _ _ Hc ltac:(lia) E2) as (S2 & -> & K2 & L2).
    destruct (regge_dofs K c 3 degree _) as [ids3 st3] eqn:E3.
    destruct (regge_visit c degree 3 _ _ _ _ Hc ltac:(lia) E3) as (S3 & -> & K3 & L3).
    clear E1 E2 E3. rewrite N1 in *. rewrite N2 in *. rewrite N3 in *.
    set (M1 := map (regge_fun c degree 1) (range 0 6)) in *. set (M2 := map (regge_fun c degree 2) (range 0 4)) in *.
    set (M3 := map (regge_fun c degree 3) (range 0 1)) in *.
    cbn [fst snd Nat.add app].
    apply (complete_intro _ _ _ _ _ (map (fun _ => []) (range 0 4) ++ (M1 ++ (M2 ++ M3)))).
    - rewrite (concat_app (map _ _)), (concat_app M1), (concat_app M2), concat_nils. cbn [app]. now rewrite app_assoc.
    - rewrite !flatten_cons. cbn [flatten_dict flat_map]. rewrite app_nil_r.
      apply seqd_app; [apply empties_seqd|]. rewrite nil_length. apply seqd_app; [assumption|]. apply seqd_app; assumption.
    - unfold skel. cbn [map]. rewrite K1, K2, K3, empties_keys.
      clear -Hc Hd. destruct c; try contradiction; try discriminate; reflexivity.
    - reflexivity.
    - rewrite (concat_app (map _ _)), (concat_app M1), (concat_app M2), concat_nils, !app_length, L1, L2, L3.
      replace (degree + 3) with (S (S (degree + 1))) by lia. rewrite binom3_step, !binom_1. cbn. lia.
  Qed.

  (** ** Hellan-Herrmann-Johnson *)
  Lemma HHJ_ok c degree : triangle c -> complete c (3 * binom (degree + 2) 2) (HellanHerrmannJohnson K c degree).
  Proof.
    intros Ht. destruct (triangle_simplex c Ht) as (Hc & Hd & N0 & N1 & _).
    destruct (nums2 c Hc Hd) as (_ & _ & N2).
    unfold HellanHerrmannJohnson, sym_members, on_members. rewrite dimension_binom by assumption. rewrite Hd.
    cbn [bind Nat.eqb negb].
    set (f := fun e => map (Moment K MNormalNormal 1 e) (range 0 (length (make_points c 1 e (degree + 2))))).
    destruct (visit K f (range 0 3) (0, [])) as [ids1 st] eqn:E.
    pose proof (visit_keys _ _ _ _ _ E) as K1.
    apply (visit_seqd c 1) in E as (S1 & ->).
    2:{ intros e _. apply moments_on. }
    assert (L : length (concat (map f (range 0 3))) = (degree + 1) * 3).
    { rewrite (concat_const _ (degree + 1)); [reflexivity|].
      intros e He. apply in_range in He. unfold f. rewrite map_length, length_range, edge_points; auto; lia. }
    set (pts := make_points c 2 0 (degree + 2)).
    assert (LP : length pts = binom (degree + 1) 2).
    { unfold pts. rewrite make_points_length by (assumption || lia). f_equal. lia. }
    cbn [snd]. rewrite app_nil_l.
    set (inner := flat_map _ (sym_basis K)).
    assert (LI : length inner = 3 * length pts).
    { unfold inner, sym_basis. cbn [flat_map]. rewrite !app_length, !map_length. cbn. lia. }
    apply (dual2 c _ _ _ _ (map f (range 0 3)) inner _ _ _ Hc Hd (empties_seqd c 0 0 3)).
    - rewrite nil_length. exact S1.
    - unfold inner. apply flat_map_on. intros [v1 v2] _. apply map_on. intros x Hx. cbn.
      eapply make_points_interior; eauto; lia.
    - rewrite nil_length, LI. unfold range. f_equal. lia.
    - reflexivity.
    - exact K1.
    - reflexivity.
    - rewrite nil_length, L, LI, LP. replace (degree + 2) with (S (degree + 1)) by lia. rewrite binom_SS, binom_1. lia.
    - rewrite concat_nils. reflexivity.
  Qed.
End Proofs.
