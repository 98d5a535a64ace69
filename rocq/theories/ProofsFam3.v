(** Dual sets of the remaining families. *)
From Coq Require Import Permutation.
From Verif Require Import Base ModelIndex SpecIndex ProofsIndex Sorting ModelCell SpecCell ProofsCell ModelConcat SpecConcat
  ModelFam SpecFam ProofsFam ProofsFam2.

Section Proofs.
  Context {K : fieldT} (HK : char0 K).
  Notation node := (node K).
  Notation element := (element K).
  Notation make_points := (make_points K).

  Lemma empties_seqd c d cur n : seqd (K := K) c cur (flat1 d (empties n)) (map (fun _ => []) (range 0 n)).
  Proof. apply nil_seqd. Qed.

  (** [nodes] on the edges (and vertices), then on the faces, then the cell *)
  Lemma dual2 c I0 I1 l N0 N1 inner m total (nodes : list node) :
    simplex c -> spatial_dimension c = 2 ->
    seqd c 0 (flat1 0 I0) N0 -> seqd c (length (concat N0)) (flat1 1 I1) N1 ->
    Forall (node_on c 2 0) inner ->
    l = seq (length (concat N0) + length (concat N1)) (length inner) ->
    keys I0 = range 0 3 -> keys I1 = range 0 3 -> m = total ->
    length (concat N0) + length (concat N1) + length inner = total ->
    nodes = concat N0 ++ concat N1 ++ inner ->
    complete c total (Ok (mkEl K m nodes [(DI 0, I0); (DI 1, I1); (DI 2, [(0, l)])])).
  Proof.
    intros Hc Hd S0 S1 Hi Hl K0 K1 Hm Ht ->.
    apply (complete_intro _ _ _ _ _ (N0 ++ (N1 ++ [inner]))).
    - rewrite (concat_app N0), (concat_app N1). cbn [concat]. now rewrite app_nil_r.
    - rewrite !flatten_cons. apply seqd_app; [exact S0|]. apply seqd_app; [exact S1|].
      cbn [flat1 map flatten_dict flat_map app]. apply one_seqd; assumption.
    - unfold skel. cbn [map]. rewrite K0, K1. clear -Hc Hd. destruct c; try contradiction; try discriminate; reflexivity.
    - exact Hm.
    - rewrite (concat_app N0), (concat_app N1), !app_length. cbn [concat]. rewrite app_nil_r. lia.
  Qed.

  Lemma dual3 c I0 I1 I2 l N0 N1 N2 inner m total (nodes : list node) :
    simplex c -> spatial_dimension c = 3 ->
    seqd c 0 (flat1 0 I0) N0 -> seqd c (length (concat N0)) (flat1 1 I1) N1 ->
    seqd c (length (concat N0) + length (concat N1)) (flat1 2 I2) N2 ->
    Forall (node_on c 3 0) inner ->
    l = seq (length (concat N0) + length (concat N1) + length (concat N2)) (length inner) ->
    keys I0 = range 0 4 -> keys I1 = range 0 6 -> keys I2 = range 0 4 -> m = total ->
    length (concat N0) + length (concat N1) + length (concat N2) + length inner = total ->
    nodes = concat N0 ++ concat N1 ++ concat N2 ++ inner ->
    complete c total (Ok (mkEl K m nodes [(DI 0, I0); (DI 1, I1); (DI 2, I2); (DI 3, [(0, l)])])).
  Proof.
    intros Hc Hd S0 S1 S2 Hi Hl K0 K1 K2 Hm Ht ->.
    apply (complete_intro _ _ _ _ _ (N0 ++ (N1 ++ (N2 ++ [inner])))).
    - rewrite (concat_app N0), (concat_app N1), (concat_app N2). cbn [concat]. now rewrite app_nil_r.
    - rewrite !flatten_cons. apply seqd_app; [exact S0|]. apply seqd_app; [exact S1|]. apply seqd_app; [exact S2|].
      cbn [flat1 map flatten_dict flat_map app]. apply one_seqd; assumption.
    - unfold skel. cbn [map]. rewrite K0, K1, K2.
      clear -Hc Hd. destruct c; try contradiction; try discriminate; reflexivity.
    - exact Hm.
    - rewrite (concat_app N0), (concat_app N1), (concat_app N2), !app_length. cbn [concat]. rewrite app_nil_r. lia.
  Qed.

  Lemma nums2 c : simplex c -> spatial_dimension c = 2 -> num c 0 = 3 /\ num c 1 = 3 /\ num c 2 = 1.
  Proof. intros Hc Hd; destruct c; try contradiction; try discriminate; auto. Qed.
  Lemma nums3 c : simplex c -> spatial_dimension c = 3 -> num c 0 = 4 /\ num c 1 = 6 /\ num c 2 = 4 /\ num c 3 = 1.
  Proof. intros Hc Hd; destruct c; try contradiction; try discriminate; auto. Qed.

  Lemma moments_concat kind d count n :
    moments K kind d count n = concat (map (fun e => map (fun i => Moment K kind d e i) (range 0 n)) (range 0 count)).
  Proof. apply flat_map_concat_map. Qed.
  Lemma moment_length kind d e n : length (map (fun i => Moment K kind d e i) (range 0 n)) = n.
  Proof. rewrite map_length, length_range. lia. Qed.

  Lemma nil_length {A} n : length (concat (map (fun _ : nat => @nil A) (range 0 n))) = 0.
  Proof. now rewrite concat_nils. Qed.

  Lemma edge_points c e order : simplex c -> 2 <= spatial_dimension c -> e < num c 1 ->
    length (make_points c 1 e (order + 2)) = order + 1.
  Proof.
    intros Hc Hd He. rewrite make_points_length by (assumption || lia). rewrite binom_1. lia.
  Qed.

  Lemma edge_tangent_on c e order : simplex c -> 2 <= spatial_dimension c -> e < num c 1 ->
    Forall (node_on c 1 e) (map (PointEdgeTangent K e) (make_points c 1 e order)).
  Proof.
    intros Hc Hd He. apply map_on. intros x Hx. cbn. split; [reflexivity|split; [reflexivity|]].
    eapply make_points_interior; eauto; lia.
  Qed.

  (** the edge nodes of both variants *)
  Definition edge_fun (c : cell) (v : variant) (degree : nat) (e : nat) : list node :=
    match v with
    | VPoint => map (PointEdgeTangent K e) (make_points c 1 e (degree + 2))
    | VIntegral => map (fun i => Moment K MTangent 1 e i) (range 0 (degree + 1))
    end.
  Lemma edge_fun_ok c v degree e : simplex c -> 2 <= spatial_dimension c -> e < num c 1 ->
    Forall (node_on c 1 e) (edge_fun c v degree e) /\ length (edge_fun c v degree e) = degree + 1.
  Proof.
    intros Hc Hd He. destruct v; cbn [edge_fun].
    - split; [now apply edge_tangent_on|]. rewrite map_length. now apply edge_points.
    - split; [apply moments_on|apply moment_length].
  Qed.

  (** ** Nedelec, 2D *)
  Lemma Nedelec2_ok c k v : triangle c -> 1 <= k ->
    complete c (2 * binom (k + 1) 2 + k) (Nedelec K c k v).
  Proof.
    intros Ht Hk. destruct (triangle_simplex c Ht) as (Hc & Hd & N0 & N1 & _).
    destruct k as [|degree]; [lia|]. unfold Nedelec. replace (S degree - 1) with degree by lia.
    rewrite Hd. cbn [Nat.eqb]. unfold nedelec_members. rewrite dimension_binom by assumption. cbn [bind].
    rewrite Hd. cbn [Nat.eqb].
    assert (Hm : exists a b, (if Nat.ltb 0 degree then polynomial_dimension c (degree - 1) else Ok 0) = Ok a /\
       (if Nat.ltb 1 degree then polynomial_dimension c (degree - 2) else Ok 0) = Ok b /\
       a = binom (degree + 1) 2).
    { rewrite !dimension_binom, Hd by assumption.
      destruct (Nat.ltb_spec 0 degree), (Nat.ltb_spec 1 degree); eexists; eexists; repeat split; try reflexivity.
      all: try (f_equal; lia). now replace degree with 0 by lia. }
    destruct Hm as (a & b & -> & -> & ->). cbn [bind].
    unfold nedelec2_dual. rewrite Hd. cbn [Nat.eqb negb].
    assert (He : (match v with
          | VIntegral =>
            bind (facet_element c) (fun edge =>
            bind (polynomial_dimension edge degree) (fun nq => Ok (moments K MTangent (2 - 1) (num c (2 - 1)) nq)))
          | VPoint =>
            Ok (flat_map (fun i => map (PointEdgeTangent K i) (make_points c 1 i (degree + 2))) (range 0 (num c 1)))
          end) = Ok (concat (map (edge_fun c v degree) (range 0 3)))).
    { destruct v; [now rewrite N1, flat_map_concat_map|].
      destruct (facet_element_ok c Hc) as (fc & -> & Hf & Hfd); [lia|]. cbn [bind].
      rewrite dimension_binom, Hfd, Hd by assumption. cbn [bind Nat.sub]. rewrite binom_1, N1, moments_concat.
      reflexivity. }
    rewrite He. cbn [bind]. rewrite edge_points by (assumption || lia). rewrite N1.
    destruct (number_each _ _ 0) as [eids cur] eqn:En.
    pose proof (number_each_keys _ _ _ _ _ En) as Kn.
    apply (number_each_seqd c 1 (edge_fun c v degree)) in En as (S1 & ->).
    2:{ intros e He'. apply in_range in He'. apply edge_fun_ok; auto; lia. }
    assert (L : length (concat (map (edge_fun c v degree) (range 0 3))) = (degree + 1) * 3).
    { rewrite (concat_const _ (degree + 1)); [reflexivity|].
      intros e He'. apply in_range in He'. apply edge_fun_ok; auto; lia. }
    assert (HM : 2 * binom (degree + 2) 2 + (binom (degree + 2) 2 - binom (degree + 1) 2) =
                 2 * binom (S degree + 1) 2 + S degree).
    { replace (S degree + 1) with (degree + 2) by lia. replace (degree + 2) with (S (degree + 1)) by lia.
      rewrite binom_SS, binom_1. lia. }
    destruct (Nat.ltb_spec 0 degree) as [Hg|Hg].
    - rewrite dimension_binom, Hd by assumption. cbn [bind map range seq nth Nat.sub Nat.add]. rewrite N0.
      apply (dual2 c _ _ _ _ (map (edge_fun c v degree) (range 0 3)) (internal_moments K 2 (binom (degree - 1 + 2) 2)) _ _ _ Hc Hd
               (empties_seqd c 0 0 3)).
      + rewrite nil_length. exact S1.
      + pose proof (internal_on (K := K) c (binom (degree - 1 + 2) 2)) as H. now rewrite Hd in H.
      + rewrite nil_length, internal_length. unfold range. f_equal. lia.
      + reflexivity.
      + exact Kn.
      + exact HM.
      + rewrite nil_length, internal_length, L.
        replace (degree - 1 + 2) with (degree + 1) by lia. replace (S degree + 1) with (S (degree + 1)) by lia.
        rewrite binom_SS, binom_1. lia.
      + rewrite concat_nils. reflexivity.
    - cbn [bind map range seq nth Nat.sub Nat.add]. rewrite N0.
      replace (num c 2) with 1 by (rewrite <- Hd, num_cell; auto).
      replace degree with 0 in * by lia.
      apply (dual2 c _ _ _ _ (map (edge_fun c v 0) (range 0 3)) [] _ _ _ Hc Hd (empties_seqd c 0 0 3)).
      + rewrite nil_length. exact S1.
      + constructor.
      + reflexivity.
      + reflexivity.
      + exact Kn.
      + exact HM.
      + rewrite nil_length, L. reflexivity.
      + rewrite concat_nils. now rewrite app_nil_r.
  Qed.

  (** ** Nedelec, 3D *)
  Definition face_fun (c : cell) (v : variant) (degree : nat) (e : nat) : list node :=
    match v with
    | VPoint => flat_map (fun x => map (fun k => PointFaceTangent K e k x) (range 0 2)) (make_points c 2 e (degree + 2))
    | VIntegral => map (fun i => Moment K MFaceTangent 2 e i) (range 0 (2 * binom (degree + 1) 2))
    end.
  Lemma pairs_length {A B} (f : A -> list B) l : (forall x, length (f x) = 2) -> length (flat_map f l) = 2 * length l.
  Proof. intros H. induction l; cbn [flat_map length]; [reflexivity|]. rewrite app_length, H, IHl. lia. Qed.
  Lemma face_points c e degree : simplex c -> spatial_dimension c = 3 -> e < 4 ->
    length (make_points c 2 e (degree + 2)) = binom (degree + 1) 2.
  Proof.
    intros Hc Hd He. destruct (nums3 c Hc Hd) as (_ & _ & N2 & _).
    rewrite make_points_length by (assumption || lia). f_equal; lia.
  Qed.
  Lemma face_fun_ok c v degree e : simplex c -> spatial_dimension c = 3 -> e < 4 ->
    Forall (node_on c 2 e) (face_fun c v degree e) /\ length (face_fun c v degree e) = 2 * binom (degree + 1) 2.
  Proof.
    intros Hc Hd He. destruct (nums3 c Hc Hd) as (_ & _ & N2 & _). destruct v; cbn [face_fun].
    - split.
      + apply flat_map_on. intros x Hx. apply map_on. intros k _. cbn. split; [reflexivity|split; [reflexivity|]].
        eapply make_points_interior; eauto; lia.
      + rewrite pairs_length by reflexivity. rewrite face_points by assumption. lia.
    - split; [apply moments_on|apply moment_length].
  Qed.

  Lemma binom3_step k : binom (S (S (k + 1))) 3 = binom (k + 1) 3 + 2 * binom (k + 1) 2 + (k + 1).
  Proof. rewrite (binom_SS (S (k + 1)) 2), (binom_SS (k + 1) 2), (binom_SS (k + 1) 1), binom_1. lia. Qed.
  Lemma binom3_step1 k : binom (S (k + 1)) 3 = binom (k + 1) 3 + binom (k + 1) 2.
  Proof. rewrite (binom_SS (k + 1) 2). lia. Qed.

  Definition ned3_dim (k : nat) : nat := 3 * binom (k + 1) 3 + 8 * binom (k + 1) 2 + 6 * (k + 1).

  Lemma ned3_members c degree : simplex c -> spatial_dimension c = 3 ->
    nedelec_members c degree = Ok (ned3_dim degree).
  Proof.
    intros Hc Hd. unfold nedelec_members. rewrite Hd. cbn [Nat.eqb].
    rewrite !dimension_binom, Hd by assumption. cbn [bind].
    assert (Ha : (if Nat.ltb 0 degree then Ok (binom (degree - 1 + 3) 3) else Ok 0) = Ok (binom (S (degree + 1)) 3)).
    { destruct (Nat.ltb_spec 0 degree); [do 2 f_equal; lia|]. now replace degree with 0 by lia. }
    assert (Hb : (if Nat.ltb 1 degree then Ok (binom (degree - 2 + 3) 3) else Ok 0) = Ok (binom (degree + 1) 3)).
    { destruct (Nat.ltb_spec 1 degree); [do 2 f_equal; lia|].
      destruct degree as [|[|?]]; [reflexivity|reflexivity|lia]. }
    rewrite Ha. cbn [bind]. rewrite Hb. cbn [bind]. f_equal. unfold ned3_dim.
    replace (degree + 3) with (S (S (degree + 1))) by lia. rewrite binom3_step, binom3_step1. lia.
  Qed.

  Lemma Nedelec3_ok c k v : simplex c -> spatial_dimension c = 3 -> 1 <= k ->
    complete c (ned3_dim (k - 1)) (Nedelec K c k v).
  Proof.
    intros Hc Hd Hk. destruct (nums3 c Hc Hd) as (N0 & N1 & N2 & N3).
    destruct k as [|degree]; [lia|]. unfold Nedelec. replace (S degree - 1) with degree by lia.
    rewrite ned3_members by assumption. rewrite Hd. cbn [Nat.eqb bind].
    unfold nedelec3_dual. rewrite Hd. cbn [Nat.eqb negb]. rewrite N1, N2.
    set (F := if Nat.ltb 0 degree then map (face_fun c v degree) (range 0 4) else map (fun _ => []) (range 0 4)).
    assert (He : (match v with
          | VIntegral =>
            bind (facet_element c) (fun facet =>
            bind (facet_element facet) (fun edge =>
            bind (polynomial_dimension edge degree) (fun nq =>
            let edge_nodes := moments K MTangent 1 6 nq in
            if Nat.ltb 0 degree then
              bind (polynomial_dimension facet (degree - 1)) (fun nf =>
              Ok (edge_nodes ++ moments K MFaceTangent 2 4 (2 * (3 * nf) / 3)))
            else Ok edge_nodes)))
          | VPoint =>
            let edge_nodes :=
              flat_map (fun i => map (PointEdgeTangent K i) (make_points c 1 i (degree + 2))) (range 0 6) in
            Ok (if Nat.ltb 0 degree then
                  edge_nodes ++
                  flat_map (fun i => flat_map (fun x => map (fun k => PointFaceTangent K i k x) (range 0 2))
                                              (make_points c 2 i (degree + 2)))
                           (range 0 4)
                else edge_nodes)
          end) = Ok (concat (map (edge_fun c v degree) (range 0 6)) ++ concat F)).
    { unfold F. destruct v.
      - rewrite !flat_map_concat_map. destruct (Nat.ltb 0 degree); [reflexivity|].
        rewrite concat_nils, app_nil_r. reflexivity.
      - destruct (facet_element_ok c Hc) as (fc & -> & Hf & Hfd); [lia|]. cbn [bind].
        destruct (facet_element_ok fc Hf) as (ec & -> & Hec & Hed); [lia|]. cbn [bind].
        rewrite dimension_binom by assumption. rewrite Hed, Hfd, Hd. cbn [bind Nat.sub].
        rewrite dimension_binom by assumption. rewrite Hfd, Hd. cbn [bind Nat.sub]. rewrite binom_1.
        destruct (Nat.ltb_spec 0 degree); rewrite !moments_concat.
        + do 2 f_equal. replace (2 * (3 * binom (degree - 1 + 2) 2) / 3) with (2 * binom (degree + 1) 2); [reflexivity|].
          replace (degree - 1 + 2) with (degree + 1) by lia.
          replace (2 * (3 * binom (degree + 1) 2)) with (2 * binom (degree + 1) 2 * 3) by lia.
          symmetry. apply Nat.div_mul. lia.
        + rewrite concat_nils, app_nil_r. reflexivity. }
    cbn zeta in He |- *. rewrite He. clear He. cbn [bind]. rewrite edge_points, face_points by (assumption || lia).
    destruct (number_each _ _ 0) as [eids cur1] eqn:En.
    pose proof (number_each_keys _ _ _ _ _ En) as Kn.
    apply (number_each_seqd c 1 (edge_fun c v degree)) in En as (S1 & ->).
    2:{ intros e He'. apply in_range in He'. apply edge_fun_ok; auto; lia. }
    assert (L : length (concat (map (edge_fun c v degree) (range 0 6))) = (degree + 1) * 6).
    { rewrite (concat_const _ (degree + 1)); [reflexivity|].
      intros e He'. apply in_range in He'. apply edge_fun_ok; auto; lia. }
    rewrite Nat.add_0_l. set (cur1 := length (concat (map (edge_fun c v degree) (range 0 6)))) in *.
    assert (exists fc, fc = (if Nat.ltb 0 degree then number_each (2 * binom (degree + 1) 2) (range 0 4) cur1
                             else (empties 4, cur1))) as ((fids & cur2) & Ef) by eauto.
    rewrite <- Ef. symmetry in Ef.
    assert (HF : seqd c cur1 (flat1 2 fids) F /\ cur2 = cur1 + length (concat F) /\ keys fids = range 0 4 /\
                 length (concat F) = 8 * binom (degree + 1) 2).
    { unfold F. destruct (Nat.ltb_spec 0 degree) as [Hg|Hg].
      - pose proof (number_each_keys _ _ _ _ _ Ef) as Kf.
        apply (number_each_seqd c 2 (face_fun c v degree)) in Ef as (S2 & ->).
        2:{ intros e He'. apply in_range in He'. apply face_fun_ok; auto; lia. }
        repeat split; auto. rewrite (concat_const _ (2 * binom (degree + 1) 2)).
        { rewrite length_range. lia. }
        intros e He'. apply in_range in He'. apply face_fun_ok; auto; lia.
      - injection Ef as <- <-. rewrite nil_length. replace degree with 0 by lia.
        split; [apply empties_seqd|]. repeat split; lia. }
    destruct HF as (S2 & -> & Kf & LF). clear Ef.
    destruct (Nat.ltb_spec 1 degree) as [Hg|Hg].
    - rewrite dimension_binom, Hd by assumption. cbn [bind map range seq nth Nat.sub Nat.add]. rewrite N0.
      apply (dual3 c _ _ _ _ _ (map (edge_fun c v degree) (range 0 6)) F
               (internal_moments K 3 (binom (degree - 2 + 3) 3)) _ _ _ Hc Hd (empties_seqd c 0 0 4)).
      + rewrite nil_length. exact S1.
      + rewrite nil_length. exact S2.
      + pose proof (internal_on (K := K) c (binom (degree - 2 + 3) 3)) as H. now rewrite Hd in H.
      + rewrite nil_length, internal_length. fold cur1. unfold range. f_equal. lia.
      + reflexivity.
      + exact Kn.
      + exact Kf.
      + reflexivity.
      + rewrite nil_length, internal_length, LF. fold cur1. rewrite L. unfold ned3_dim.
        replace (degree - 2 + 3) with (degree + 1) by lia. lia.
      + rewrite concat_nils. cbn [app]. now rewrite app_assoc.
    - cbn [bind map range seq nth Nat.sub Nat.add]. rewrite N0, N3.
      apply (dual3 c _ _ _ _ _ (map (edge_fun c v degree) (range 0 6)) F [] _ _ _ Hc Hd (empties_seqd c 0 0 4)).
      + rewrite nil_length. exact S1.
      + rewrite nil_length. exact S2.
      + constructor.
      + reflexivity.
      + reflexivity.
      + exact Kn.
      + exact Kf.
      + reflexivity.
      + rewrite nil_length, LF. fold cur1. rewrite L. unfold ned3_dim.
        replace (binom (degree + 1) 3) with 0; [cbn; lia|]. symmetry. apply binom_lt. lia.
      + rewrite concat_nils. cbn [app]. now rewrite app_nil_r.
  Qed.

  (** ** Brezzi-Douglas-Marini *)
  Definition facet_fun (c : cell) (v : variant) (k : nat) (e : nat) : list node :=
    let sd := spatial_dimension c in
    match v with
    | VPoint => map (PointScaledNormal K e) (make_points c (sd - 1) e (sd + k))
    | VIntegral => map (fun i => Moment K MNormal (sd - 1) e i) (range 0 (binom (k + (sd - 1)) (sd - 1)))
    end.
  Lemma facet_fun_ok c v k e : simplex c -> e < num c (spatial_dimension c - 1) ->
    Forall (node_on c (spatial_dimension c - 1) e) (facet_fun c v k e) /\
    length (facet_fun c v k e) = binom (k + (spatial_dimension c - 1)) (spatial_dimension c - 1).
  Proof.
    intros Hc He. destruct (facets c Hc) as (_ & Hsd). destruct v; unfold facet_fun; cbn [facet_fun].
    - split.
      + apply map_on. intros x Hx. cbn. split; [lia|split; [reflexivity|]].
        eapply make_points_interior; eauto. lia.
      + rewrite map_length, points_count by (assumption || lia). f_equal. lia.
    - split; [apply moments_on|apply moment_length].
  Qed.
  Lemma facet_nodes_eq c v k : simplex c -> (v = VPoint \/ 2 <= spatial_dimension c) ->
    (let sd := spatial_dimension c in
     match v with
          | VIntegral =>
            bind (facet_element c) (fun facet =>
            bind (polynomial_dimension facet k) (fun nq => Ok (moments K MNormal (sd - 1) (num c (sd - 1)) nq)))
          | VPoint =>
            Ok (flat_map (fun i => map (PointScaledNormal K i) (make_points c (sd - 1) i (sd + k)))
                         (range 0 (num c (sd - 1))))
          end) = Ok (flat_map (facet_fun c v k) (range 0 (num c (spatial_dimension c - 1)))).
  Proof.
    intros Hc Hv. cbn zeta. destruct v; [reflexivity|]. destruct Hv as [Hv|Hv]; [discriminate|].
    destruct (facet_element_ok c Hc Hv) as (fc & -> & Hf & Hfd). cbn [bind].
    rewrite dimension_binom, Hfd by assumption. reflexivity.
  Qed.

  Lemma complete_length c n r : complete (K := K) c n r -> exists el, r = Ok el /\ length (el_nodes K el) = n.
  Proof. intros (el & -> & _ & _ & _ & H). eauto. Qed.

  Definition bdm_dim (sd k : nat) : nat := sd * binom (k + sd) sd.
  Lemma BDM_ok c k v : simplex c -> 2 <= spatial_dimension c -> 1 <= k ->
    complete c (bdm_dim (spatial_dimension c) k) (BrezziDouglasMarini K c k v).
  Proof.
    intros Hc Hd Hk. destruct (facets c Hc) as (Nf & Hsd). unfold BrezziDouglasMarini.
    destruct (Nat.ltb_spec k 1); [lia|]. unfold on_members. rewrite dimension_binom by assumption. cbn [bind].
    pose proof (facet_nodes_eq c v k Hc (or_intror Hd)) as HF. cbn zeta in HF. rewrite HF. clear HF. cbn [bind].
    assert (HN : exists ni, (if Nat.ltb 1 k then bind (Nedelec K c (k - 1) v) (fun ned => Ok (length (el_nodes K ned)))
                             else Ok 0) = Ok ni /\ (k = 1 -> ni = 0) /\
                 (spatial_dimension c + 1) * binom (k + (spatial_dimension c - 1)) (spatial_dimension c - 1) + ni =
                 bdm_dim (spatial_dimension c) k).
    { assert (Hcase : spatial_dimension c = 2 \/ spatial_dimension c = 3)
        by (destruct c; try contradiction; cbn in *; lia).
      destruct (Nat.ltb_spec 1 k) as [H1|H1].
      - destruct k as [|[|k]]; try lia. replace (S (S k) - 1) with (S k) by lia. unfold bdm_dim.
        destruct Hcase as [E|E].
        + assert (Ht : triangle c) by (destruct c; try contradiction; try discriminate; reflexivity).
          destruct (complete_length _ _ _ (Nedelec2_ok c (S k) v Ht ltac:(lia))) as (el & -> & El). cbn [bind]. rewrite El.
          eexists. split; [reflexivity|]. split; [discriminate|]. rewrite E. cbn [Nat.sub].
          replace (S (S k) + 2) with (S (S (k + 2))) by lia. replace (S k + 1) with (k + 2) by lia.
          rewrite (binom_SS (S (k + 2)) 1), (binom_SS (k + 2) 1), !binom_1. lia.
        + destruct (complete_length _ _ _ (Nedelec3_ok c (S k) v Hc E ltac:(lia))) as (el & -> & El). cbn [bind]. rewrite El.
          eexists. split; [reflexivity|]. split; [discriminate|]. rewrite E. unfold ned3_dim.
          replace (S k - 1) with k by lia. change (3 - 1) with 2.
          replace (S (S k) + 2) with (S (S (S (k + 1)))) by lia.
          replace (S (S k) + 3) with (S (S (S (S (k + 1))))) by lia.
          rewrite ?binom_SS, ?binom_1, ?binom_0. lia.
      - replace k with 1 by lia. exists 0. split; [reflexivity|]. split; [auto|].
        unfold bdm_dim. destruct Hcase as [-> | ->]; reflexivity. }
    destruct HN as (ni & -> & Hn0 & HN). cbn [bind].
    assert (HP : length (make_points c (spatial_dimension c - 1) 0 (spatial_dimension c + k)) =
                 binom (k + (spatial_dimension c - 1)) (spatial_dimension c - 1)).
    { rewrite points_count by (assumption || lia). f_equal. lia. }
    rewrite HP. destruct (number_each _ _ 0) as [ids cur] eqn:En.
    apply (facet_dual c (facet_fun c v k) (map (Moment K MFrobenius (spatial_dimension c) 0) (range 0 ni)) _ _ _ ids cur
             Hc (fun e He => facet_fun_ok c v k e Hc He)); auto.
    - apply moments_on.
    - rewrite map_length, length_range, Nat.sub_0_r. exact HN.
    - rewrite map_length, length_range, Nat.sub_0_r. destruct (Nat.ltb_spec 1 k); [reflexivity|].
      rewrite Hn0 by lia. rewrite Nat.add_0_r. unfold range. now rewrite Nat.sub_diag.
  Qed.
End Proofs.
