(** Dual sets on triangles, and the vector and tensor families. *)
From Coq Require Import Permutation.
From Verif Require Import Base ModelIndex SpecIndex ProofsIndex Sorting ModelCell SpecCell ProofsCell ModelConcat SpecConcat
  ModelFam SpecFam ProofsFam.

Section Proofs.
  Context {K : fieldT} (HK : char0 K).
  Notation node := (node K).
  Notation element := (element K).
  Notation make_points := (make_points K).

  Ltac pts := repeat match goal with
    | |- context [length (ModelFam.make_points K ?c 0 ?e ?o)] => rewrite (@make_points_length0 K c e o)
    | |- context [length (ModelFam.make_points K ?c ?d ?e ?o)] =>
      rewrite (@make_points_length K c d e o) by (first [exact I | solve [auto] | cbn; lia])
    end.
  Ltac pascal :=
    repeat match goal with
    | |- context [binom (?n - 1) ?d] =>
      match n with
      | S ?m => replace (S m - 1) with m by lia
      | ?a + ?b => let m := eval cbn in (pred b) in replace (a + b - 1) with (a + m) by lia
      end
    end;
    rewrite ?Nat.add_succ_r, ?Nat.add_succ_l, ?Nat.add_0_r, ?Nat.add_0_l;
    rewrite ?binom_SS, ?binom_1, ?binom_0; cbn [binom].

  Lemma seqd_cons' c off d e l (ns : list node) R N :
    Forall (node_on c d e) ns -> l = seq off (length ns) -> seqd c (off + length ns) R N ->
    seqd c off ((DI d, e, l) :: R) (ns :: N).
  Proof. intros H1 -> H2. now constructor. Qed.

  Definition triangle (c : cell) : Prop := is_triangle c = true.
  Lemma triangle_simplex c : triangle c -> simplex c /\ spatial_dimension c = 2 /\ num c 0 = 3 /\ num c 1 = 3 /\
    skel (topology c) = [(DI 0, [0; 1; 2]); (DI 1, [0; 1; 2]); (DI 2, [0])].
  Proof. intros H; destruct c; try discriminate; cbn; auto. Qed.

  Lemma normal_on c e order : triangle c -> e < 3 ->
    Forall (node_on c 1 e) (map (PointNormalDerivative K e) (make_points c 1 e order)).
  Proof.
    intros Hc He. destruct (triangle_simplex c Hc) as (Hs & Hd & _ & Hn & _). apply map_on. intros x Hx.
    cbn. split; [lia|split; [reflexivity|]]. eapply make_points_interior; eauto; lia.
  Qed.

  Lemma normal_on1 c e order : triangle c -> e < 3 ->
    Forall (node_on c 1 e) (map (PointNormalDerivative K e) (first (make_points c 1 e order))).
  Proof.
    intros Hc He. pose proof (normal_on c e order Hc He) as H. unfold first.
    destruct (make_points c 1 e order) as [|x l]; cbn in *; [constructor|].
    inversion H; subst. constructor; [assumption|constructor].
  Qed.

  Lemma vertex_on c v : triangle c -> v < 3 -> Forall (node_on c 0 v) [PointEvaluation K (vertex K c v)].
  Proof.
    intros Hc Hv. destruct (triangle_simplex c Hc) as (Hs & Hd & Hn & _). constructor; [|constructor].
    apply (vertex_interior HK); auto; lia.
  Qed.

  Lemma Morley_ok c : triangle c -> complete c 6 (Morley K c).
  Proof.
    intros Ht. destruct (triangle_simplex c Ht) as (Hc & Hd & N0 & N1 & Hsk).
    unfold Morley, on_members. rewrite dimension_binom by assumption. cbn [bind]. rewrite Ht. cbn [negb].
    rewrite Hd.
    destruct (visit K _ _ _) as [ids0 st] eqn:E0.
    rewrite keys_sorted, N0 in E0 by (assumption || lia).
    pose proof (visit_keys _ _ _ _ _ E0) as K0.
    apply (visit_seqd c 0) in E0 as (S0 & ->).
    2:{ intros e He. apply in_range in He. apply vertex_on; [assumption|lia]. }
    destruct (visit K _ _ _) as [ids1 st'] eqn:E1.
    rewrite keys_sorted, N1 in E1 by (assumption || lia).
    pose proof (visit_keys _ _ _ _ _ E1) as K1.
    apply (visit_seqd c 1) in E1 as (S1 & ->).
    2:{ intros e He. apply in_range in He. apply normal_on1; [assumption|lia]. }
    match type of S0 with seqd _ _ _ ?A => match type of S1 with seqd _ _ _ ?B =>
      eapply (complete_intro _ _ _ _ _ (A ++ (B ++ [[]]))) end end.
    - cbn [snd app]. rewrite !concat_app. cbn [concat app]. rewrite app_nil_r. reflexivity.
    - rewrite !flatten_cons. apply seqd_app; [exact S0|]. apply seqd_app; [exact S1|].
      rewrite app_nil_r. apply one_seqd; [constructor|reflexivity].
    - rewrite Hsk. unfold skel. cbn [map]. now rewrite K0, K1.
    - reflexivity.
    - rewrite !concat_app, !app_length. cbn [concat app length].
      rewrite (concat_const _ 1) by reflexivity. rewrite (concat_const _ 1).
      + reflexivity.
      + intros e He. apply in_range in He. rewrite map_length. apply first_length. pts. cbn. lia.
  Qed.

  Lemma QuinticArgyris_ok c : triangle c -> complete c 21 (QuinticArgyris K c).
  Proof.
    intros Ht. destruct (triangle_simplex c Ht) as (Hc & Hd & N0 & N1 & Hsk).
    unfold QuinticArgyris, on_members. rewrite dimension_binom by assumption. cbn [bind]. rewrite Ht. cbn [negb].
    rewrite Hd.
    destruct (visit K (jet2 K c) _ _) as [ids0 st] eqn:E0.
    rewrite keys_sorted, N0 in E0 by (assumption || lia).
    pose proof (visit_keys _ _ _ _ _ E0) as K0.
    apply (visit_seqd c 0) in E0 as (S0 & ->).
    2:{ intros e He. apply in_range in He. apply (jet2_on HK); [assumption|lia]. }
    destruct (visit K _ _ _) as [ids1 st'] eqn:E1.
    rewrite keys_sorted, N1 in E1 by (assumption || lia).
    pose proof (visit_keys _ _ _ _ _ E1) as K1.
    apply (visit_seqd c 1) in E1 as (S1 & ->).
    2:{ intros e He. apply in_range in He. apply normal_on1; [assumption|lia]. }
    match type of S0 with seqd _ _ _ ?A => match type of S1 with seqd _ _ _ ?B =>
      eapply (complete_intro _ _ _ _ _ (A ++ (B ++ [[]]))) end end.
    - cbn [snd app]. rewrite !concat_app. cbn [concat app]. rewrite app_nil_r. reflexivity.
    - rewrite !flatten_cons. apply seqd_app; [exact S0|]. apply seqd_app; [exact S1|].
      rewrite app_nil_r. apply one_seqd; [constructor|reflexivity].
    - rewrite Hsk. unfold skel. cbn [map]. now rewrite K0, K1.
    - reflexivity.
    - rewrite !concat_app, !app_length. cbn [concat app length].
      rewrite (concat_const _ 6) by (intros; rewrite jet2_length; lia). rewrite (concat_const _ 1).
      + reflexivity.
      + intros e He. apply in_range in He. rewrite map_length. apply first_length. pts. cbn. lia.
  Qed.

  Lemma Bell_ok c : triangle c -> complete c 21 (Bell K c).
  Proof.
    intros Ht. destruct (triangle_simplex c Ht) as (Hc & Hd & N0 & N1 & Hsk).
    unfold Bell, on_members. rewrite dimension_binom by assumption. cbn [bind]. rewrite Ht. cbn [negb].
    rewrite Hd.
    destruct (visit K (jet2 K c) _ _) as [ids0 st] eqn:E0.
    rewrite keys_sorted, N0 in E0 by (assumption || lia).
    pose proof (visit_keys _ _ _ _ _ E0) as K0.
    apply (visit_seqd c 0) in E0 as (S0 & ->).
    2:{ intros e He. apply in_range in He. apply (jet2_on HK); [assumption|lia]. }
    rewrite keys_sorted, N1 by (assumption || lia).
    assert (L0 : length (concat (map (jet2 K c) (range 0 3))) = 18).
    { rewrite (concat_const _ 6) by (intros; rewrite jet2_length; lia). reflexivity. }
    match type of S0 with seqd _ _ _ ?A => eapply (complete_intro _ _ _ _ _ (A ++ (map (fun e => [Moment K MNormalDerivative 1 e 0]) (range 0 3) ++ [[]]))) end.
    - cbn [snd app]. rewrite !concat_app. reflexivity.
    - rewrite !flatten_cons. apply seqd_app; [exact S0|]. rewrite L0.
      apply seqd_app.
      + cbn. repeat (apply seqd_cons'; [repeat constructor|reflexivity|cbn]). constructor.
      + rewrite app_nil_r. apply one_seqd; [constructor|reflexivity].
    - rewrite Hsk. unfold skel. cbn [map]. now rewrite K0.
    - reflexivity.
    - rewrite !concat_app, !app_length, L0. reflexivity.
  Qed.

  (** Argyris: the edge loop is the generic loop with two node lists per edge *)
  Definition argyris_edge (c : cell) (degree e : nat) : list node :=
    map (PointNormalDerivative K e) (make_points c 1 e (degree - 3)) ++
    (if Nat.ltb 5 degree then map (PointEvaluation K) (make_points c 1 e (degree - 4)) else []).
  Lemma range_glue cur a b : range cur (cur + a) ++ range (cur + a) (cur + a + b) = range cur (cur + (a + b)).
  Proof.
    unfold range. replace (cur + a - cur) with a by lia. replace (cur + a + b - (cur + a)) with b by lia.
    replace (cur + (a + b) - cur) with (a + b) by lia. now rewrite seq_app.
  Qed.
  Lemma argyris_edges_visit c degree es : forall st,
    argyris_edges K c degree es st = visit K (argyris_edge c degree) es st.
  Proof.
    induction es as [|e es IH]; intros [cur nodes]; [reflexivity|].
    cbn [argyris_edges visit]. unfold argyris_edge at 1 2 3. destruct (Nat.ltb 5 degree) eqn:E.
    - rewrite range_glue, IH. unfold argyris_edge. rewrite E, !app_length, <- app_assoc, !Nat.add_assoc. reflexivity.
    - rewrite app_nil_r, IH. unfold argyris_edge. rewrite E, app_nil_r. reflexivity.
  Qed.

  Lemma Argyris_ok c degree : triangle c -> 5 <= degree -> complete c (binom (degree + 2) 2) (Argyris K c degree).
  Proof.
    intros Ht Hdeg. destruct (triangle_simplex c Ht) as (Hc & Hd & N0 & N1 & Hsk).
    unfold Argyris, on_members. rewrite dimension_binom by assumption. cbn [bind]. rewrite Ht. cbn [negb].
    rewrite Hd.
    destruct (visit K (jet2 K c) _ _) as [ids0 st] eqn:E0.
    rewrite keys_sorted, N0 in E0 by (assumption || lia).
    pose proof (visit_keys _ _ _ _ _ E0) as K0.
    apply (visit_seqd c 0) in E0 as (S0 & ->).
    2:{ intros e He. apply in_range in He. apply (jet2_on HK); [assumption|lia]. }
    rewrite argyris_edges_visit.
    destruct (visit K _ _ _) as [ids1 [cur nodes]] eqn:E1.
    rewrite keys_sorted, N1 in E1 by (assumption || lia).
    pose proof (visit_keys _ _ _ _ _ E1) as K1.
    apply (visit_seqd c 1) in E1 as (S1 & E1).
    2:{ intros e He. apply in_range in He. apply Forall_app; split; [apply normal_on; [assumption|lia]|].
        destruct (Nat.ltb 5 degree); [|constructor]. apply map_on. intros x Hx.
        eapply make_points_interior; eauto; lia. }
    apply pair_equal_spec in E1 as (Ecur & Enodes). rewrite Nat.add_0_l in Ecur. rewrite app_nil_l in Enodes. 
    assert (L0 : length (concat (map (jet2 K c) (range 0 3))) = 18).
    { rewrite (concat_const _ 6) by (intros; rewrite jet2_length; lia). reflexivity. }
    assert (L1 : length (concat (map (argyris_edge c degree) (range 0 3))) = 3 * ((degree - 4) + (degree - 5))).
    { rewrite (concat_const _ ((degree - 4) + (degree - 5))). { rewrite length_range. lia. }
      intros e He. apply in_range in He. unfold argyris_edge. rewrite app_length, map_length. pts.
      rewrite binom_1. destruct (Nat.ltb_spec 5 degree).
      - rewrite map_length. pts. rewrite binom_1. lia.
      - cbn. lia. }
    destruct (Nat.ltb_spec 5 degree) as [H5|H5].
    - eapply (complete_intro _ _ _ _ _ (map (jet2 K c) (range 0 3) ++ (map (argyris_edge c degree) (range 0 3) ++
                [map (PointEvaluation K) (make_points c 2 0 (degree - 3))]))).
      + rewrite Enodes, !concat_app, <- app_assoc. cbn [concat]. rewrite app_nil_r. reflexivity.
      + rewrite !flatten_cons. apply seqd_app; [exact S0|]. apply seqd_app; [exact S1|].
        rewrite app_nil_r. apply one_seqd.
        * apply map_on. intros x Hx. eapply make_points_interior; eauto; [lia|].
          rewrite <- Hd, num_cell by assumption. lia.
        * rewrite Ecur. unfold range. f_equal. lia.
      + rewrite Hsk. unfold skel. cbn [map]. now rewrite K0, K1.
      + lia.
      + rewrite !concat_app, !app_length, L0, L1. cbn [concat app length]. rewrite app_nil_r, map_length.
        rewrite make_points_length; [|assumption|lia|rewrite <- Hd, num_cell by assumption; lia].
        clear -H5. destruct degree as [|[|[|[|[|[|k]]]]]]; try lia.
        replace (S (S (S (S (S (S k))))) - 3 - 1) with (S (S k)) by lia.
        replace (S (S (S (S (S (S k))))) - 4) with (S (S k)) by lia.
        replace (S (S (S (S (S (S k))))) - 5) with (S k) by lia.
        pascal. lia.
    - assert (degree = 5) as -> by lia.
      eapply (complete_intro _ _ _ _ _ (map (jet2 K c) (range 0 3) ++ (map (argyris_edge c 5) (range 0 3) ++ [[]]))).
      + rewrite Enodes, !concat_app. cbn [concat app]. now rewrite app_nil_r.
      + rewrite !flatten_cons. apply seqd_app; [exact S0|]. apply seqd_app; [exact S1|].
        rewrite app_nil_r. apply one_seqd; [constructor|reflexivity].
      + rewrite Hsk. unfold skel. cbn [map]. now rewrite K0, K1.
      + reflexivity.
      + rewrite !concat_app, !app_length, L0, L1. reflexivity.
  Qed.

  (** ** Raviart-Thomas *)
  Lemma facets c : simplex c -> num c (spatial_dimension c - 1) = spatial_dimension c + 1 /\ 1 <= spatial_dimension c.
  Proof. intros Hc; destruct c; try contradiction; cbn; lia. Qed.
  Lemma points_count c d e order : simplex c -> d <= spatial_dimension c -> e < num c d ->
    length (make_points c d e order) = binom (order - 1) d.
  Proof.
    intros Hc Hd He. destruct d; [now rewrite binom_0|]. apply make_points_length; auto. lia.
  Qed.

  Definition low (c : cell) : dict (list nat) :=
    map (fun i => (DI i, empties (num c i))) (range 0 (spatial_dimension c - 1)).
  Definition lowN (c : cell) : list (list node) :=
    flat_map (fun i => map (fun _ => []) (range 0 (num c i))) (range 0 (spatial_dimension c - 1)).
  Lemma low_seqd c cur : seqd c cur (flatten_dict (low c)) (lowN c).
  Proof.
    unfold low, lowN. generalize (range 0 (spatial_dimension c - 1)). intros l.
    induction l as [|i l IH]; cbn [map flat_map]; [constructor|].
    rewrite flatten_cons. apply seqd_app; [apply nil_seqd|]. rewrite concat_nils. cbn [length].
    now rewrite Nat.add_0_r.
  Qed.
  Lemma lowN_nil c : concat (lowN c) = [].
  Proof.
    unfold lowN. generalize (range 0 (spatial_dimension c - 1)). intros l.
    induction l as [|i l IH]; [reflexivity|]. cbn [flat_map]. now rewrite concat_app, concat_nils.
  Qed.
  Lemma skel_facets c X Y : simplex c -> keys X = range 0 (num c (spatial_dimension c - 1)) -> keys Y = [0] ->
    skel (low c ++ [(DI (spatial_dimension c - 1), X); (DI (spatial_dimension c), Y)]) = skel (topology c).
  Proof.
    intros Hc HX HY. unfold skel, low. rewrite map_app, map_map. cbn [map]. rewrite HX, HY.
    clear -Hc. destruct c; try contradiction; reflexivity.
  Qed.

  (** an H(div)-like dual set: [n] nodes on each facet, then [inner] on the cell *)
  Lemma facet_dual c (f : nat -> list node) (inner : list node) n m total ids cur :
    simplex c ->
    (forall e, e < num c (spatial_dimension c - 1) ->
       Forall (node_on c (spatial_dimension c - 1) e) (f e) /\ length (f e) = n) ->
    Forall (node_on c (spatial_dimension c) 0) inner ->
    number_each n (range 0 (num c (spatial_dimension c - 1))) 0 = (ids, cur) ->
    m = total -> (spatial_dimension c + 1) * n + length inner = total ->
    forall l, l = range cur (cur + length inner) ->
    complete c total (Ok (mkEl K m (flat_map f (range 0 (num c (spatial_dimension c - 1))) ++ inner)
      (low c ++ [(DI (spatial_dimension c - 1), ids); (DI (spatial_dimension c), [(0, l)])]))).
  Proof.
    intros Hc Hf Hi Hn Hm Ht l Hl. destruct (facets c Hc) as (Nf & Hsd).
    pose proof (number_each_keys _ _ _ _ _ Hn) as Kn.
    apply (number_each_seqd c (spatial_dimension c - 1) f) in Hn as (S1 & ->).
    2:{ intros e He. apply in_range in He. apply Hf. lia. }
    apply (complete_intro _ _ _ _ _
             (lowN c ++ (map f (range 0 (num c (spatial_dimension c - 1))) ++ [inner]))).
    - rewrite !concat_app, lowN_nil, flat_map_concat_map. cbn. now rewrite app_nil_r.
    - rewrite flatten_app, !flatten_cons. apply seqd_app; [apply low_seqd|].
      rewrite lowN_nil. cbn [length Nat.add]. apply seqd_app; [exact S1|].
      rewrite app_nil_r. apply one_seqd; [exact Hi|]. rewrite Hl. unfold range. f_equal. lia.
    - apply skel_facets; auto.
    - exact Hm.
    - rewrite !concat_app, lowN_nil, !app_length, (concat_const _ n).
      + cbn [concat]. rewrite app_nil_r, length_range, Nf, <- Ht. cbn. lia.
      + intros e He. apply in_range in He. apply Hf. lia.
  Qed.

  Lemma facet_element_ok c : simplex c -> 2 <= spatial_dimension c ->
    exists f, facet_element c = Ok f /\ simplex f /\ spatial_dimension f = spatial_dimension c - 1.
  Proof.
    intros Hc Hd. destruct c; try contradiction; cbn in Hd; try lia;
      (eexists; split; [reflexivity|]; cbn; auto).
  Qed.

  Definition rt_dim (sd degree : nat) : nat := sd * binom (degree + sd) sd + binom (degree + sd - 1) (sd - 1).

  Lemma rt_members_eq c degree : simplex c -> rt_members c degree = Ok (rt_dim (spatial_dimension c) degree).
  Proof.
    intros Hc. destruct (facets c Hc) as (_ & Hsd). unfold rt_members, rt_dim.
    rewrite dimension_binom by assumption. cbn [bind].
    destruct (spatial_dimension c) as [|d] eqn:E; [lia|].
    replace (S d - 1) with d by lia. replace (degree + S d - 1) with (degree + d) by lia.
    destruct degree as [|k]; cbn [Nat.ltb Nat.leb bind].
    - cbn [Nat.add]. rewrite !binom_diag. f_equal; lia.
    - rewrite dimension_binom, E by assumption. cbn [bind]. f_equal. f_equal.
      replace (S k - 1 + S d) with (S k + d) by lia. replace (S k + S d) with (S (S k + d)) by lia.
      rewrite binom_SS. lia.
  Qed.

  Lemma moments_on c d e kind l : Forall (node_on c d e) (map (fun i => Moment K kind d e i) l).
  Proof. apply map_on. intros; cbn; auto. Qed.

  Lemma internal_on c n : Forall (node_on c (spatial_dimension c) 0) (internal_moments K (spatial_dimension c) n).
  Proof. apply flat_map_on. intros d _. apply map_on. intros; cbn; auto. Qed.
  Lemma internal_length sd n : length (internal_moments K sd n) = sd * n.
  Proof.
    unfold internal_moments. rewrite flat_map_concat_map, (concat_const _ n).
    - rewrite length_range. lia.
    - intros. now rewrite map_length, length_range, Nat.sub_0_r.
  Qed.

  Lemma rt_arith sd degree : 1 <= sd -> 0 < degree ->
    (sd + 1) * binom (sd + degree - 1) (sd - 1) + sd * binom (degree - 1 + sd) sd = rt_dim sd degree.
  Proof.
    intros Hs Hd. unfold rt_dim. destruct sd as [|d]; [lia|]. destruct degree as [|k]; [lia|].
    replace (S d - 1) with d by lia. replace (S d + S k - 1) with (S (k + d)) by lia.
    replace (S k + S d - 1) with (S (k + d)) by lia. replace (S k - 1 + S d) with (S (k + d)) by lia.
    replace (S k + S d) with (S (S (k + d))) by lia. rewrite (binom_SS (S (k + d)) d). lia.
  Qed.
  Lemma rt_arith0 sd : 1 <= sd -> (sd + 1) * binom (sd + 0 - 1) (sd - 1) + 0 = rt_dim sd 0.
  Proof.
    intros Hs. unfold rt_dim. rewrite !Nat.add_0_r. cbn [Nat.add]. rewrite !binom_diag. lia.
  Qed.

  Lemma RaviartThomas_ok c k v : simplex c -> 1 <= k -> (v = VPoint \/ 2 <= spatial_dimension c) ->
    complete c (rt_dim (spatial_dimension c) (k - 1)) (RaviartThomas K c k v).
  Proof.
    intros Hc Hk Hv. destruct (facets c Hc) as (Nf & Hsd).
    unfold RaviartThomas. set (degree := k - 1). rewrite rt_members_eq by assumption. cbn [bind].
    set (sd := spatial_dimension c) in *.
    assert (HP : length (make_points c (sd - 1) 0 (sd + degree)) = binom (sd + degree - 1) (sd - 1)).
    { apply points_count; auto; fold sd; lia. }
    assert (Hids : rt_ids K c degree = Ok (low c ++
      [(DI (sd - 1), fst (number_each (binom (sd + degree - 1) (sd - 1)) (range 0 (num c (sd - 1))) 0));
       (DI sd, [(0, let cur := snd (number_each (binom (sd + degree - 1) (sd - 1)) (range 0 (num c (sd - 1))) 0) in
                    if Nat.ltb 0 degree then range cur (cur + binom (degree - 1 + sd) sd * sd) else [])])])).
    { unfold rt_ids. fold sd. rewrite HP. destruct (number_each _ _ 0) as [ids cur]. cbn [fst snd].
      destruct (Nat.ltb 0 degree); [rewrite dimension_binom by assumption; reflexivity|reflexivity]. }
    rewrite Hids. clear Hids. destruct (number_each _ _ 0) as [ids cur] eqn:En. cbn [fst snd].
    destruct v; cbn [rt_nodes]; fold sd.
    - (* point *)
      destruct (Nat.ltb_spec 0 degree) as [Hd|Hd]; cbn [bind].
      + apply (facet_dual c (fun i => map (PointScaledNormal K i) (make_points c (sd - 1) i (sd + degree))) _
                 (binom (sd + degree - 1) (sd - 1)) _ _ ids cur); auto.
        * intros e He. fold sd in He |- *. split; [|rewrite map_length; apply points_count; auto; fold sd; lia].
          apply map_on. intros x Hx. cbn. split; [fold sd; lia|split; [reflexivity|]].
          eapply make_points_interior; eauto. fold sd. lia.
        * apply flat_map_on. intros d _. apply map_on. intros x Hx. cbn.
          eapply make_points_interior; eauto. { fold sd. rewrite num_cell by assumption. lia. }
        * fold sd. rewrite flat_map_concat_map, (concat_const _ (binom (degree - 1 + sd) sd)).
          { rewrite length_range. replace (sd - 0) with sd by lia. rewrite (Nat.mul_comm _ sd). apply rt_arith; lia. }
          intros d _. rewrite map_length. rewrite points_count; auto; [f_equal; lia|].
          unfold sd. rewrite num_cell by assumption. lia.
        * fold sd. f_equal. f_equal. rewrite flat_map_concat_map, (concat_const _ (binom (degree - 1 + sd) sd)).
          { rewrite length_range. lia. }
          intros d _. rewrite map_length. rewrite points_count; auto; [f_equal; lia|].
          unfold sd. rewrite num_cell by assumption. lia.
      + replace degree with 0 in * by lia.
        rewrite <- (app_nil_r (flat_map _ _)).
        apply (facet_dual c (fun i => map (PointScaledNormal K i) (make_points c (sd - 1) i (sd + 0))) []
                 (binom (sd + 0 - 1) (sd - 1)) _ _ ids cur); auto.
        * intros e He. fold sd in He |- *. split; [|rewrite map_length; apply points_count; auto; fold sd; lia].
          apply map_on. intros x Hx. cbn. split; [fold sd; lia|split; [reflexivity|]].
          eapply make_points_interior; eauto. fold sd. lia.
        * apply rt_arith0. exact Hsd.
        * unfold range. now replace (cur + length [] - cur) with 0 by (cbn; lia).
    - (* integral *)
      destruct Hv as [Hv|Hv]; [discriminate|].
      destruct (facet_element_ok c Hc Hv) as (fc & -> & Hf & Hfd). cbn [bind].
      rewrite dimension_binom, Hfd by assumption. fold sd. cbn [bind]. unfold moments.
      assert (Hq : binom (degree + (sd - 1)) (sd - 1) = binom (sd + degree - 1) (sd - 1)) by (f_equal; lia).
      destruct (Nat.ltb_spec 0 degree) as [Hd|Hd]; cbn [bind].
      + rewrite dimension_binom by assumption. cbn [bind]. fold sd.
        apply (facet_dual c (fun e => map (fun i => Moment K MNormal (sd - 1) e i)
                                         (range 0 (binom (degree + (sd - 1)) (sd - 1)))) _
                 (binom (sd + degree - 1) (sd - 1)) _ _ ids cur); auto.
        * intros e He. split; [apply moments_on|]. rewrite map_length, length_range. lia.
        * apply internal_on.
        * fold sd. rewrite internal_length. apply rt_arith; lia.
        * fold sd. rewrite internal_length. f_equal. lia.
      + replace degree with 0 in * by lia.
        rewrite <- (app_nil_r (flat_map _ _)).
        apply (facet_dual c (fun e => map (fun i => Moment K MNormal (sd - 1) e i)
                                         (range 0 (binom (0 + (sd - 1)) (sd - 1)))) []
                 (binom (sd + 0 - 1) (sd - 1)) _ _ ids cur); auto.
        * intros e He. split; [apply moments_on|]. rewrite map_length, length_range. lia.
        * apply rt_arith0. exact Hsd.
        * unfold range. now replace (cur + length [] - cur) with 0 by (cbn; lia).
  Qed.
End Proofs.
