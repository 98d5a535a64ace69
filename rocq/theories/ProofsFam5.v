(** Dual sets: Crouzeix-Raviart, discontinuous families, and the elements with
    a fixed degree. *)
From Coq Require Import Permutation.
From Verif Require Import Base ModelIndex SpecIndex ProofsIndex Sorting ModelCell SpecCell ProofsCell ModelConcat SpecConcat
  ModelFam SpecFam ProofsFam ProofsFam2 ProofsFam3 ProofsFam4.

Section Proofs.
  Context {K : fieldT} (HK : char0 K).
  Notation node := (node K).
  Notation element := (element K).
  Notation make_points := (make_points K).

  Lemma single {A} (l : list A) : length l = 1 -> exists x, l = [x].
  Proof. destruct l as [|x [|]]; cbn; try lia. eauto. Qed.

  (** ** Crouzeix-Raviart *)
  Lemma cr_point c i : simplex c -> i < num c (spatial_dimension c - 1) ->
    exists x, make_points c (spatial_dimension c - 1) i (spatial_dimension c) = [x] /\
      interior_point (vertices_of c (spatial_dimension c - 1) i) x.
  Proof.
    intros Hc Hi. destruct (facets c Hc) as (_ & Hsd).
    destruct (single (make_points c (spatial_dimension c - 1) i (spatial_dimension c))) as (x & E).
    { rewrite points_count by (assumption || lia). apply binom_diag. }
    exists x. split; [exact E|]. apply (make_points_interior HK _ _ _ (spatial_dimension c)); auto; [lia|].
    rewrite E. now left.
  Qed.

  Ltac crN N :=
    apply (complete_intro _ _ _ _ _ N);
    [ reflexivity
    | repeat (apply seqd_cons'; [first [apply Forall_nil | apply Forall_cons; [assumption|apply Forall_nil]]
                                |reflexivity|]); constructor
    | reflexivity | reflexivity | reflexivity ].
  Lemma CrouzeixRaviart_ok c : simplex c -> complete c (spatial_dimension c + 1) (CrouzeixRaviart K c 1).
  Proof.
    intros Hc. unfold CrouzeixRaviart, on_members. cbn [Nat.eqb negb]. rewrite dimension_binom by assumption. cbn [bind].
    pose proof (cr_point c 0 Hc) as P0. pose proof (cr_point c 1 Hc) as P1. pose proof (cr_point c 2 Hc) as P2.
    pose proof (cr_point c 3 Hc) as P3.
    destruct c; try contradiction;
      cbn [spatial_dimension Nat.sub num top topology dlookup option_list length deqb Nat.eqb] in P0, P1, P2, P3 |- *;
      destruct (P0 ltac:(cbn; lia)) as (x0 & E0 & I0); destruct (P1 ltac:(cbn; lia)) as (x1 & E1 & I1);
      try (destruct (P2 ltac:(cbn; lia)) as (x2 & E2 & I2)); try (destruct (P3 ltac:(cbn; lia)) as (x3 & E3 & I3));
      clear P0 P1 P2 P3;
      cbn -[ModelFam.make_points binom]; rewrite E0; cbn -[ModelFam.make_points binom]; rewrite E1;
      cbn -[ModelFam.make_points binom]; try (rewrite E2; cbn -[ModelFam.make_points binom]);
      try (rewrite E3; cbn -[ModelFam.make_points binom]).
    1,2: crN [[PointEvaluation K x0]; [PointEvaluation K x1]; []].
    1-3: crN [[]; []; []; [PointEvaluation K x0]; [PointEvaluation K x1]; [PointEvaluation K x2]; []].
    all: crN [[]; []; []; []; []; []; []; []; []; []; [PointEvaluation K x0]; [PointEvaluation K x1];
              [PointEvaluation K x2]; [PointEvaluation K x3]; []].
  Qed.

  (** ** All nodes on the cell *)
  Definition cell_ids (c : cell) (ids : dict (list nat)) (l : list nat) : Prop :=
    all_dofs ids = l /\ skel ids = skel (topology c) /\ dofs_on ids (get_dimension c, 0) = l.
  Lemma cell_only_intro c n m (nodes : list node) ids :
    cell_ids c ids (seq 0 (length nodes)) -> m = n -> length nodes = n ->
    cell_only c n (Ok (mkEl K m nodes ids)).
  Proof.
    intros (H1 & H2 & H3) -> Hn. eexists. split; [reflexivity|].
    split; [split; [unfold partitions; cbn [el_ids el_nodes]; now rewrite H1|apply same_skel; exact H2]|].
    split; [exact H3|]. auto.
  Qed.

  (** cells DiscontinuousElement meets: the simplices, the point and the
      flattened hypercubes *)
  Definition plain_cell (c : cell) : Prop :=
    simplex c \/ c = Point \/ c = UFCQuadrilateral \/ c = UFCHexahedron.
  Lemma set_last_ids c l : plain_cell c -> cell_ids c (set_last l (all_empty (topology c))) l.
  Proof.
    intros [Hc|[->|[->| ->]]]; [destruct c; try contradiction| | |]; unfold cell_ids; cbn; rewrite ?app_nil_r; auto.
  Qed.
  Lemma P0_ids c : simplex c -> cell_ids c
       ((fix go (t : dict (list nat)) := match t with
                | [] => [] | [(d, _)] => [(d, [(0, [0])])] | x :: t' => x :: go t' end)
              (all_empty (topology c))) [0].
  Proof. intros Hc; destruct c; try contradiction; unfold cell_ids; cbn; auto. Qed.

  Lemma P0_ok c : simplex c -> cell_only c 1 (P0 K c).
  Proof.
    intros Hc. unfold P0, on_members. rewrite dimension_binom by assumption. cbn [bind].
    apply cell_only_intro; [apply P0_ids; assumption| |reflexivity].
    cbn [Nat.add]. rewrite binom_diag. reflexivity.
  Qed.
  Lemma range_seq n : range 0 n = seq 0 n.
  Proof. unfold range. now rewrite Nat.sub_0_r. Qed.

  Lemma DG_ok c degree : simplex c -> cell_only c (binom (degree + spatial_dimension c) (spatial_dimension c))
    (DiscontinuousLagrange K c degree).
  Proof.
    intros Hc. unfold DiscontinuousLagrange. destruct (Nat.eqb_spec degree 0) as [->|Hd].
    { cbn [Nat.add]. rewrite binom_diag. now apply P0_ok. }
    unfold on_members. rewrite dimension_binom by assumption. cbn [bind].
    destruct (Lagrange_ok HK c degree Hc ltac:(lia)) as (el & E & _ & _ & Hm & Hl).
    unfold Lagrange, on_members in E. rewrite dimension_binom in E by assumption. cbn [bind] in E.
    destruct (lagrange_dual K c degree) as [nodes ids]. injection E as <-. cbn [el_nodes] in Hl.
    apply cell_only_intro; [rewrite range_seq; apply set_last_ids; now left|lia|exact Hl].
  Qed.
  (** the nodes of DiscontinuousLagrange are those of Lagrange *)
  Lemma DG_nodes c degree : simplex c -> 1 <= degree -> exists el el',
    Lagrange K c degree = Ok el /\ DiscontinuousLagrange K c degree = Ok el' /\ el_nodes K el' = el_nodes K el.
  Proof.
    intros Hc Hd. unfold DiscontinuousLagrange, Lagrange. destruct (Nat.eqb_spec degree 0); [lia|].
    unfold on_members. rewrite dimension_binom by assumption. cbn [bind].
    destruct (lagrange_dual K c degree). eauto.
  Qed.

  Lemma DiscontinuousElement_ok c (el : element) : plain_cell c ->
    let d := DiscontinuousElement K c el in
    el_nodes K d = el_nodes K el /\ el_members K d = el_members K el /\ numbered c d /\ on_cell c d.
  Proof.
    intros Hc. destruct (set_last_ids c (range 0 (length (el_nodes K el))) Hc) as (H1 & H2 & H3).
    repeat split.
    - unfold partitions. cbn [el_ids el_nodes DiscontinuousElement]. now rewrite H1, range_seq.
    - apply (same_skel _ _ H2).
    - apply (same_skel _ _ H2).
    - unfold on_cell. cbn [el_ids el_nodes DiscontinuousElement]. rewrite H3. apply range_seq.
  Qed.

  Lemma DRT_ok c k : simplex c -> 1 <= k ->
    cell_only c (rt_dim (spatial_dimension c) (k - 1)) (DiscontinuousRaviartThomas K c k).
  Proof.
    intros Hc Hk. destruct (RaviartThomas_ok HK c k VPoint Hc Hk (or_introl eq_refl)) as (el & E & _ & _ & Hm & Hl).
    unfold RaviartThomas in E. unfold DiscontinuousRaviartThomas.
    rewrite rt_members_eq in * by assumption. cbn [bind] in *. cbn [rt_nodes] in E. cbn zeta in E.
    set (F := flat_map _ (range 0 (num c (spatial_dimension c - 1)))) in *.
    set (nodes := if Nat.ltb 0 (k - 1) then _ else F).
    assert (Hn : length nodes = rt_dim (spatial_dimension c) (k - 1)).
    { rewrite <- Hl. unfold nodes. destruct (Nat.ltb 0 (k - 1)); cbn [bind] in E;
        destruct (rt_ids K c (k - 1)); try discriminate; cbn [bind] in E; injection E as <-; reflexivity. }
    apply cell_only_intro; [|reflexivity|exact Hn].
    rewrite (range_seq (length nodes)). clear -Hc. generalize (seq 0 (length nodes)). intros l. 
    destruct c; try contradiction; (split; [cbn; now rewrite ?app_nil_r|split; reflexivity]).
  Qed.
  (** same nodes as the point variant of Raviart-Thomas *)
  Lemma DRT_nodes c k : simplex c -> 1 <= k -> exists el el',
    RaviartThomas K c k VPoint = Ok el /\ DiscontinuousRaviartThomas K c k = Ok el' /\ el_nodes K el' = el_nodes K el.
  Proof.
    intros Hc Hk. destruct (RaviartThomas_ok HK c k VPoint Hc Hk (or_introl eq_refl)) as (el & E & _).
    exists el. unfold DiscontinuousRaviartThomas. unfold RaviartThomas in E |- *.
    rewrite rt_members_eq in * by assumption. cbn [bind] in *. eexists. split; [exact E|]. split; [reflexivity|].
    cbn [rt_nodes] in E. cbn zeta in E. cbn [el_nodes].
    destruct (Nat.ltb 0 (k - 1)); cbn [bind] in E;
        destruct (rt_ids K c (k - 1)); try discriminate; cbn [bind] in E; injection E as <-; reflexivity.
  Qed.

  (** ** Discontinuous Taylor *)
  Lemma taylor_nodes dim degree (x : list K) :
    length (flat_map (fun k => map (PointDerivative K x) (mis (S dim) k)) (range 1 (degree + 1))) + 1 =
    binom (degree + S dim) (S dim).
  Proof.
    unfold range. replace (degree + 1 - 1) with degree by lia.
    induction degree as [|n IH].
    - cbn [Nat.add]. now rewrite binom_diag.
    - rewrite seq_S, flat_map_app, app_length. cbn [flat_map]. rewrite app_nil_r, map_length, mis_length.
      replace (S n + S dim) with (S (n + S dim)) by lia. rewrite binom_SS.
      replace (1 + n + dim) with (n + S dim) by lia. lia.
  Qed.
  Lemma Taylor_ok c degree : simplex c -> cell_only c (binom (degree + spatial_dimension c) (spatial_dimension c))
    (DiscontinuousTaylor K c degree).
  Proof.
    intros Hc. unfold DiscontinuousTaylor. destruct (Nat.eqb_spec degree 0) as [->|Hd].
    { cbn [Nat.add]. rewrite binom_diag. now apply P0_ok. }
    unfold on_members. rewrite dimension_binom by assumption. cbn [bind].
    destruct (facets c Hc) as (_ & Hsd).
    set (nodes := Moment K MPlain _ 0 0 :: _).
    assert (Hn : length nodes = binom (degree + spatial_dimension c) (spatial_dimension c)).
    { unfold nodes. destruct (spatial_dimension c) as [|dim]; [lia|]. rewrite <- (taylor_nodes dim degree (barycenter K c)).
      cbn [length]. lia. }
    assert (Hids : exists ids, dset_in (DI (spatial_dimension c)) 0 (range 0 (length nodes))
      (map (fun d => (DI d, map (fun '(e, _) => (e, @nil nat)) (top c d))) (range 0 (spatial_dimension c + 1))) = Some ids /\
      cell_ids c ids (range 0 (length nodes))).
    { generalize (range 0 (length nodes)). intros l. clear -Hc.
      destruct c; try contradiction; (eexists; split; [reflexivity|]); unfold cell_ids; cbn; rewrite ?app_nil_r; auto. }
    destruct Hids as (ids & -> & Hi). rewrite range_seq in Hi.
    apply cell_only_intro; [exact Hi|lia|exact Hn].
  Qed.

  (** ** Line elements at quadrature points *)
  Lemma GaussLegendre_ok c degree pts : is_line c = true -> length pts = degree + 1 ->
    cell_only c (degree + 1) (GaussLegendre K c degree pts).
  Proof.
    intros Hc Hp. unfold GaussLegendre. rewrite Hc. cbn [negb].
    assert (Hs : simplex c) by (destruct c; try discriminate; exact I).
    unfold on_members. rewrite dimension_binom by assumption. cbn [bind].
    apply cell_only_intro; [|destruct c; try discriminate; cbn [spatial_dimension]; rewrite binom_1; lia|now rewrite map_length].
    rewrite map_length, Hp, <- range_seq. generalize (range 0 (degree + 1)). intros l.
    destruct c; try discriminate; unfold cell_ids; cbn; rewrite ?app_nil_r; auto.
  Qed.
  Lemma GaussLobatto_ok c degree pts : is_line c = true -> 1 <= degree -> length pts = degree + 1 ->
    exists el, GaussLobattoLegendre K c degree pts = Ok el /\ numbered c el /\
      el_members K el = degree + 1 /\ el_nodes K el = map (PointEvaluation K) pts /\
      dofs_on (el_ids K el) (DI 0, 0) = [0] /\ dofs_on (el_ids K el) (DI 0, 1) = [degree].
  Proof.
    intros Hc Hd Hp. unfold GaussLobattoLegendre. rewrite Hc. cbn [negb].
    assert (Hs : simplex c) by (destruct c; try discriminate; exact I).
    unfold on_members. rewrite dimension_binom by assumption. cbn [bind].
    destruct (Nat.ltb_spec (degree + 1) 2); [lia|]. eexists. split; [reflexivity|]. split; [split|].
    - unfold partitions. cbn [el_ids el_nodes]. rewrite map_length, Hp. unfold all_dofs. cbn [flat_map snd app].
      rewrite !app_nil_r. replace (degree + 1) with (S (degree - 1) + 1) by lia.
      rewrite seq_app. cbn [seq]. unfold range. constructor.
      replace (0 + S (degree - 1)) with degree by lia. apply Permutation_cons_append.
    - apply same_skel. destruct c; try discriminate; reflexivity.
    - cbn [el_members el_nodes el_ids]. repeat split; auto.
      destruct c; try discriminate; cbn [spatial_dimension]; rewrite binom_1; lia.
  Qed.

  (** ** Brezzi-Douglas-Fortin-Marini *)
  Lemma facet_dual_numbered c (f : nat -> list node) (inner : list node) n m ids cur :
    simplex c ->
    (forall e, e < num c (spatial_dimension c - 1) ->
       Forall (node_on c (spatial_dimension c - 1) e) (f e) /\ length (f e) = n) ->
    number_each n (range 0 (num c (spatial_dimension c - 1))) 0 = (ids, cur) ->
    forall l, l = range cur (cur + length inner) ->
    let el := mkEl K m (flat_map f (range 0 (num c (spatial_dimension c - 1))) ++ inner)
      (low c ++ [(DI (spatial_dimension c - 1), ids); (DI (spatial_dimension c), [(0, l)])]) in
    numbered c el /\
    (forall e i, In i (dofs_on (el_ids K el) (DI (spatial_dimension c - 1), e)) ->
       exists n, nth_error (el_nodes K el) i = Some n /\ node_on c (spatial_dimension c - 1) e n) /\
    length (el_nodes K el) = (spatial_dimension c + 1) * n + length inner.
  Proof.
    intros Hc Hf Hn l Hl el. destruct (facets c Hc) as (Nf & Hsd).
    set (inner' := map (Moment K MFrobenius (spatial_dimension c) 0) (range 0 (length inner))).
    assert (Li : length inner' = length inner) by (unfold inner'; rewrite map_length, length_range; lia).
    destruct (facet_dual c f inner' n _ _ ids cur Hc Hf ltac:(apply moments_on) Hn eq_refl eq_refl l) as
      (el' & E & (Hp & Hs) & Hpl & _ & Hlen).
    { now rewrite Li. }
    injection E as <-. cbn [el_ids el_nodes] in *.
    assert (EL : length (flat_map f (range 0 (num c (spatial_dimension c - 1))) ++ inner) =
                 (spatial_dimension c + 1) * n + length inner).
    { rewrite app_length, <- Li, <- Hlen, app_length. reflexivity. }
    split; [split|split].
    - cbn [el_ids el_nodes el]. rewrite EL, <- Li, <- Hlen. exact Hp.
    - exact Hs.
    - intros e i Hi. destruct (Hpl _ _ _ Hi) as (x & Ex & Hx). exists x. split; [|exact Hx].
      cbn [el el_nodes]. cbn [el_nodes] in Ex.
      destruct (Nat.lt_ge_cases i (length (flat_map f (range 0 (num c (spatial_dimension c - 1)))))) as [H|H].
      + rewrite nth_error_app1 in * by assumption. exact Ex.
      + exfalso. rewrite nth_error_app2 in Ex by assumption. apply nth_error_In in Ex.
        apply in_map_iff in Ex as (o & <- & _). cbn in Hx. lia.
    - exact EL.
  Qed.

  Lemma BDFM_ok c : triangle c -> exists el, BrezziDouglasFortinMarini K c 2 = Ok el /\ numbered c el /\
    el_members K el = 9 /\ length (el_nodes K el) = 9 /\
    (forall e i, In i (dofs_on (el_ids K el) (DI 1, e)) ->
       exists n, nth_error (el_nodes K el) i = Some n /\ node_on c 1 e n) /\
    dofs_on (el_ids K el) (DI 2, 0) = [6; 7; 8].
  Proof.
    intros Ht. destruct (triangle_simplex c Ht) as (Hc & Hd & N0 & N1 & _).
    unfold BrezziDouglasFortinMarini. cbn [Nat.eqb negb]. rewrite Hd. cbn [Nat.eqb negb].
    set (inner := flat_map (fun i => map (PointEdgeTangent K i) _) _).
    assert (LI : length inner = 3).
    { unfold inner. change (2 - 1) with 1. rewrite N1, flat_map_concat_map, (concat_const _ 1); [reflexivity|].
      intros e He. apply in_range in He. rewrite map_length, make_points_length by (assumption || lia). reflexivity. }
    replace (nsum _) with (length inner).
    2:{ rewrite LI. change (2 - 1) with 1. rewrite N1. cbn [range seq Nat.sub map].
        rewrite !make_points_length by (assumption || lia). reflexivity. }
    assert (HP : length (make_points c (2 - 1) 0 (2 + (2 - 1))) = 2).
    { rewrite make_points_length by (assumption || cbn; lia). reflexivity. }
    rewrite HP. destruct (number_each 2 _ 0) as [ids cur] eqn:En.
    pose proof (facet_dual_numbered c (fun i => map (PointScaledNormal K i) (make_points c 1 i 3)) inner 2 9 ids cur Hc) as H.
    rewrite Hd in H. change (2 - 1) with 1 in *. rewrite N1 in *.
    assert (Hf : forall e, e < 3 -> Forall (node_on c 1 e) (map (PointScaledNormal K e) (make_points c 1 e 3)) /\
                 length (map (PointScaledNormal K e) (make_points c 1 e 3)) = 2).
    { intros e He. split.
      - apply map_on. intros x Hx. cbn. split; [lia|split; [reflexivity|]].
        eapply make_points_interior; eauto; lia.
      - rewrite map_length, make_points_length by (assumption || lia). reflexivity. }
    specialize (H Hf En _ eq_refl). destruct H as (H1 & H2 & H3).
    eexists. split; [reflexivity|]. change (2 + 1) with 3.
    split; [unfold low in H1; rewrite Hd in H1; exact H1|]. split; [reflexivity|]. split; [|split].
    - cbn [el_nodes] in H3 |- *. rewrite H3, LI. reflexivity.
    - intros e i Hi. apply H2. unfold low. rewrite Hd. exact Hi.
    - rewrite LI. cbn in En. injection En as <- <-. reflexivity.
  Qed.

  (** ** Mardal-Tai-Winther, Arnold-Winther *)
  Lemma perm_check ids n : nsort (all_dofs ids) = seq 0 n -> partitions ids n.
  Proof. intros E. unfold partitions. rewrite <- E. apply nsort_perm. Qed.

  Ltac concrete_placed :=
    intros d e i; unfold dofs_on, lookup; cbn [fst snd];
    destruct d as [|[|[|d]]]; cbn [dlookup deqb Nat.eqb el_ids];
    [ | | |intros []];
    (destruct e as [|[|[|e]]]; cbn; intros Hi; repeat destruct Hi as [<-|Hi]; try contradiction;
     (eexists; split; [reflexivity|cbn; auto])).

  Lemma MTW_ok c : triangle c -> complete c 20 (MardalTaiWinther K c 3).
  Proof.
    intros Ht. destruct (triangle_simplex c Ht) as (Hc & Hd & N0 & N1 & Hsk).
    unfold MardalTaiWinther, on_members. cbn [Nat.eqb negb]. rewrite Hd. cbn [Nat.eqb negb].
    rewrite dimension_binom by assumption. rewrite Hd. cbn [bind].
    eexists. split; [reflexivity|]. split; [split|split; [|split]].
    - apply perm_check. reflexivity.
    - apply same_skel. rewrite Hsk. reflexivity.
    - concrete_placed.
    - reflexivity.
    - reflexivity.
  Qed.
  Lemma AWNC_ok c : triangle c -> complete c 18 (ArnoldWintherNC K c 2).
  Proof.
    intros Ht. destruct (triangle_simplex c Ht) as (Hc & Hd & N0 & N1 & Hsk).
    unfold ArnoldWintherNC, sym_members, on_members. cbn [Nat.eqb negb]. rewrite Hd.
    rewrite dimension_binom by assumption. rewrite Hd. cbn [bind].
    eexists. split; [reflexivity|]. split; [split|split; [|split]].
    - apply perm_check. reflexivity.
    - apply same_skel. rewrite Hsk. reflexivity.
    - concrete_placed.
    - reflexivity.
    - reflexivity.
  Qed.
  Lemma AW_ok c : triangle c -> complete c 30 (ArnoldWinther K c 3).
  Proof.
    intros Ht. destruct (triangle_simplex c Ht) as (Hc & Hd & N0 & N1 & Hsk).
    unfold ArnoldWinther, sym_members, on_members. cbn [Nat.eqb negb]. rewrite Hd.
    rewrite dimension_binom by assumption. rewrite Hd. cbn [bind].
    eexists. split; [reflexivity|]. split; [split|split; [|split]].
    - apply perm_check. reflexivity.
    - apply same_skel. rewrite Hsk. reflexivity.
    - assert (V : forall v, v < 3 -> interior_point (vertices_of c 0 v) (vertex K c v)).
      { intros v Hv. apply (vertex_interior HK); [assumption|lia]. }
      pose proof (V 0 ltac:(lia)) as V0. pose proof (V 1 ltac:(lia)) as V1. pose proof (V 2 ltac:(lia)) as V2.
      intros d e i; unfold dofs_on, lookup; cbn [fst snd].
      destruct d as [|[|[|d]]]; cbn [dlookup deqb Nat.eqb el_ids];
      [ | | |intros []];
      (destruct e as [|[|[|e]]]; cbn; intros Hi; repeat destruct Hi as [<-|Hi]; try contradiction;
       (eexists; split; [reflexivity|first [exact V0|exact V1|exact V2|cbn; auto]])).
    - reflexivity.
    - reflexivity.
  Qed.

  (** ** Bubbles *)
  Lemma Lagrange_dim_dofs c degree d el : simplex c -> 1 <= degree -> d <= spatial_dimension c ->
    Lagrange K c degree = Ok el ->
    exists es, dlookup (DI d) (el_ids K el) = Some es /\
      length (flat_map snd es) = num c d * binom (degree - 1) d.
  Proof.
    intros Hc Hdeg Hd E. unfold Lagrange, on_members in E. rewrite dimension_binom in E by assumption. cbn [bind] in E.
    unfold lagrange_dual in E. destruct (lagrange_dims K c degree _ _) as [ids st] eqn:E1. injection E as <-. cbn [el_ids].
    assert (G : forall t st0 ids st1, lagrange_dims K c degree t st0 = (ids, st1) ->
      forall es0, dlookup (DI d) t = Some es0 -> keys (sort_items es0) = range 0 (num c d) ->
      exists es, dlookup (DI d) ids = Some es /\ length (flat_map snd es) = num c d * binom (degree - 1) d).
    { clear -HK Hc Hd Hdeg. induction t as [|[dim es'] t IH]; intros st0 ids st1 H es0 H0 Hk; [discriminate|].
      cbn [lagrange_dims] in H. destruct (visit K _ _ st0) as [ids1 [cur nodes]] eqn:Ev.
      destruct (lagrange_dims K c degree t _) as [rest st2] eqn:Er. injection H as <- <-.
      cbn [dlookup] in *. destruct (deqb (DI d) dim) eqn:Ed; [|eapply IH; eauto].
      injection H0 as ->. apply deqb_eq in Ed as <-. exists ids1. split; [reflexivity|].
      rewrite Hk in Ev. cbn [tuple_sum] in Ev. destruct st0 as [c0 n0].
      apply (visit_seqd c d) in Ev as (S1 & Est).
      2:{ intros e He. apply in_range in He. apply (pe_on HK); auto; lia. }
      apply seqd_dofs in S1. unfold flat1 in S1. rewrite flat_map_concat_map, map_map in S1.
      replace (map (fun x => snd (let '(e, l) := x in (DI d, e, l))) ids1) with (map snd ids1) in S1
        by (apply map_ext; now intros []).
      rewrite <- flat_map_concat_map in S1. rewrite S1, seq_length, (concat_const _ (binom (degree - 1) d)).
      - rewrite length_range. lia.
      - intros e He. apply in_range in He. rewrite map_length. apply points_count; auto; lia. }
    assert (HT : exists es0, dlookup (DI d) (sort_dims (topology c)) = Some es0 /\ keys (sort_items es0) = range 0 (num c d)).
    { clear -Hc Hd. destruct c; try contradiction; cbn in Hd;
        (destruct d as [|[|[|[|d]]]]; try lia; eexists; split; reflexivity). }
    destruct HT as (es0 & H0 & Hk). eapply G; eauto.
  Qed.
End Proofs.
