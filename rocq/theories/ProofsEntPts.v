(** The lattice points of an entity of positive dimension are the points
    [make_points] returns. *)
From Verif Require Import Base ModelIndex SpecIndex ProofsIndex ModelCell SpecCell ProofsCell ModelConcat SpecConcat
  ModelFam SpecFam ProofsFam ProofsFam2 ProofsFam5.

Section Pts.
  Context {K : fieldT} (HK : char0 K).
  Lemma entity_point c d e vs n ws : simplex c -> 1 <= d <= spatial_dimension c -> elookup e (top c d) = Some vs -> e < num c d ->
    length ws = length vs -> (forall w, In w ws -> 1 <= w) -> nsum ws = n -> 1 <= n ->
    exists x, In x (make_points K c d e n) /\ length x = spatial_dimension c /\
      forall i, i < spatial_dimension c ->
        coord i x = fdiv (wsum ws (map (fun v => coord i (nth v (vertices K c) [])) vs)) (of_nat n).
  Proof.
    intros Hc [Hd0 Hd] Hvs He Lw Hw Hs Hn.
    destruct (top_entities c d e Hc Hd He) as (vs' & E & L & Hb). rewrite Hvs in E. injection E as <-.
    destruct d as [|d]; [lia|].
    assert (Dim : forall v, In v (entity_vertices K c (S d) e) -> length v = spatial_dimension c).
    { intros v Hv. unfold entity_vertices in Hv. rewrite Hvs in Hv. cbn in Hv. apply in_map_iff in Hv as (w & <- & Hv).
      apply vertices_length; auto. }
    assert (EL := entity_vertices_length (K := K) c (S d) e Hc Hd He).
    destruct (make_lattice_spec (entity_vertices K c (S d) e) n 1 (S d) _ EL ltac:(lia) (HK n ltac:(lia)) Dim)
      as (idxs & Hin & _ & HF).
    destruct ws as [|w0 ws]; [cbn in Lw; lia|].
    assert (Hk : In ws idxs).
    { apply Hin. split; [cbn in Lw; lia|]. split.
      - intros x Hx. apply Hw. now right.
      - pose proof (Hw w0 (or_introl eq_refl)). unfold nsum in *. cbn in Hs. lia. }
    assert (Hx : exists x, In x (make_lattice (entity_vertices K c (S d) e) n 1) /\ is_lattice_point (entity_vertices K c (S d) e) n ws x).
    { clear -HF Hk. induction HF as [|k y ks ys H HF IH]; [easy|]. destruct Hk as [->|Hk].
      - exists y. split; [now left|exact H].
      - destruct (IH Hk) as (x & H1 & H2). exists x. split; [now right|exact H2]. }
    destruct Hx as (x & Hx & (v0 & E0 & Lx & Hco)).
    assert (Lv0 : length v0 = spatial_dimension c).
    { apply Dim. destruct (entity_vertices K c (S d) e); [easy|]. injection E0 as <-. now left. }
    exists x. split; [|split].
    + rewrite make_points_lattice by (lia || assumption). exact Hx.
    + lia.
    + intros i Hi. rewrite Hco by lia. f_equal. unfold entity_vertices. rewrite Hvs. cbn [option_list].
      rewrite map_map. f_equal. f_equal. unfold nsum in *. cbn in Hs. lia.
  Qed.
End Pts.

Section RTN.
  Context {K : fieldT} (HK : char0 K).
  (** the nodes of the point variant *)
  Definition rt_point_nodes (c : cell) (deg : nat) : list (node K) :=
    let sd := spatial_dimension c in
    flat_map (fun i => map (PointScaledNormal K i) (make_points K c (sd - 1) i (sd + deg))) (range 0 (num c (sd - 1))) ++
    (if Nat.ltb 0 deg then flat_map (fun d => map (ComponentPoint K d) (make_points K c sd 0 (deg + sd))) (range 0 sd) else []).
  Lemma rt_nodes_point c deg : simplex c -> exists el el',
    RaviartThomas K c (S deg) VPoint = Ok el /\ DiscontinuousRaviartThomas K c (S deg) = Ok el' /\
    el_nodes K el = rt_point_nodes c deg /\ el_nodes K el' = rt_point_nodes c deg /\
    length (rt_point_nodes c deg) = spatial_dimension c * binom (deg + spatial_dimension c) (spatial_dimension c) + binom (deg + spatial_dimension c - 1) (spatial_dimension c - 1).
  Proof.
    intros Hc. destruct (RaviartThomas_ok HK c (S deg) VPoint Hc ltac:(lia) (or_introl eq_refl)) as (el & E & _ & _ & Hm & Hl).
    destruct (DRT_nodes HK c (S deg) Hc ltac:(lia)) as (el0 & el' & E0 & E1 & E2).
    rewrite E in E0. injection E0 as <-. exists el, el'. split; [exact E|]. split; [exact E1|].
    assert (H : el_nodes K el = rt_point_nodes c deg).
    { unfold RaviartThomas in E. rewrite rt_members_eq in E by assumption. cbn [bind rt_nodes] in E. cbn zeta in E.
      replace (S deg - 1) with deg in E by lia. unfold rt_point_nodes. cbn zeta.
      destruct (Nat.ltb 0 deg); cbn [bind] in E; destruct (rt_ids K c deg); try discriminate; cbn [bind] in E; injection E as <-; cbn [el_nodes];
      [reflexivity|now rewrite app_nil_r]. }
    rewrite E2, H. split; [reflexivity|]. split; [reflexivity|]. rewrite <- H. etransitivity; [exact Hl|]. unfold rt_dim.
    replace (S deg - 1) with deg by lia. reflexivity.
  Qed.
End RTN.
