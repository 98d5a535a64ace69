(** Every lattice point of a simplex is a node of the Lagrange dual set. *)
From Verif Require Import Base ModelIndex SpecIndex ProofsIndex ModelCell SpecCell ProofsCell ModelConcat SpecConcat
  ModelFam SpecFam ProofsFam.

Section Nodes.
  Context {K : fieldT} (HK : char0 K).
  Add Field KFln : (@f_th K).
  Notation lag c n := (fst (lagrange_dual K c n)).

  Lemma visit_nodes (f : nat -> list (node K)) es : forall st,
    snd (snd (visit K f es st)) = snd st ++ flat_map f es.
  Proof.
    induction es as [|e es IH]; intros [cur nodes]; cbn; [now rewrite app_nil_r|].
    specialize (IH (cur + length (f e), nodes ++ f e)).
    destruct (visit K f es _) as [ids st']. cbn in *. now rewrite IH, app_assoc.
  Qed.
  Lemma lagrange_nodes c n t : forall st,
    snd (snd (lagrange_dims K c n t st)) = snd st ++
      flat_map (fun '(dim, es) => flat_map (fun e => map (PointEvaluation K) (make_points K c (tuple_sum dim) e n)) (keys (sort_items es))) t.
  Proof.
    induction t as [|[dim es] t IH]; intros st; cbn; [now rewrite app_nil_r|].
    pose proof (visit_nodes (fun e => map (PointEvaluation K) (make_points K c (tuple_sum dim) e n)) (keys (sort_items es)) st) as H.
    destruct (visit K _ _ st) as [ids st1]. cbn in H. specialize (IH st1).
    destruct (lagrange_dims K c n t st1) as [rest st2]. cbn in *. now rewrite IH, H, app_assoc.
  Qed.
  Lemma lag_in c n d e x : simplex c -> d <= spatial_dimension c -> e < num c d ->
    In x (make_points K c d e n) -> In (PointEvaluation K x) (lag c n).
  Proof.
    intros Hc Hd He Hx. unfold lagrange_dual.
    pose proof (lagrange_nodes c n (sort_dims (topology c)) (0, [])) as H.
    destruct (lagrange_dims K c n _ _) as [ids st]. cbn [fst snd app] in *. rewrite H.
    apply in_flat_map.
    assert (Hp : In (PointEvaluation K x) (map (PointEvaluation K) (make_points K c d e n))) by now apply in_map.
    clear -Hc Hd He Hp.
    destruct c; try contradiction; cbn in Hd;
      (destruct d as [|[|[|[|d]]]]; try lia; cbn in He);
      match goal with |- context [make_points K ?c ?d] => idtac | Hp : context [make_points K _ ?d] |- _ =>
        eexists; split; [eapply (nth_error_In _ d); reflexivity|] end;
      apply in_flat_map; exists e; (split; [cbn; lia|exact Hp]).
  Qed.
  (** the interior lattice of an entity *)
  Lemma entity_node c d e vs n ws : simplex c -> d <= spatial_dimension c -> elookup e (top c d) = Some vs -> e < num c d ->
    length ws = length vs -> (forall w, In w ws -> 1 <= w) -> nsum ws = n -> 1 <= n ->
    exists x, In (PointEvaluation K x) (lag c n) /\ length x = spatial_dimension c /\
      forall i, i < spatial_dimension c ->
        coord i x = fdiv (wsum ws (map (fun v => coord i (nth v (vertices K c) [])) vs)) (of_nat n).
  Proof.
    intros Hc Hd Hvs He Lw Hw Hs Hn.
    destruct (top_entities c d e Hc Hd He) as (vs' & E & L & Hb). rewrite Hvs in E. injection E as <-.
    destruct d as [|d].
    - rewrite top0 in Hvs by assumption. injection Hvs as <-.
      exists (nth e (vertices K c) []). split; [|split].
      + eapply lag_in with (d := 0) (e := e); [assumption|lia|assumption|]. now left.
      + apply vertices_length; [assumption|]. apply Hb. now left.
      + intros i Hi. destruct ws as [|w [|]]; try discriminate. cbn in Hs. rewrite Nat.add_0_r in Hs. subst w.
        cbn [map wsum]. pose proof (HK n ltac:(lia)). field. assumption.
    - assert (Dim : forall v, In v (entity_vertices K c (S d) e) -> length v = spatial_dimension c).
      { intros v Hv. unfold entity_vertices in Hv. rewrite Hvs in Hv. cbn in Hv. apply in_map_iff in Hv as (w & <- & Hv).
        apply vertices_length; auto. }
      assert (EL := entity_vertices_length (K := K) c (S d) e Hc Hd He).
      destruct (make_lattice_spec (entity_vertices K c (S d) e) n 1 (S d) _ EL ltac:(lia) (HK n ltac:(lia)) Dim)
        as (idxs & Hin & _ & HF).
      destruct ws as [|w0 ws]; [cbn in Lw; lia|].
      assert (Hk : In ws idxs).
      { apply Hin. split; [cbn in Lw; lia|]. split.
        - intros x Hx. apply Hw. now right.
        - pose proof (Hw w0 (or_introl eq_refl)). unfold nsum in *. cbn in Hs. lia. }
      assert (Hx : exists x, In x (make_lattice (entity_vertices K c (S d) e) n 1) /\ is_lattice_point (entity_vertices K c (S d) e) n ws x).
      { clear -HF Hk. induction HF as [|k y ks ys H HF IH]; [easy|]. destruct Hk as [->|Hk].
        - exists y. split; [now left|exact H].
        - destruct (IH Hk) as (x & H1 & H2). exists x. split; [now right|exact H2]. }
      destruct Hx as (x & Hx & (v0 & E0 & Lx & Hco)).
      assert (Lv0 : length v0 = spatial_dimension c).
      { apply Dim. destruct (entity_vertices K c (S d) e); [easy|]. injection E0 as <-. now left. }
      exists x. split; [|split].
      + eapply lag_in with (d := S d) (e := e); try assumption. rewrite make_points_lattice by (lia || assumption). exact Hx.
      + lia.
      + intros i Hi. rewrite Hco by lia. f_equal. unfold entity_vertices. rewrite Hvs. cbn [option_list].
        rewrite map_map. f_equal. f_equal. unfold nsum in *. cbn in Hs. lia.
  Qed.
End Nodes.
