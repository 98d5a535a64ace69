(** C32: the trace element on the cells that support it, and tabulation
    without an entity. *)
From Coq Require Import Permutation Sorting.Sorted Field.
From Verif Require Import Base ModelIndex SpecIndex ModelCell ModelTPE ModelGeom ModelTrace SpecCell SpecConcat SpecTrace SpecGeom
  Sorting ProofsCell ProofsTopo ProofsIds ProofsCart ProofsGeom PropsGeom ProofsTrace PropsTrace.
From Verif Require ModelFam SpecFam PropsFam ProofsFam.

Section Points.
  Context (K : fieldT) (HK : char0 K).
  Definition pe (n : nat) (x : ModelFam.node K) : Prop := exists p, x = ModelFam.PointEvaluation K p /\ length p = n.
  Lemma visit_pe m f es : (forall e, In e es -> Forall (pe m) (f e)) -> forall st, Forall (pe m) (snd st) ->
    Forall (pe m) (snd (snd (ModelFam.visit K f es st))).
  Proof.
    induction es as [|e es IH]; intros Hf [cur nodes] H; simpl in *; auto.
    specialize (IH (fun e' He => Hf e' (or_intror He)) (cur + length (f e), nodes ++ f e)).
    destruct (ModelFam.visit K f es (cur + length (f e), nodes ++ f e)) as [ids st'].
    simpl in *. apply IH. apply Forall_app; auto.
  Qed.
  Lemma points_dim c d e order : SpecFam.simplex c -> d <= spatial_dimension c -> e < ModelFam.num c d ->
    Forall (pe (spatial_dimension c)) (map (ModelFam.PointEvaluation K) (ModelFam.make_points K c d e order)).
  Proof.
    intros Hc Hd He. apply Forall_map, Forall_forall. intros x Hx. exists x. split; auto.
    destruct (ProofsFam.make_points_interior HK c d e order x Hc Hd He Hx) as (ws & _ & _ & v0 & E & L & _). rewrite L.
    assert (In v0 (SpecFam.vertices_of (K := K) c d e)) by (destruct (SpecFam.vertices_of c d e); inversion E; subst; simpl; auto).
    rewrite ProofsFam.vertices_of_eq in H.
    destruct (ProofsFam.top_entities c d e Hc Hd He) as (vs & E' & _ & Hvs).
    unfold ModelFam.entity_vertices in H. rewrite E' in H. cbn in H. apply in_map_iff in H as (w & <- & Hw).
    apply ProofsFam.vertices_length; auto.
  Qed.
  Lemma lagrange_pe c degree : SpecFam.simplex c -> Forall (pe (spatial_dimension c)) (fst (ModelFam.lagrange_dual K c degree)).
  Proof.
    intros Hc. unfold ModelFam.lagrange_dual.
    assert (G : forall t st, (forall D es, In (D, es) t -> exists d, D = DI d /\ d <= spatial_dimension c /\ keys es = seq 0 (ModelFam.num c d)) ->
      Forall (pe (spatial_dimension c)) (snd st) -> Forall (pe (spatial_dimension c)) (snd (snd (ModelFam.lagrange_dims K c degree t st)))).
    { induction t as [|[D es] t IH]; intros st Ht H; simpl; auto.
      destruct (Ht D es (or_introl eq_refl)) as (d & -> & Hd & Hk).
      assert (V := visit_pe (spatial_dimension c) (fun e => map (ModelFam.PointEvaluation K) (ModelFam.make_points K c d e degree)) (keys (sort_items es))).
      assert (V' := V ltac:(intros e He; apply points_dim; auto;
        assert (P : Permutation (keys es) (keys (sort_items es))) by (unfold keys; apply Permutation_map, isort_perm);
        apply (Permutation_in _ (Permutation_sym P)) in He; rewrite Hk in He; apply in_seq in He; lia) st H). clear V.
      simpl tuple_sum. destruct (ModelFam.visit K _ _ st) as [ids st1]. simpl in V'.
      specialize (IH st1 (fun D' es' X => Ht D' es' (or_intror X)) V').
      destruct (ModelFam.lagrange_dims K c degree t st1) as [rest st2]. exact IH. }
    specialize (G (sort_dims (topology c)) (0, [])).
    destruct (ModelFam.lagrange_dims K c degree (sort_dims (topology c)) (0, [])) as [ids st]. apply G; [|constructor].
    intros D es Hin. apply isort_in in Hin.
    destruct c; try contradiction; simpl in Hin;
      repeat (destruct Hin as [Hin|Hin]; [inversion Hin; subst; eexists; split; [reflexivity|]; split; [cbn; lia|reflexivity]|]); contradiction.
  Qed.
  Lemma collect_fam n nodes : Forall (pe n) nodes -> exists ps, collect (fam_point K) nodes = Ok ps /\ length ps = length nodes /\ Forall (fun x => length x = n) ps.
  Proof.
    induction 1 as [|x nodes (p & -> & L) H (ps & E & L' & F)]; [exists []; auto|]. exists (p :: ps). simpl. rewrite E. auto.
  Qed.
  Lemma dg_simplex_points c p : In c [UFCInterval; UFCTriangle] -> exists ps, dg_points K (DGS c p) = Ok ps /\
    length ps = binom (p + spatial_dimension c) (spatial_dimension c) /\ Forall (fun x => length x = spatial_dimension c) ps.
  Proof.
    intros Hc. assert (Hs : SpecFam.simplex c) by (simpl in Hc; destruct Hc as [<-|[<-|[]]]; exact I).
    destruct (PropsFam.C34_discontinuous_lagrange K HK c p Hs) as [(el & E & (Hnum & Hsame) & Hon & Hm & Hl) HL].
    cbn [dg_points]. rewrite E. cbn [bind].
    assert (PE : Forall (pe (spatial_dimension c)) (ModelFam.el_nodes K el)).
    { destruct p as [|p].
      - clear HL. unfold ModelFam.DiscontinuousLagrange in E. simpl in E. unfold ModelFam.P0 in E.
        simpl in Hc; destruct Hc as [<-|[<-|[]]]; cbn in E; inversion E; subst el; cbn; repeat constructor; eexists; split; reflexivity.
      - destruct (HL ltac:(lia)) as (eL & el' & EL & E' & En). rewrite E in E'. inversion E'; subst el'.
        rewrite En. unfold ModelFam.Lagrange in EL. apply bind_ok in EL as (m & _ & EL).
        pose proof (lagrange_pe c (S p) Hs) as LP. destruct (ModelFam.lagrange_dual K c (S p)) as [nodes ids]. inversion EL; subst. exact LP. }
    destruct (collect_fam _ _ PE) as (ps & C & L & F). exists ps. rewrite L. auto.
  Qed.

  (** elements whose simplices are intervals and triangles *)
  Fixpoint plain (e : dgel) : Prop :=
    match e with DGS c _ => In c [UFCInterval; UFCTriangle] | DGT a b => plain a /\ plain b end.
  Fixpoint dg_size (e : dgel) : nat :=
    match e with
    | DGS c p => binom (p + spatial_dimension c) (spatial_dimension c)
    | DGT a b => dg_size a * dg_size b
    end.
  Lemma plain_points e : plain e -> exists ps, dg_points K e = Ok ps /\ length ps = dg_size e /\
    Forall (fun x => length x = spatial_dimension (dg_cell e)) ps.
  Proof.
    induction e as [c p|a IHa b IHb]; intros H; [apply dg_simplex_points; exact H|]. destruct H as [Ha Hb].
    destruct (IHa Ha) as (pa & A1 & A2 & A3). destruct (IHb Hb) as (pb & B1 & B2 & B3).
    eexists. split; [apply (C32_product_points K a b pa pb); assumption|]. split.
    - cbn [dg_size]. rewrite <- A2, <- B2. apply flat_map_const_length. intros; apply map_length.
    - apply Forall_forall. intros x Hx. apply in_flat_map in Hx as (y & Hy & Hx). apply in_map_iff in Hx as (z & <- & Hz).
      rewrite Forall_forall in A3, B3. cbn [dg_cell spatial_dimension nsum fold_right map]. rewrite app_length, A3, B3 by auto. lia.
  Qed.
  Lemma plain_nf e : plain e -> nf K e = dg_size e.
  Proof. intros H. destruct (plain_points e H) as (ps & E & L & _). unfold nf. rewrite E. exact L. Qed.

  (** *** the construction succeeds *)
  Lemma transform_ok c D i : ufc_family c -> lookup (topology c) D i <> None ->
    exists T, @get_entity_transform K c D i = Ok T /\ forall p, length p = tuple_sum D -> exists y, T p = Ok y.
  Proof.
    intros Hc Hl. destruct (lookup (topology c) D i) as [ids|] eqn:E; [|congruence].
    destruct (C18_entity_transform K c D i ids Hc E) as (T & sub & E1 & _ & _ & A). exists T. split; auto.
    intros p Hp. destruct (A [f1] [p]) as (ys & F & _); auto.
    { simpl. pose proof (f_th K) as Fth. destruct Fth as [[]]. rewrite Radd_comm. apply Radd_0_l. }
    inversion F; subst. destruct H1 as [H1 _]. eauto.
  Qed.
  Lemma facet_loop_ok c D ps : ufc_family c -> (exists es, In (D, es) (topology c)) -> Forall (fun x => length x = tuple_sum D) ps ->
    forall is off ids pts, (forall i, In i is -> lookup (topology c) D i <> None) -> In D (keys ids) ->
    exists off' ids' pts', facet_loop K c D ps is (off, ids, pts) = Ok (off', ids', pts') /\ keys ids' = keys ids.
  Proof.
    intros Hc (es & Hes) Hps. induction is as [|i is IH]; intros off ids pts His HD; [exists off, ids, pts; auto|].
    cbn [facet_loop]. unfold facet_step at 1.
    destruct (dset_in_some D i (range off (off + length ps)) ids HD) as (t' & E1 & K1 & _). rewrite E1.
    destruct (transform_ok c D i Hc (His i (or_introl eq_refl))) as (T & ET & HT).
    assert (C : exists r, collect (fun p => bind (get_entity_transform c D i) (fun T => T p)) ps = Ok r).
    { rewrite ET. clear -HT Hps. induction Hps as [|p ps Hp Hps IH]; [exists []; auto|]. destruct IH as (r & E).
      destruct (HT p Hp) as (y & Ey). exists (y :: r). simpl in *. rewrite Ey, E. reflexivity. }
    destruct C as (r & ->). cbn [bind].
    destruct (IH (off + length ps) t' (pts ++ r)) as (o' & i' & p' & E & Kk); [intros; apply His; simpl; auto|rewrite K1; auto|].
    exists o', i', p'. split; [exact E|congruence].
  Qed.
  Lemma dims_loop_ok c : ufc_family c -> forall dgs off ids pts,
    (forall D e, In (D, e) dgs -> plain e /\ spatial_dimension (dg_cell e) = tuple_sum D /\ exists es, In (D, es) (topology c)) ->
    keys ids = keys (topology c) ->
    exists st, dims_loop K c dgs (off, ids, pts) = Ok st.
  Proof.
    intros Hc. induction dgs as [|[D e] dgs IH]; intros off ids pts H Hk; [eexists; reflexivity|]. cbn [dims_loop].
    destruct (H D e (or_introl eq_refl)) as (Hp & Hd & Hes). destruct (plain_points e Hp) as (ps & -> & _ & Hl). cbn [bind].
    rewrite Hd in Hl.
    destruct (facet_loop_ok c D ps Hc Hes Hl (range 0 (num_entities c D)) off ids pts) as (o & i & p & E & Kk).
    { intros i Hi. apply in_topology; auto. }
    { rewrite Hk. destruct Hes as (es & Hes). apply in_map_iff. exists (D, es); auto. }
    rewrite E. cbn [bind]. apply IH; [intros; apply H; right; auto|congruence].
  Qed.
  Lemma trace_exists c d d' dgs : ufc_family c -> trace_degree c d = Ok d' -> facet_elements c d' (topology c) = Ok dgs -> dgs <> [] ->
    (forall D e, In (D, e) dgs -> plain e /\ spatial_dimension (dg_cell e) = tuple_sum D) ->
    exists T, HDivTrace K c d = Ok T /\ tr_dgs K T = dgs.
  Proof.
    intros Hc Hd Hf Hne Hp. unfold HDivTrace. rewrite Hd. cbn [bind]. rewrite Hf. cbn [bind].
    destruct (facet_elements_ok _ _ _ _ Hf) as (A & _ & _).
    destruct (dims_loop_ok c Hc (sort_dims dgs) 0 (map (fun '(dim, es) => (dim, map (fun '(e, _) => (e, @nil nat)) es)) (topology c)) []) as ([[o i] p] & E).
    { intros D e Hin. apply isort_in in Hin. destruct (Hp D e Hin). destruct (A D e Hin) as (sub & es & S1 & _). eauto. }
    { unfold keys. rewrite map_map. apply map_ext. intros [D es]; auto. }
    rewrite E. cbn [bind]. destruct dgs as [|x dgs]; [congruence|]. cbn. eexists. split; reflexivity.
  Qed.
  Lemma trace_size c d T : HDivTrace K c d = Ok T -> (forall D e, In (D, e) (tr_dgs K T) -> plain e) ->
    length (tr_points K T) = nsum (map (fun '(D, e) => num_entities c D * dg_size e) (sort_dims (tr_dgs K T))).
  Proof.
    intros H Hp. destruct (HDivTrace_built K c d T H) as (d' & F & B). destruct B. rewrite b_dim, b_F. unfold nfsum, flat_facets.
    assert (Hp' : forall D e, In (D, e) (sort_dims (tr_dgs K T)) -> plain e) by (intros D e Hin; apply isort_in in Hin; eauto).
    clear -Hp' HK. induction (sort_dims (tr_dgs K T)) as [|[D e] l IH]; [reflexivity|]. simpl. rewrite map_app.
    assert (S : forall a b, nsum (a ++ b) = nsum a + nsum b) by (induction a; simpl; intros; auto; rewrite IHa; lia).
    rewrite S. rewrite IH by (intros; eapply Hp'; right; eauto). f_equal. rewrite map_map. simpl.
    rewrite plain_nf by (eapply Hp'; left; eauto). unfold range. rewrite Nat.sub_0_r. generalize 0 as a.
    induction (num_entities c D) as [|n IHn]; intros a; simpl; auto.
  Qed.
End Points.

(** The trace element exists, with one discontinuous element of the requested
    degree per facet:  3 (n+1), 4 (n+1)(n+2)/2 and 4 (n+1) dofs. *)
Theorem C32_simplex_and_quadrilateral : forall (K : fieldT) n, char0 K ->
  (exists T, HDivTrace K UFCTriangle (DegI n) = Ok T /\ length (tr_points K T) = 3 * (n + 1) /\ tr_degree K T = n) /\
  (exists T, HDivTrace K UFCTetrahedron (DegI n) = Ok T /\ 2 * length (tr_points K T) = 4 * ((n + 1) * (n + 2)) /\ tr_degree K T = n) /\
  (exists T, HDivTrace K UFCQuadrilateral (DegI n) = Ok T /\ length (tr_points K T) = 4 * (n + 1) /\ tr_degree K T = n).
Proof.
  intros K n HK.
  assert (B1 : binom (n + 1) 1 = n + 1) by (rewrite Nat.add_1_r; simpl; clear; induction n; simpl; auto; lia).
  assert (B2 : 2 * binom (n + 2) 2 = (n + 1) * (n + 2)).
  { clear. induction n as [|n IH]; [reflexivity|]. change (S n + 2) with (S (n + 2)). cbn [binom].
    assert (B : binom (n + 2) 1 = n + 2) by (replace (n + 2) with (S (S n)) by lia; simpl; clear; induction n; simpl; auto; lia).
    rewrite B. lia. }
  assert (Deg : forall c T, HDivTrace K c (DegI n) = Ok T -> (forall D e, In (D, e) (tr_dgs K T) -> dg_degree e = n) -> tr_degree K T = n).
  { intros c T H HD. destruct (HDivTrace_built K c (DegI n) T H) as (d' & F & B). destruct B. unfold max_degree in b_max.
    destruct (tr_dgs K T) as [|[D e] l]; [discriminate|]. simpl in b_max. inversion b_max as [X]. rewrite X.
    rewrite (HD D e) in X by (left; auto). rewrite <- X.
    assert (HD' : forall D e, In (D, e) l -> dg_degree e = n) by (intros; eapply HD; right; eauto). clear -HD'.
    induction l as [|[D e] l IH]; simpl; auto. rewrite (HD' D e) by (left; auto). rewrite Nat.max_id. apply IH. intros; eapply HD'; right; eauto. }
  split; [|split].
  - destruct (trace_exists K HK UFCTriangle (DegI n) (DegI n) [(DI 1, DGS UFCInterval n)]) as (T & E & G);
      [exact I|reflexivity|reflexivity|discriminate|intros D e [X|[]]; inversion X; subst; simpl; auto|].
    exists T. split; [exact E|]. split.
    + rewrite (trace_size K HK _ _ _ E) by (rewrite G; intros D e [X|[]]; inversion X; subst; simpl; auto). rewrite G. cbn. rewrite B1. lia.
    + eapply Deg; [exact E|]. rewrite G. intros D e [X|[]]; inversion X; reflexivity.
  - destruct (trace_exists K HK UFCTetrahedron (DegI n) (DegI n) [(DI 2, DGS UFCTriangle n)]) as (T & E & G);
      [exact I|reflexivity|reflexivity|discriminate|intros D e [X|[]]; inversion X; subst; simpl; auto|].
    exists T. split; [exact E|]. split.
    + rewrite (trace_size K HK _ _ _ E) by (rewrite G; intros D e [X|[]]; inversion X; subst; simpl; auto). rewrite G.
      cbn [sort_dims isort insert map nsum fold_right dg_size spatial_dimension]. change (num_entities UFCTetrahedron (DI 2)) with 4. lia.
    + eapply Deg; [exact E|]. rewrite G. intros D e [X|[]]; inversion X; reflexivity.
  - destruct (trace_exists K HK UFCQuadrilateral (DegI n) (DegI n) [(DI 1, DGS UFCInterval n)]) as (T & E & G);
      [exact I|reflexivity|reflexivity|discriminate|intros D e [X|[]]; inversion X; subst; simpl; auto|].
    exists T. split; [exact E|]. split.
    + rewrite (trace_size K HK _ _ _ E) by (rewrite G; intros D e [X|[]]; inversion X; subst; simpl; auto). rewrite G. cbn. rewrite B1. lia.
    + eapply Deg; [exact E|]. rewrite G. intros D e [X|[]]; inversion X; reflexivity.
Qed.
Print Assumptions C32_simplex_and_quadrilateral.

(** Products of two cells with their own degrees: the prism and the product of
    two intervals; and the product of three intervals. *)
Theorem C32_product_cells : forall (K : fieldT) m n l, char0 K ->
  (exists T, HDivTrace K (TensorProductCell [UFCTriangle; UFCInterval]) (DegT [DegI m; DegI n]) = Ok T /\
     length (tr_points K T) = 3 * ((m + 1) * (n + 1)) + 2 * binom (m + 2) 2) /\
  (exists T, HDivTrace K (TensorProductCell [UFCInterval; UFCInterval]) (DegT [DegI m; DegI n]) = Ok T /\
     length (tr_points K T) = 2 * (n + 1) + 2 * (m + 1)) /\
  (exists T, HDivTrace K (TensorProductCell [UFCInterval; UFCInterval; UFCInterval]) (DegT [DegI l; DegI m; DegI n]) = Ok T /\
     length (tr_points K T) = 2 * ((m + 1) * (n + 1)) + 2 * ((l + 1) * (n + 1)) + 2 * ((l + 1) * (m + 1))) /\
  (exists T, HDivTrace K (TensorProductCell [UFCQuadrilateral; UFCInterval]) (DegI n) = Ok T /\
     length (tr_points K T) = 6 * ((n + 1) * (n + 1))).
Proof.
  intros K m n l HK.
  assert (B1 : forall n, binom (n + 1) 1 = n + 1) by (intros k; rewrite Nat.add_1_r; simpl; clear; induction k; simpl; auto; lia).
  split; [|split; [|split]].
  - edestruct (trace_exists K HK (TensorProductCell [UFCTriangle; UFCInterval]) (DegT [DegI m; DegI n]) (DegT [DegI m; DegI n])) as (T & E & G);
      [split; [discriminate|repeat constructor]|reflexivity|vm_compute; reflexivity|discriminate| |].
    { intros D e X; cbn in X; repeat (destruct X as [X|X]; [inversion X; subst; cbn; auto|]); contradiction. }
    exists T. split; [exact E|].
    rewrite (trace_size K HK _ _ _ E) by (rewrite G; intros D e X; cbn in X; repeat (destruct X as [X|X]; [inversion X; subst; cbn; auto|]); contradiction).
    rewrite G. cbn -[binom Nat.mul Nat.add]. rewrite !B1.
    change (num_entities (TensorProductCell [UFCTriangle; UFCInterval]) (DT [DI 1; DI 1])) with 3.
    change (num_entities (TensorProductCell [UFCTriangle; UFCInterval]) (DT [DI 2; DI 0])) with 2. lia.
  - edestruct (trace_exists K HK (TensorProductCell [UFCInterval; UFCInterval]) (DegT [DegI m; DegI n]) (DegT [DegI m; DegI n])) as (T & E & G);
      [split; [discriminate|repeat constructor]|reflexivity|vm_compute; reflexivity|discriminate| |].
    { intros D e X; cbn in X; repeat (destruct X as [X|X]; [inversion X; subst; cbn; auto|]); contradiction. }
    exists T. split; [exact E|].
    rewrite (trace_size K HK _ _ _ E) by (rewrite G; intros D e X; cbn in X; repeat (destruct X as [X|X]; [inversion X; subst; cbn; auto|]); contradiction).
    rewrite G. cbn -[binom Nat.mul Nat.add]. rewrite !B1.
    change (num_entities (TensorProductCell [UFCInterval; UFCInterval]) (DT [DI 0; DI 1])) with 2.
    change (num_entities (TensorProductCell [UFCInterval; UFCInterval]) (DT [DI 1; DI 0])) with 2. lia.
  - edestruct (trace_exists K HK (TensorProductCell [UFCInterval; UFCInterval; UFCInterval]) (DegT [DegI l; DegI m; DegI n]) (DegT [DegI l; DegI m; DegI n])) as (T & E & G);
      [split; [discriminate|repeat constructor]|reflexivity|vm_compute; reflexivity|discriminate| |].
    { intros D e X; cbn in X; repeat (destruct X as [X|X]; [inversion X; subst; cbn; auto|]); contradiction. }
    exists T. split; [exact E|].
    rewrite (trace_size K HK _ _ _ E) by (rewrite G; intros D e X; cbn in X; repeat (destruct X as [X|X]; [inversion X; subst; cbn; auto|]); contradiction).
    rewrite G. cbn -[binom Nat.mul Nat.add]. rewrite !B1.
    change (num_entities (TensorProductCell [UFCInterval; UFCInterval; UFCInterval]) (DT [DI 0; DI 1; DI 1])) with 2.
    change (num_entities (TensorProductCell [UFCInterval; UFCInterval; UFCInterval]) (DT [DI 1; DI 0; DI 1])) with 2.
    change (num_entities (TensorProductCell [UFCInterval; UFCInterval; UFCInterval]) (DT [DI 1; DI 1; DI 0])) with 2. lia.
  - edestruct (trace_exists K HK (TensorProductCell [UFCQuadrilateral; UFCInterval]) (DegI n) (DegT [DegI n; DegI n])) as (T & E & G);
      [split; [discriminate|repeat constructor]|reflexivity|vm_compute; reflexivity|discriminate| |].
    { intros D e X; cbn in X; repeat (destruct X as [X|X]; [inversion X; subst; cbn; auto|]); contradiction. }
    exists T. split; [exact E|].
    rewrite (trace_size K HK _ _ _ E) by (rewrite G; intros D e X; cbn in X; repeat (destruct X as [X|X]; [inversion X; subst; cbn; auto|]); contradiction).
    rewrite G. cbn -[binom Nat.mul Nat.add]. rewrite !B1.
    change (num_entities (TensorProductCell [UFCQuadrilateral; UFCInterval]) (DT [DI 1; DI 1])) with 4.
    change (num_entities (TensorProductCell [UFCQuadrilateral; UFCInterval]) (DT [DI 2; DI 0])) with 2. lia.
Qed.
Print Assumptions C32_product_cells.

(** What is refused: cells of dimension 0 and 1; tuple degrees on cells that
    are not products; hexahedra; the default and Intrepid simplices (their
    sub-elements do not exist); a tuple of the wrong length. *)
Theorem C32_refused : forall (K : fieldT) (c : cell) (d : deg) (n : nat) (l : list deg) (cs : list cell),
  (spatial_dimension c <= 1 -> HDivTrace K c d = Err ValueError) /\
  (In c [UFCTriangle; UFCTetrahedron; UFCQuadrilateral; DefaultTriangle; IntrepidTriangle; DefaultTetrahedron; IntrepidTetrahedron] ->
     HDivTrace K c (DegT l) = Err ValueError) /\
  HDivTrace K UFCHexahedron d = Err NotImplementedError /\
  (In c [DefaultTriangle; IntrepidTriangle; DefaultTetrahedron; IntrepidTetrahedron] -> HDivTrace K c (DegI n) = Err NotImplementedError) /\
  (2 <= spatial_dimension (TensorProductCell cs) -> length l <> length cs -> HDivTrace K (TensorProductCell cs) (DegT l) = Err AssertionError) /\
  HDivTrace K (TensorProductCell [UFCInterval; UFCInterval; UFCInterval; UFCInterval]) (DegI n) = Err TypeError /\
  HDivTrace K (TensorProductCell [UFCTetrahedron; UFCInterval]) (DegI n) = Err NotImplementedError.
Proof.
  intros K c d n l cs. split; [|split; [|split; [|split; [|split; [|split]]]]].
  - intros H. unfold HDivTrace, trace_degree. apply Nat.leb_le in H. rewrite H. reflexivity.
  - intros H. simpl in H. repeat (destruct H as [<-|H]; [reflexivity|]). contradiction.
  - reflexivity.
  - intros H. simpl in H. repeat (destruct H as [<-|H]; [reflexivity|]). contradiction.
  - intros H1 H2. unfold HDivTrace, trace_degree. apply Nat.leb_gt in H1. rewrite H1.
    destruct (Nat.eqb_spec (length cs) (length l)); [congruence|reflexivity].
  - vm_compute. reflexivity.
  - vm_compute. reflexivity.
Qed.
Print Assumptions C32_refused.

(** ** Tabulation without an entity, on the simplices.  [small] is the test
    [abs(l) < tolerance]. *)
Section NoEntity.
  Context {K : fieldT}.
  Variable tab : dgel -> nat -> list (list K) -> result (list (list (list K))).
  Variable small : K -> bool.
  Variable eqb : K -> K -> bool.
  Hypothesis Heqb : forall x y, eqb x y = true <-> x = y.
  Add Field KF : (f_th K).
  Ltac lists tac := repeat match goal with
    | |- Ok _ = Ok _ => apply f_equal
    | |- @cons ?T _ _ = _ => apply (f_equal2 (@cons T))
    | |- [] = [] => reflexivity
    end; tac.

  Lemma neg1 : fopp (@f1 K) <> f0.
  Proof. intros H. apply (F_1_neq_0 (f_th K)). transitivity (fopp (fopp (@f1 K))); [ring|]. rewrite H. ring. Qed.
  Lemma eqb_no x : x <> f0 -> eqb x f0 = false.
  Proof. intros H. destruct (eqb x f0) eqn:E; auto. apply Heqb in E. contradiction. Qed.

  Lemma bary_tri points : points <> [] -> Forall (fun p => length p = 2) points ->
    barycentric_coordinates K eqb points (vertices K UFCTriangle) = Ok (map bary points).
  Proof.
    intros Hne Hp. unfold barycentric_coordinates.
    assert (E : inverse K eqb (map (fun i => map (fun v => fsub (nth i v f0) (nth i (nth (length (vertices K UFCTriangle) - 1) (vertices K UFCTriangle) []) f0))
        (firstn (length (vertices K UFCTriangle) - 1) (vertices K UFCTriangle))) (seq 0 (length (vertices K UFCTriangle) - 1)))
      = Ok [[fopp f1; fopp f1]; [f1; f0]]).
    { unfold inverse. cbn -[fdiv]. unfold det2, entry. cbn -[fdiv].
      match goal with |- context [eqb ?d f0] => replace d with (@f1 K) by ring end.
      rewrite eqb_no by apply (F_1_neq_0 (f_th K)). lists ltac:(field; apply (F_1_neq_0 (f_th K))). }
    rewrite E. cbn [bind]. destruct points as [|p ps]; [congruence|]. f_equal. clear Hne E.
    apply map_ext_in. intros q Hq. rewrite Forall_forall in Hp. specialize (Hp q Hq).
    destruct q as [|x [|y [|]]]; try discriminate. unfold bary, dot, ModelGeom.vsub, map2. cbn. lists ltac:(ring).
  Qed.
  Lemma bary_tet points : points <> [] -> Forall (fun p => length p = 3) points ->
    barycentric_coordinates K eqb points (vertices K UFCTetrahedron) = Ok (map bary points).
  Proof.
    intros Hne Hp. unfold barycentric_coordinates.
    assert (E : inverse K eqb (map (fun i => map (fun v => fsub (nth i v f0) (nth i (nth (length (vertices K UFCTetrahedron) - 1) (vertices K UFCTetrahedron) []) f0))
        (firstn (length (vertices K UFCTetrahedron) - 1) (vertices K UFCTetrahedron))) (seq 0 (length (vertices K UFCTetrahedron) - 1)))
      = Ok [[fopp f1; fopp f1; fopp f1]; [f1; f0; f0]; [f0; f1; f0]]).
    { unfold inverse. cbn -[fdiv]. unfold det2, entry. cbn -[fdiv].
      match goal with |- context [eqb ?d f0] => replace d with (fopp (@f1 K)) by ring end.
      rewrite eqb_no by apply neg1. lists ltac:(field; apply neg1). }
    rewrite E. cbn [bind]. destruct points as [|p ps]; [congruence|]. f_equal. clear Hne E.
    apply map_ext_in. intros q Hq. rewrite Forall_forall in Hp. specialize (Hp q Hq).
    destruct q as [|x [|y [|z [|]]]]; try discriminate. unfold bary, dot, ModelGeom.vsub, map2. cbn. lists ltac:(ring).
  Qed.

  Definition ufc2or3 (c : cell) : Prop := In c [UFCTriangle; UFCTetrahedron].
  Lemma bary_ufc c points : ufc2or3 c -> points <> [] -> Forall (fun p => length p = spatial_dimension c) points ->
    barycentric_coordinates K eqb points (vertices K c) = Ok (map bary points).
  Proof. intros Hc. simpl in Hc. destruct Hc as [<-|[<-|[]]]; [apply bary_tri|apply bary_tet]. Qed.

  (** the unique common small coordinate *)
  Lemma inter_in a b i : In i (inter a b) <-> In i a /\ In i b.
  Proof.
    unfold inter. rewrite filter_In, existsb_exists. split.
    - intros (A & j & B & C). apply Nat.eqb_eq in C. subst. auto.
    - intros (A & B). split; auto. exists i. rewrite Nat.eqb_refl. auto.
  Qed.
  Lemma fold_inter_in l : forall a i, In i (fold_left inter l a) <-> In i a /\ Forall (In i) l.
  Proof.
    induction l as [|b l IH]; intros a i; simpl; [split; [auto|tauto]|]. rewrite IH, inter_in. split.
    - intros [[A B] C]. auto.
    - intros [A B]. inversion B; subst. auto.
  Qed.
  Lemma fold_inter_NoDup l : forall a, NoDup a -> NoDup (fold_left inter l a).
  Proof. induction l as [|b l IH]; intros a H; simpl; auto. apply IH. unfold inter. apply NoDup_filter; auto. Qed.
  Definition all_small (n : nat) (coords : list (list K)) (f : nat) : Prop := f < n /\ Forall (fun p => small (nth f p f0) = true) coords.
  Lemma common_facets n coords : coords <> [] -> Forall (fun p => length p = n) coords ->
    let S := fold_left inter (map (on_facet K small) coords) (hd [] (map (on_facet K small) coords)) in
    NoDup S /\ forall f, In f S <-> all_small n coords f.
  Proof.
    intros Hne Hl S. split.
    - apply fold_inter_NoDup. destruct coords as [|p ps]; [congruence|]. simpl. unfold on_facet. apply NoDup_filter, seq_NoDup.
    - intros f. unfold S. rewrite fold_inter_in.
      assert (M : forall p, In p coords -> (In f (on_facet K small p) <-> f < n /\ small (nth f p f0) = true)).
      { intros p Hp. unfold on_facet. rewrite filter_In, in_seq. rewrite Forall_forall in Hl. rewrite (Hl p Hp). intuition lia. }
      unfold all_small. rewrite Forall_map, !Forall_forall. destruct coords as [|p ps]; [congruence|]. simpl hd. split.
      + intros [A B]. split; [apply (M p); simpl; auto|]. intros q Hq. apply M; auto.
      + intros [A B]. assert (X : forall q, In q (p :: ps) -> In f (on_facet K small q)) by (intros q Hq; apply M; auto).
        split; [apply X; simpl; auto|exact X].
  Qed.
  Lemma extract_some n coords f : coords <> [] -> Forall (fun p => length p = n) coords ->
    all_small n coords f -> (forall g, all_small n coords g -> g = f) -> extract_unique_facet K small coords = Some f.
  Proof.
    intros Hne Hl Hf Hu. destruct (common_facets n coords Hne Hl) as [ND I]. unfold extract_unique_facet.
    set (S := fold_left _ _ _) in *. destruct S as [|a [|b S]].
    - exfalso. apply (I f) in Hf. exact Hf.
    - f_equal. apply Hu, I. simpl; auto.
    - exfalso. inversion ND; subst. assert (a = f) by (apply Hu, I; simpl; auto). assert (b = f) by (apply Hu, I; simpl; auto).
      subst. apply H1. simpl; auto.
  Qed.
  Lemma extract_none n coords : coords <> [] -> Forall (fun p => length p = n) coords ->
    (forall f, all_small n coords f -> exists g, g <> f /\ all_small n coords g) -> extract_unique_facet K small coords = None.
  Proof.
    intros Hne Hl H. destruct (common_facets n coords Hne Hl) as [ND I]. unfold extract_unique_facet.
    set (S := fold_left _ _ _) in *. destruct S as [|a [|b S]]; auto. exfalso.
    destruct (H a) as (g & G1 & G2); [apply I; simpl; auto|]. apply I in G2. destruct G2 as [G2|[]]. congruence.
  Qed.

  (** dropping coordinate [f] and recombining *)
  Definition dropped (c : cell) (f : nat) (coords : list K) : list K :=
    let new := map (fun j => nth j coords f0) (filter (fun j => negb (Nat.eqb j f)) (seq 0 (length coords))) in
    let rv := match ufc_simplex (length (vertices K c) - 2) with Ok r => vertices K r | Err _ => [] end in
    fold_left vadd (map (fun j => map (fun x => fmul x (nth j new f0)) (nth j rv [])) (seq 0 (length new)))
      (repeat f0 (length (hd [] rv))).
  Lemma map_ref c points f : ufc2or3 c -> points <> [] -> Forall (fun p => length p = spatial_dimension c) points ->
    map_to_reference_facet K eqb points (vertices K c) f = Ok (map (fun p => dropped c f (bary p)) points).
  Proof.
    intros Hc Hne Hl. unfold map_to_reference_facet. rewrite bary_ufc by auto. cbn [bind].
    simpl in Hc. destruct Hc as [<-|[<-|[]]]; cbn [ufc_simplex length vertices Nat.sub bind]; rewrite map_map; reflexivity.
  Qed.
  Lemma facet_point c f q phi p : ufc2or3 c -> f <= spatial_dimension c -> length q = spatial_dimension c - 1 ->
    get_entity_transform c (DI (spatial_dimension c - 1)) f = Ok phi -> phi q = Ok p ->
    length p = spatial_dimension c /\ nth f (bary p) f0 = f0 /\ dropped c f (bary p) = q.
  Proof.
    intros Hc Hf Hq Hphi Hp.
    assert (C : exists ids, lookup (topology c) (DI (spatial_dimension c - 1)) f = Some ids /\
       p = comb (spatial_dimension c) (bary q) (map (fun i => nth i (vertices K c) []) ids)).
    { simpl in Hc. destruct Hc as [<-|[<-|[]]]; cbn in Hf, Hq.
      - destruct (lookup (topology UFCTriangle) (DI 1) f) as [ids|] eqn:E; [|destruct f as [|[|[|f]]]; try discriminate E; lia].
        exists ids. split; [exact E|].
        assert (H3 : length ids = 2 /\ Forall (fun i => i < 3) ids)
          by (destruct f as [|[|[|f]]]; try (inversion E; subst; split; [reflexivity|repeat constructor; lia]); lia).
        destruct (C18_simplex_formula K 2 1 f (vertices K UFCTriangle) (topology UFCTriangle) (@sub_vertices K UFCTriangle) ids q) as (T & ET & EV); auto;
          try (repeat constructor); try discriminate; try lia; try (exists UFCInterval; split; reflexivity); try apply H3.
        change (@simplex_transform K (vertices K UFCTriangle) (topology UFCTriangle) (sub_vertices UFCTriangle) (DI 1) f = Ok phi) in Hphi.
        rewrite ET in Hphi. inversion Hphi; subst phi. rewrite EV in Hp. inversion Hp; subst. reflexivity.
      - destruct (lookup (topology UFCTetrahedron) (DI 2) f) as [ids|] eqn:E; [|destruct f as [|[|[|[|f]]]]; try discriminate E; lia].
        exists ids. split; [exact E|].
        assert (H3 : length ids = 3 /\ Forall (fun i => i < 4) ids)
          by (destruct f as [|[|[|[|f]]]]; try (inversion E; subst; split; [reflexivity|repeat constructor; lia]); lia).
        destruct (C18_simplex_formula K 3 2 f (vertices K UFCTetrahedron) (topology UFCTetrahedron) (@sub_vertices K UFCTetrahedron) ids q) as (T & ET & EV); auto;
          try (repeat constructor); try discriminate; try lia; try (exists UFCTriangle; split; reflexivity); try apply H3.
        change (@simplex_transform K (vertices K UFCTetrahedron) (topology UFCTetrahedron) (sub_vertices UFCTetrahedron) (DI 2) f = Ok phi) in Hphi.
        rewrite ET in Hphi. inversion Hphi; subst phi. rewrite EV in Hp. inversion Hp; subst. reflexivity. }
    destruct C as (ids & Hl & ->). clear Hphi Hp phi.
    simpl in Hc. destruct Hc as [<-|[<-|[]]]; cbn in Hf, Hq.
    - destruct q as [|x [|]]; try discriminate.
      destruct f as [|[|[|f]]]; try lia; inversion Hl; subst ids; unfold dropped, bary, comb, vadd, map2; cbn; (split; [reflexivity|]); (split; [ring|]); lists ltac:(ring).
    - destruct q as [|x [|y [|]]]; try discriminate.
      destruct f as [|[|[|[|f]]]]; try lia; inversion Hl; subst ids; unfold dropped, bary, comb, vadd, map2; cbn; (split; [reflexivity|]); (split; [ring|]); lists ltac:(ring).
  Qed.
End NoEntity.

Lemma trace_dgs (K : fieldT) c d (T : trace K) : ufc2or3 c -> HDivTrace K c d = Ok T ->
  tr_cell K T = c /\ exists e, tr_dgs K T = [(DI (spatial_dimension c - 1), e)] /\ exists ps, dg_points K e = Ok ps.
Proof.
  intros Hc H. destruct (HDivTrace_built K c d T H) as (d' & F & B). destruct B. split; auto.
  assert (E : exists e, tr_dgs K T = [(DI (spatial_dimension c - 1), e)]).
  { unfold HDivTrace in H. simpl in Hc. destruct Hc as [<-|[<-|[]]]; destruct d as [n|l]; try discriminate;
      (apply bind_ok in H as (d1 & Hd1 & H); inversion Hd1; subst d1; apply bind_ok in H as (dgs & Hdg & H);
       cbn in Hdg; inversion Hdg; subst dgs; apply bind_ok in H as ([[o i] p] & _ & H); apply bind_ok in H as (m & _ & H);
       inversion H; subst T; eexists; reflexivity). }
  destruct E as (e & E). exists e. split; auto. apply (b_points (DI (spatial_dimension c - 1)) e). rewrite E. left; auto.
Qed.

Lemma bary_length {K : fieldT} (p : list K) : length (bary p) = S (length p). Proof. reflexivity. Qed.

(** Points that are the images of [qs] on facet [f], such that no other facet
    contains them all: tabulating without an entity gives exactly the table of
    facet [f] at [qs]. *)
Theorem C32_tabulate_without_entity : forall (K : fieldT) tab small eqb c d (T : trace K) f phi qs points,
  (forall x y, eqb x y = true <-> x = y) -> small f0 = true -> value_tables tab ->
  In c [UFCTriangle; UFCTetrahedron] -> HDivTrace K c d = Ok T -> f <= spatial_dimension c ->
  get_entity_transform c (DI (spatial_dimension c - 1)) f = Ok phi ->
  Forall2 (fun q p => length q = spatial_dimension c - 1 /\ phi q = Ok p) qs points -> points <> [] ->
  (forall g, g <= spatial_dimension c -> g <> f -> exists p, In p points /\ small (nth g (bary p) f0) = false) ->
  exists t, tabulate K tab small eqb T 0 points None = Ok t /\
    tabulate K tab small eqb T 0 qs (Some (DI (spatial_dimension c - 1), f)) = Ok t.
Proof.
  intros K tab small eqb c d T f phi qs points Heqb Hs0 Htab Hc H Hf Hphi HF Hne Hu.
  destruct (trace_dgs K c d T Hc H) as (Hcell & e & Hdg & ps & Hps).
  assert (Hpt : Forall (fun p => length p = spatial_dimension c /\ nth f (bary p) f0 = f0) points).
  { clear -HF Hc Hf Hphi. induction HF as [|q p qs points [A B] HF IH]; constructor; auto.
    destruct (facet_point c f q phi p Hc Hf A Hphi B) as (X & Y & _). auto. }
  assert (Hlen : Forall (fun p => length p = spatial_dimension c) points) by (eapply Forall_impl; [|exact Hpt]; simpl; tauto).
  assert (Hq : map (fun p => dropped c f (bary p)) points = qs).
  { clear -HF Hc Hf Hphi. induction HF as [|q p qs points [A B] HF IH]; simpl; auto.
    destruct (facet_point c f q phi p Hc Hf A Hphi B) as (_ & _ & X). rewrite X, IH. reflexivity. }
  assert (Lq : length qs = length points) by (eapply F2_length; eauto).
  assert (Ex : extract_unique_facet K small (map bary points) = Some f).
  { apply (extract_some small (S (spatial_dimension c))).
    - destruct points; [congruence|discriminate].
    - apply Forall_map. eapply Forall_impl; [|exact Hlen]. simpl. intros a ->; auto.
    - split; [lia|]. apply Forall_map. eapply Forall_impl; [|exact Hpt]. simpl. intros a [_ E]. rewrite E. exact Hs0.
    - intros g [Hg Hall]. destruct (Nat.eq_dec g f) as [|Hgf]; auto. exfalso.
      destruct (Hu g ltac:(lia) Hgf) as (p & Hin & Hns). rewrite Forall_map, Forall_forall in Hall. specialize (Hall p Hin). congruence. }
  destruct (Htab e ps qs Hps) as (rows & R1 & R2 & _).
  exists (fill K T 0 (length points) (length ps * f) rows). split.
  - unfold tabulate. rewrite Hcell, Hdg.
    assert (G : bind (barycentric_coordinates K eqb points (vertices K c)) (fun coordinates =>
        match extract_unique_facet K small coordinates with
        | None => Ok (all_slots K T 0 (NaNs K (space_dimension K T) (length points)))
        | Some f =>
          bind (map_to_reference_facet K eqb points (vertices K c) f) (fun new_points =>
          match dlookup (DI (spatial_dimension c - 1)) [(DI (spatial_dimension c - 1), e)] with
          | None => Err KeyError
          | Some e =>
            bind (dg_points K e) (fun ps =>
            bind (tab e 0 new_points) (fun tables =>
            match tables with
            | [rows] => Ok (fill K T 0 (length points) (length ps * f) rows)
            | _ => Err ValueError
            end))
          end)
        end) = Ok (fill K T 0 (length points) (length ps * f) rows)).
    { rewrite (bary_ufc eqb Heqb) by auto. cbn [bind]. rewrite Ex, (map_ref eqb Heqb) by auto. cbn [bind]. rewrite Hq.
      cbn [dlookup]. rewrite deqb_refl, Hps. cbn [bind]. rewrite R1. reflexivity. }
    simpl in Hc. destruct Hc as [<-|[<-|[]]]; exact G.
  - unfold tabulate. rewrite Hdg. cbn [dlookup]. rewrite deqb_refl.
    change (sort_dims [(DI (spatial_dimension c - 1), e)]) with [(DI (spatial_dimension c - 1), e)].
    rewrite find_facet_search by (intros D' e' [X|[]]; inversion X; subst; eauto). rewrite Hcell.
    assert (Nn : num_entities c (DI (spatial_dimension c - 1)) = S (spatial_dimension c)) by (simpl in Hc; destruct Hc as [<-|[<-|[]]]; reflexivity).
    set (D := DI (spatial_dimension c - 1)) in *.
    assert (SP : flat_facets c [(D, e)] = map (fun i => (D, i, e)) (seq 0 f) ++ (D, f, e) :: map (fun i => (D, i, e)) (seq (S f) (spatial_dimension c - f))).
    { unfold flat_facets. cbn [flat_map]. rewrite app_nil_r, Nn. unfold range. rewrite Nat.sub_0_r.
      replace (S (spatial_dimension c)) with (f + S (spatial_dimension c - f)) by lia. rewrite seq_app, map_app. simpl. reflexivity. }
    rewrite SP.
    pose proof (search_found K tab qs (map (fun i => (D, i, e)) (seq 0 f)) (D, f, e) (map (fun i => (D, i, e)) (seq (S f) (spatial_dimension c - f))) rows) as SF.
    cbn [fst snd] in SF. rewrite SF; auto.
    + cbn [bind]. rewrite Lq. f_equal. f_equal. unfold nfsum. rewrite map_map. simpl.
      assert (N : nf K e = length ps) by (unfold nf; rewrite Hps; auto). rewrite N. clear. generalize 0 as a.
      induction f as [|f IH]; intros a; simpl; [lia|]. rewrite IH. lia.
    + rewrite <- SP. rewrite map_app || idtac. unfold flat_facets. cbn [flat_map]. rewrite app_nil_r, map_map. simpl.
      apply NoDup_map_in; [apply seq_NoDup|]. intros x y _ _ E. inversion E; auto.
Qed.
Print Assumptions C32_tabulate_without_entity.

(** When no facet contains all points, or several do, every slot is an array
    of nan of the full shape, whatever the order. *)
Theorem C32_no_unique_facet_nan : forall (K : fieldT) tab small eqb c d (T : trace K) order points,
  (forall x y, eqb x y = true <-> x = y) -> In c [UFCTriangle; UFCTetrahedron] -> HDivTrace K c d = Ok T ->
  points <> [] -> Forall (fun p => length p = spatial_dimension c) points ->
  (forall f, f <= spatial_dimension c -> Forall (fun p => small (nth f (bary p) f0) = true) points ->
     exists g, g <= spatial_dimension c /\ g <> f /\ Forall (fun p => small (nth g (bary p) f0) = true) points) ->
  exists t, tabulate K tab small eqb T order points None = Ok t /\ NoDup (map fst t) /\
    (forall alpha, In alpha (map fst t) <-> length alpha = spatial_dimension c /\ nsum alpha <= order) /\
    forall alpha s, In (alpha, s) t -> s = NaNs K (length (tr_points K T)) (length points).
Proof.
  intros K tab small eqb c d T order points Heqb Hc H Hne Hlen Hn.
  destruct (trace_dgs K c d T Hc H) as (Hcell & e & Hdg & ps & Hps).
  assert (Ex : extract_unique_facet K small (map bary points) = None).
  { apply (extract_none small (S (spatial_dimension c))).
    - destruct points; [congruence|discriminate].
    - apply Forall_map. eapply Forall_impl; [|exact Hlen]. simpl. intros a ->; auto.
    - intros f [Hf Hall]. rewrite Forall_map in Hall. destruct (Hn f ltac:(lia) Hall) as (g & G1 & G2 & G3).
      exists g. split; auto. split; [lia|]. apply Forall_map. exact G3. }
  exists (all_slots K T order (NaNs K (space_dimension K T) (length points))). split.
  - unfold tabulate. rewrite Hcell. pose proof (bary_ufc eqb Heqb c points Hc Hne Hlen) as BE.
    simpl in Hc. destruct Hc as [<-|[<-|[]]]; rewrite BE; cbn [bind]; rewrite Ex; reflexivity.
  - unfold all_slots. rewrite map_map. simpl. rewrite map_id, Hcell.
    destruct (tab_keys_ok (spatial_dimension c) order) as [ND I]; [simpl in Hc; destruct Hc as [<-|[<-|[]]]; cbn; lia|].
    split; [auto|]. split; [auto|]. intros alpha s Hin. apply in_map_iff in Hin as (a & X & _). inversion X; auto.
Qed.
Print Assumptions C32_no_unique_facet_nan.

(** The docstring promises nan arrays or TraceError for derivatives; but
    without an entity, on a unique facet, asking for derivatives raises
    ValueError (unpacking the discontinuous element's several tables). *)
Theorem C32_derivatives_without_entity_refuted : forall (K : fieldT) tab small eqb c d (T : trace K) order points f,
  (forall x y, eqb x y = true <-> x = y) -> In c [UFCTriangle; UFCTetrahedron] -> HDivTrace K c d = Ok T ->
  points <> [] -> Forall (fun p => length p = spatial_dimension c) points ->
  f <= spatial_dimension c -> Forall (fun p => small (nth f (bary p) f0) = true) points ->
  (forall g, g <= spatial_dimension c -> g <> f -> exists p, In p points /\ small (nth g (bary p) f0) = false) ->
  (forall e pts, exists tables, tab e order pts = Ok tables /\ 2 <= length tables) ->
  tabulate K tab small eqb T order points None = Err ValueError.
Proof.
  intros K tab small eqb c d T order points f Heqb Hc H Hne Hlen Hf Hsm Hu Htab.
  destruct (trace_dgs K c d T Hc H) as (Hcell & e & Hdg & ps & Hps).
  assert (Ex : extract_unique_facet K small (map bary points) = Some f).
  { apply (extract_some small (S (spatial_dimension c))).
    - destruct points; [congruence|discriminate].
    - apply Forall_map. eapply Forall_impl; [|exact Hlen]. simpl. intros a ->; auto.
    - split; [lia|]. apply Forall_map. exact Hsm.
    - intros g [Hg Hall]. destruct (Nat.eq_dec g f) as [|Hgf]; auto. exfalso.
      destruct (Hu g ltac:(lia) Hgf) as (p & Hin & Hns). rewrite Forall_map, Forall_forall in Hall. specialize (Hall p Hin). congruence. }
  destruct (Htab e (map (fun p => dropped c f (bary p)) points)) as (tables & E & L).
  unfold tabulate. rewrite Hcell, Hdg. pose proof (bary_ufc eqb Heqb c points Hc Hne Hlen) as BE.
  pose proof (map_ref eqb Heqb c points f Hc Hne Hlen) as ME.
  simpl in Hc. destruct Hc as [<-|[<-|[]]]; rewrite BE; cbn [bind]; rewrite Ex, ME; cbn [bind dlookup];
    rewrite deqb_refl, Hps; cbn [bind]; rewrite E; cbn [bind]; destruct tables as [|r [|r2 tb]]; simpl in L; try lia; reflexivity.
Qed.
Print Assumptions C32_derivatives_without_entity_refuted.

(** Non-vacuity: the hypotheses hold for two points inside facet 0 (opposite
    vertex 0) of the UFC triangle over the rationals; the middle of the
    triangle is on no facet. *)
Definition qeqb (x y : QcField) : bool := if Qcanon.Qc_eq_dec x y then true else false.
Definition qtab (e : dgel) (order : nat) (points : list (list QcField)) : result (list (list (list QcField))) :=
  Ok (repeat (repeat (repeat f0 (length points)) (nf QcField e)) (S order)).
Example C32_nonvacuous :
  (forall x y, qeqb x y = true <-> x = y) /\ qeqb f0 f0 = true /\ value_tables qtab /\
  (exists T, HDivTrace QcField UFCTriangle (DegI 2) = Ok T) /\
  (exists phi p1 p2, get_entity_transform (K := QcField) UFCTriangle (DI 1) 0 = Ok phi /\
     let q1 := [fdiv f1 (of_nat 3)] in let q2 := [fdiv f1 (of_nat 2)] in
     phi q1 = Ok p1 /\ phi q2 = Ok p2 /\
     forall g, g <= 2 -> g <> 0 -> exists p, In p [p1; p2] /\ qeqb (nth g (bary p) f0) f0 = false) /\
  (forall f, f <= 2 -> qeqb (nth f (bary [fdiv (@f1 QcField) (of_nat 3); fdiv f1 (of_nat 3)]) f0) f0 = false) /\
  (forall e pts, exists tables, qtab e 1 pts = Ok tables /\ 2 <= length tables).
Proof.
  split; [intros x y; unfold qeqb; destruct (Qcanon.Qc_eq_dec x y); split; congruence|].
  split; [reflexivity|]. split.
  { intros e ps points E. exists (repeat (repeat f0 (length points)) (nf QcField e)). split; [reflexivity|].
    split; [rewrite repeat_length; unfold nf; rewrite E; auto|]. apply Forall_forall. intros r Hr. apply repeat_spec in Hr. subst. apply repeat_length. }
  split; [eexists; vm_compute; reflexivity|]. split.
  { eexists _, _, _. split; [reflexivity|]. cbv zeta. split; [vm_compute; reflexivity|]. split; [vm_compute; reflexivity|].
    intros g Hg Hn. eexists. split; [left; reflexivity|]. destruct g as [|[|[|g]]]; try lia; vm_compute; reflexivity. }
  split; [intros f Hf; destruct f as [|[|[|f]]]; try lia; vm_compute; reflexivity|].
  intros e pts. eexists. split; [reflexivity|]. simpl. lia.
Qed.
