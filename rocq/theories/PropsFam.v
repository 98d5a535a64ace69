(** C34: the dual sets of the element families on simplices. *)
From Coq Require Import Permutation.
From Verif Require Import Base ModelIndex SpecIndex ProofsIndex Sorting ModelCell SpecCell ProofsCell ModelConcat SpecConcat
  ModelRestricted ModelFam SpecFam ProofsFam ProofsFam2 ProofsFam3 ProofsFam4 ProofsFam5.

(** Reading guide: [complete c n r] says that the constructor call [r] succeeds,
    that [entity_dofs()] lists each of 0..n-1 on exactly one entity and has an
    entry for exactly the entities of the cell, that the i-th node lives on (the
    interior of) the entity listing i, and that [n] is both the number of nodes
    and the number of members of the polynomial set.  [cell_only] is the same
    for elements whose dofs are all registered on the cell. *)

Theorem C34_lagrange : forall (K : fieldT), char0 K -> forall c degree, simplex c -> 1 <= degree ->
  complete c (binom (degree + spatial_dimension c) (spatial_dimension c)) (Lagrange K c degree).
Proof. intros K HK c degree. apply (Lagrange_ok HK). Qed.

(** Degree 0 is accepted by the dual set but gives one node per vertex for a
    one-dimensional space. *)
Theorem C34_lagrange_degree_zero_refuted : forall (K : fieldT) c, simplex c ->
  exists el, Lagrange K c 0 = Ok el /\ el_members K el = 1 /\ 2 <= length (el_nodes K el).
Proof.
  intros K c Hc. destruct c; try contradiction; (eexists; split; [reflexivity|split; [reflexivity|cbn; lia]]).
Qed.

Theorem C34_discontinuous_lagrange : forall (K : fieldT), char0 K -> forall c degree, simplex c ->
  cell_only c (binom (degree + spatial_dimension c) (spatial_dimension c)) (DiscontinuousLagrange K c degree) /\
  (1 <= degree -> exists el el', Lagrange K c degree = Ok el /\ DiscontinuousLagrange K c degree = Ok el' /\
     el_nodes K el' = el_nodes K el).
Proof. intros K HK c degree Hc. split; [apply (DG_ok HK)|apply DG_nodes]; assumption. Qed.

Theorem C34_crouzeix_raviart : forall (K : fieldT), char0 K -> forall c degree, simplex c ->
  (degree = 1 -> complete c (spatial_dimension c + 1) (CrouzeixRaviart K c degree)) /\
  (degree <> 1 -> CrouzeixRaviart K c degree = Err PlainException).
Proof.
  intros K HK c degree Hc. split; [intros ->; now apply (CrouzeixRaviart_ok HK)|].
  intros H. unfold CrouzeixRaviart. destruct (Nat.eqb_spec degree 1); [contradiction|reflexivity].
Qed.

Theorem C34_hermite : forall (K : fieldT), char0 K -> forall c degree, simplex c ->
  (degree = 3 -> complete c (binom (3 + spatial_dimension c) (spatial_dimension c)) (CubicHermite K c degree)) /\
  (degree <> 3 -> CubicHermite K c degree = Err AssertionError).
Proof.
  intros K HK c degree Hc. split; [intros ->; now apply (CubicHermite_ok HK)|].
  intros H. unfold CubicHermite. destruct (Nat.eqb_spec degree 3); [contradiction|reflexivity].
Qed.

(** Triangle families; any other simplex is refused with ValueError. *)
Theorem C34_morley_argyris_bell : forall (K : fieldT), char0 K -> forall c, simplex c ->
  (is_triangle c = true -> complete c 6 (Morley K c) /\ complete c 21 (QuinticArgyris K c) /\
     complete c 21 (Bell K c) /\
     forall degree, 5 <= degree -> complete c (binom (degree + 2) 2) (Argyris K c degree)) /\
  (is_triangle c = false -> Morley K c = Err ValueError /\ QuinticArgyris K c = Err ValueError /\
     Bell K c = Err ValueError /\ forall degree, Argyris K c degree = Err ValueError).
Proof.
  intros K HK c Hc. split; intros Ht.
  - split; [now apply (Morley_ok HK)|]. split; [now apply (QuinticArgyris_ok HK)|].
    split; [now apply (Bell_ok HK)|]. intros degree Hd. now apply (Argyris_ok HK).
  - unfold Morley, QuinticArgyris, Bell, Argyris, on_members. rewrite !dimension_binom by assumption. cbn [bind].
    rewrite Ht. repeat split. intros degree. rewrite dimension_binom by assumption. reflexivity.
Qed.

(** Below degree 5 the Argyris constructor builds a dual set of the wrong size:
    eighteen vertex nodes for a space of dimension at most 15. *)
Theorem C34_argyris_low_degree_refuted : forall (K : fieldT) c degree, is_triangle c = true -> degree <= 4 ->
  exists el, Argyris K c degree = Ok el /\ length (el_nodes K el) = 18 /\ el_members K el < 18.
Proof.
  intros K c degree Ht Hd. destruct degree as [|[|[|[|[|degree]]]]]; [| | | | |lia];
    (destruct c; try discriminate; eexists; (split; [reflexivity|split; [reflexivity|cbn; lia]])).
Qed.

Theorem C34_taylor_p0 : forall (K : fieldT) c degree, simplex c ->
  cell_only c 1 (P0 K c) /\
  cell_only c (binom (degree + spatial_dimension c) (spatial_dimension c)) (DiscontinuousTaylor K c degree).
Proof. intros K c degree Hc. split; [now apply P0_ok|now apply Taylor_ok]. Qed.

(** Elements at [degree + 1] quadrature points of the interval. *)
Theorem C34_gauss_line_elements : forall (K : fieldT) c degree (pts : list (list K)),
  length pts = degree + 1 ->
  (is_line c = true -> cell_only c (degree + 1) (GaussLegendre K c degree pts)) /\
  (is_line c = true -> 1 <= degree -> exists el, GaussLobattoLegendre K c degree pts = Ok el /\ numbered c el /\
     el_members K el = degree + 1 /\ el_nodes K el = map (PointEvaluation K) pts /\
     dofs_on (el_ids K el) (DI 0, 0) = [0] /\ dofs_on (el_ids K el) (DI 0, 1) = [degree]) /\
  (is_line c = true -> degree = 0 -> GaussLobattoLegendre K c degree pts = Err ValueError) /\
  (is_line c = false -> GaussLegendre K c degree pts = Err ValueError /\
     GaussLobattoLegendre K c degree pts = Err ValueError).
Proof.
  intros K c degree pts Hp. split; [intros; now apply GaussLegendre_ok|].
  split; [intros; now apply GaussLobatto_ok|]. split.
  - intros Hc ->. unfold GaussLobattoLegendre. rewrite Hc. destruct c; try discriminate; reflexivity.
  - intros Hc. unfold GaussLegendre, GaussLobattoLegendre. rewrite Hc. auto.
Qed.

(** RT_k: sd C(k-1+sd, sd) + C(k+sd-2, sd-1), the dimension of (P_{k-1})^d + x P_{k-1}. *)
Theorem C34_raviart_thomas : forall (K : fieldT), char0 K -> forall c k v, simplex c -> 1 <= k ->
  (v = VPoint \/ 2 <= spatial_dimension c) ->
  let sd := spatial_dimension c in
  complete c (sd * binom (k - 1 + sd) sd + binom (k - 1 + sd - 1) (sd - 1)) (RaviartThomas K c k v).
Proof. intros K HK c k v Hc Hk Hv sd. now apply (RaviartThomas_ok HK). Qed.

(** In one dimension the integral variant has no facet element of positive degree. *)
Theorem C34_raviart_thomas_line_integral : forall (K : fieldT) k,
  RaviartThomas K DefaultLine k VIntegral = Err NotImplementedError /\
  (2 <= k -> RaviartThomas K UFCInterval k VIntegral = Err ValueError).
Proof.
  intros K k. split.
  - unfold RaviartThomas. rewrite rt_members_eq by exact I. reflexivity.
  - intros Hk. unfold RaviartThomas. rewrite rt_members_eq by exact I. cbn [bind rt_nodes facet_element].
    unfold polynomial_dimension at 1. destruct (Nat.ltb_spec 0 (k - 1)); [reflexivity|lia].
Qed.

Theorem C34_discontinuous_raviart_thomas : forall (K : fieldT), char0 K -> forall c k, simplex c -> 1 <= k ->
  let sd := spatial_dimension c in
  cell_only c (sd * binom (k - 1 + sd) sd + binom (k - 1 + sd - 1) (sd - 1)) (DiscontinuousRaviartThomas K c k) /\
  exists el el', RaviartThomas K c k VPoint = Ok el /\ DiscontinuousRaviartThomas K c k = Ok el' /\
    el_nodes K el' = el_nodes K el.
Proof. intros K HK c k Hc Hk sd. split; [now apply (DRT_ok HK)|now apply (DRT_nodes HK)]. Qed.

(** First kind: k(k+2) on triangles, k(k+2)(k+3)/2 on tetrahedra. *)
Theorem C34_nedelec : forall (K : fieldT), char0 K -> forall c k v, simplex c -> 1 <= k ->
  (spatial_dimension c = 2 -> complete c (k * (k + 2)) (Nedelec K c k v)) /\
  (spatial_dimension c = 3 -> exists n, 2 * n = k * (k + 2) * (k + 3) /\ complete c n (Nedelec K c k v)) /\
  (spatial_dimension c = 1 -> Nedelec K c k v = Err PlainException).
Proof.
  intros K HK c k v Hc Hk. split; [|split]; intros Hd.
  - replace (k * (k + 2)) with (2 * binom (k + 1) 2 + k).
    + apply (Nedelec2_ok HK); [|assumption]. destruct c; try contradiction; try discriminate; reflexivity.
    + pose proof (binom2 (k - 1)) as E. replace (k - 1 + 2) with (k + 1) in E by lia.
      replace (k - 1 + 1) with k in E by lia. nia.
  - exists (ned3_dim (k - 1)). split; [|now apply (Nedelec3_ok HK)].
    unfold ned3_dim. replace (k - 1 + 1) with k by lia.
    destruct k as [|[|[|m]]]; [lia|reflexivity|reflexivity|].
    pose proof (binom3 m) as E3. pose proof (binom2 (m + 1)) as E2.
    replace (m + 1 + 2) with (m + 3) in E2 by lia. replace (S (S (S m))) with (m + 3) by lia. nia.
  - unfold Nedelec. rewrite Hd. reflexivity.
Qed.

(** BDM_k and second kind: the full space (P_k)^sd. *)
Theorem C34_brezzi_douglas_marini : forall (K : fieldT), char0 K -> forall c k v, simplex c ->
  2 <= spatial_dimension c ->
  let sd := spatial_dimension c in
  (1 <= k -> complete c (sd * binom (k + sd) sd) (BrezziDouglasMarini K c k v)) /\
  (k = 0 -> BrezziDouglasMarini K c k v = Err PlainException).
Proof.
  intros K HK c k v Hc Hd sd. split; [intros Hk; now apply (BDM_ok HK)|]. intros ->. reflexivity.
Qed.
Theorem C34_nedelec_second_kind : forall (K : fieldT), char0 K -> forall k v, 1 <= k ->
  (forall c, is_triangle c = true -> (v = VPoint \/ c = UFCTriangle) ->
     complete c (2 * binom (k + 2) 2) (NedelecSecondKind K c k v)) /\
  complete UFCTetrahedron (3 * binom (k + 3) 3) (NedelecSecondKind K UFCTetrahedron k v).
Proof.
  intros K HK k v Hk. split; [|now apply (NSK3_ok HK)].
  intros c Ht Hv. apply (NSK2_ok HK); auto. destruct Hv as [Hv| ->]; [now left|right; reflexivity].
Qed.
(** The face and edge sub-elements exist only on UFC cells; everything else is refused. *)
Theorem C34_nedelec_second_kind_refused : forall (K : fieldT) c k,
  (k = 0 -> forall v, NedelecSecondKind K c k v = Err AssertionError) /\
  (1 <= k -> simplex c -> 2 <= spatial_dimension c -> is_ufc c = false ->
     NedelecSecondKind K c k VIntegral = Err NotImplementedError) /\
  (2 <= k -> simplex c -> spatial_dimension c = 3 -> is_ufc c = false ->
     NedelecSecondKind K c k VPoint = Err AssertionError) /\
  (1 <= k -> simplex c -> spatial_dimension c = 1 -> forall v, NedelecSecondKind K c k v = Err AssertionError).
Proof.
  intros K c k. unfold NedelecSecondKind. split; [|split; [|split]].
  - intros -> v. reflexivity.
  - intros Hk Hc Hd Hu. destruct (Nat.ltb_spec k 1); [lia|]. unfold on_members. rewrite dimension_binom by assumption.
    cbn [bind]. rewrite Hu. destruct c; try contradiction; try discriminate; cbn in Hd; try lia; reflexivity.
  - intros Hk Hc Hd Hu. destruct (Nat.ltb_spec k 1); [lia|]. unfold on_members. rewrite dimension_binom by assumption.
    cbn [bind]. rewrite Hd. cbn [Nat.eqb orb negb bind]. destruct (Nat.ltb_spec k 2); [lia|].
    destruct c; try contradiction; try discriminate; reflexivity.
  - intros Hk Hc Hd v. destruct (Nat.ltb_spec k 1); [lia|]. unfold on_members. rewrite dimension_binom by assumption.
    cbn [bind]. rewrite Hd. reflexivity.
Qed.

(** Symmetric tensor families. *)
Theorem C34_regge_hhj : forall (K : fieldT), char0 K -> forall c degree, simplex c ->
  (spatial_dimension c = 2 -> complete c (3 * binom (degree + 2) 2) (Regge K c degree) /\
     complete c (3 * binom (degree + 2) 2) (HellanHerrmannJohnson K c degree)) /\
  (spatial_dimension c = 3 -> complete c (6 * binom (degree + 3) 3) (Regge K c degree)) /\
  (spatial_dimension c = 1 -> Regge K c degree = Err ValueError) /\
  (spatial_dimension c <> 2 -> HellanHerrmannJohnson K c degree = Err ValueError).
Proof.
  intros K HK c degree Hc. split; [|split; [|split]]; intros Hd.
  - assert (Ht : triangle c) by (destruct c; try contradiction; try discriminate; reflexivity).
    split; [now apply (Regge2_ok HK)|now apply (HHJ_ok HK)].
  - now apply (Regge3_ok HK).
  - unfold Regge, sym_members, on_members. rewrite dimension_binom by assumption. rewrite Hd. reflexivity.
  - unfold HellanHerrmannJohnson, sym_members, on_members. rewrite dimension_binom by assumption. cbn [bind].
    destruct (Nat.eqb_spec (spatial_dimension c) 2); [contradiction|reflexivity].
Qed.

(** Elements of one fixed degree on triangles. *)
Theorem C34_fixed_degree : forall (K : fieldT), char0 K -> forall c, is_triangle c = true ->
  complete c 20 (MardalTaiWinther K c 3) /\ complete c 18 (ArnoldWintherNC K c 2) /\ complete c 30 (ArnoldWinther K c 3) /\
  forall degree, (degree <> 3 -> MardalTaiWinther K c degree = Err AssertionError) /\
    (degree <> 2 -> ArnoldWintherNC K c degree = Err AssertionError) /\
    (degree <> 3 -> ArnoldWinther K c degree = Err AssertionError).
Proof.
  intros K HK c Ht. split; [now apply MTW_ok|]. split; [now apply AWNC_ok|]. split; [now apply (AW_ok HK)|].
  intros degree. unfold MardalTaiWinther, ArnoldWintherNC, ArnoldWinther. repeat split; intros H;
    destruct (Nat.eqb_spec degree 3), (Nat.eqb_spec degree 2); try contradiction; reflexivity.
Qed.

(** BDFM_2: two normal nodes per edge, registered there; the three tangential
    nodes, evaluated at edge midpoints, are registered on the cell. *)
Theorem C34_bdfm : forall (K : fieldT), char0 K -> forall c, simplex c ->
  (is_triangle c = true -> exists el, BrezziDouglasFortinMarini K c 2 = Ok el /\ numbered c el /\
    el_members K el = 9 /\ length (el_nodes K el) = 9 /\
    (forall e i, In i (dofs_on (el_ids K el) (DI 1, e)) ->
       exists n, nth_error (el_nodes K el) i = Some n /\ node_on c 1 e n) /\
    dofs_on (el_ids K el) (DI 2, 0) = [6; 7; 8]) /\
  (forall degree, degree <> 2 -> BrezziDouglasFortinMarini K c degree = Err PlainException) /\
  (is_triangle c = false -> BrezziDouglasFortinMarini K c 2 = Err PlainException).
Proof.
  intros K HK c Hc. split; [intros Ht; now apply (BDFM_ok HK)|]. split.
  - intros degree H. unfold BrezziDouglasFortinMarini. destruct (Nat.eqb_spec degree 2); [contradiction|reflexivity].
  - intros H. destruct c; try contradiction; try discriminate; reflexivity.
Qed.

(** DiscontinuousElement: the same nodes, all on the cell. *)
Theorem C34_discontinuous_element : forall (K : fieldT) c (el : element K),
  (simplex c \/ c = Point \/ c = UFCQuadrilateral \/ c = UFCHexahedron) ->
  let d := DiscontinuousElement K c el in
  el_nodes K d = el_nodes K el /\ el_members K d = el_members K el /\ numbered c d /\ on_cell c d.
Proof. intros K c el Hc. now apply DiscontinuousElement_ok. Qed.

(** Bubble and FacetBubble pick the dofs interior to the entities of the given
    codimension: C(degree-1, dim) on each; with none the constructor raises
    RuntimeError. *)
Theorem C34_bubbles : forall (K : fieldT), char0 K -> forall c degree codim el, simplex c -> 1 <= degree ->
  codim <= spatial_dimension c -> Lagrange K c degree = Ok el ->
  let d := spatial_dimension c - codim in
  (d < degree -> exists l, codim_bubble_indices (el_ids K el) (spatial_dimension c) codim = Ok l /\
     length l = num c d * binom (degree - 1) d /\
     forall i, In i l -> exists e n, nth_error (el_nodes K el) i = Some n /\ node_on c d e n) /\
  (degree <= d -> codim_bubble_indices (el_ids K el) (spatial_dimension c) codim = Err RuntimeError).
Proof.
  intros K HK c degree codim el Hc Hdeg Hcd E d.
  destruct (Lagrange_dim_dofs HK c degree d el Hc Hdeg ltac:(unfold d; lia) E) as (es & Hes & Hl).
  destruct (Lagrange_ok HK c degree Hc Hdeg) as (el' & E' & (_ & Hse) & Hpl & _). rewrite E in E'. injection E' as <-.
  assert (Hmax : max_key (el_ids K el) = Some (DI (spatial_dimension c))).
  { unfold Lagrange, on_members in E. rewrite dimension_binom in E by assumption. cbn [bind] in E.
    unfold lagrange_dual in E. destruct (lagrange_dims K c degree _ _) as [ids st] eqn:E1.
    destruct (lagrange_dims_seqd HK c degree _ Hc (fun dim es => topology_dims c dim es Hc) _ _ _ _ E1)
      as (N & _ & _ & Hsk & _). injection E as <-. cbn [el_ids].
    assert (Hm : forall (a : dict (list nat)), max_key a = max_key (skel a)).
    { intros [|[x v] a]; [reflexivity|]. cbn [max_key skel map]. f_equal.
      revert x. induction a as [|[y w] a IH]; intros x; [reflexivity|]. cbn [fold_left map]. apply IH. }
    rewrite Hm, Hsk. clear -Hc. destruct c; try contradiction; reflexivity. }
  assert (Hn : 1 <= num c d).
  { unfold d. clear -Hc Hcd. destruct c; try contradiction; cbn in Hcd;
      (destruct codim as [|[|[|[|?]]]]; try lia; cbn; lia). }
  unfold codim_bubble_indices. rewrite Hmax. destruct (deqb (DI (spatial_dimension c)) (DI (spatial_dimension c))) eqn:Ed.
  2:{ exfalso. assert (deqb (DI (spatial_dimension c)) (DI (spatial_dimension c)) = true) by now apply deqb_eq. congruence. }
  destruct (Nat.ltb_spec (spatial_dimension c) codim); [lia|]. fold d. rewrite Hes.
  assert (Hns : length (nsort (flat_map snd es)) = num c d * binom (degree - 1) d)
    by (rewrite <- Hl; apply Permutation_length, Permutation_sym, nsort_perm).
  split; intros Hd.
  - assert (Hb : 1 <= binom (degree - 1) d).
    { assert (G : forall n k, k <= n -> 1 <= binom n k).
      { induction n as [|n IH]; intros [|k] Hk; cbn; try lia. specialize (IH k ltac:(lia)). lia. }
      apply G. lia. }
    destruct (nsort (flat_map snd es)) as [|i0 l0] eqn:Es.
    + cbn in Hns. nia.
    + eexists. split; [reflexivity|]. split; [exact Hns|]. rewrite <- Es. intros i Hi.
      apply (Permutation_in _ (Permutation_sym (nsort_perm _))) in Hi. apply in_flat_map in Hi as ([e l] & He & Hi).
      destruct (Hpl d e i) as (n & H1 & H2); [|eauto].
      unfold dofs_on, lookup; cbn [fst snd]. rewrite Hes.
      assert (HND : NoDup (keys es)).
      { unfold Lagrange, on_members in E. rewrite dimension_binom in E by assumption. cbn [bind] in E.
        unfold lagrange_dual in E. destruct (lagrange_dims K c degree _ _) as [ids st] eqn:E1.
        destruct (lagrange_dims_seqd HK c degree _ Hc (fun dim es => topology_dims c dim es Hc) _ _ _ _ E1)
          as (N & _ & _ & Hsk & _). injection E as <-. cbn [el_ids] in Hes. apply dlookup_weak in Hes.
        assert (Hin : In (DI d, keys es) (skel ids)) by (apply in_map_iff; exists (DI d, es); auto).
        rewrite Hsk in Hin. apply in_map_iff in Hin as ([d' es'] & [= -> <-] & Hin).
        destruct (topology_dims c _ _ Hc Hin) as (d0 & _ & _ & ->). unfold range. apply seq_NoDup. }
      rewrite (proj2 (elookup_in es e l HND) He). exact Hi.
  - assert (Hb : binom (degree - 1) d = 0) by (apply binom_lt; lia).
    rewrite Hb, Nat.mul_0_r in Hns. destruct (nsort (flat_map snd es)); [reflexivity|discriminate].
Qed.

(** ** Non-vacuity *)
Example C34_lagrange_example :
  exists el, Lagrange QcField UFCTriangle 3 = Ok el /\ length (el_nodes QcField el) = 10 /\
    dofs_on (el_ids QcField el) (DI 1, 2) = [7; 8] /\ dofs_on (el_ids QcField el) (DI 2, 0) = [9].
Proof. eexists. split; [reflexivity|]. repeat split. Qed.
Example C34_char0_example : char0 QcField. Proof. exact Qc_char0. Qed.

(** hypotheses met at a non-trivial size *)
Example C34_sizes : simplex UFCTetrahedron /\ is_triangle IntrepidTriangle = true /\ is_ufc DefaultTriangle = false /\
  binom (3 + 3) 3 = 20 /\ (exists el, Nedelec QcField UFCTetrahedron 2 VIntegral = Ok el /\ length (el_nodes QcField el) = 20) /\
  (exists el, RaviartThomas QcField UFCTriangle 3 VPoint = Ok el /\ length (el_nodes QcField el) = 15).
Proof. repeat split; eexists; split; reflexivity. Qed.

Print Assumptions C34_lagrange.
Print Assumptions C34_morley_argyris_bell.
Print Assumptions C34_raviart_thomas.
Print Assumptions C34_nedelec.
Print Assumptions C34_brezzi_douglas_marini.
Print Assumptions C34_nedelec_second_kind.
Print Assumptions C34_regge_hhj.
Print Assumptions C34_bdfm.
Print Assumptions C34_fixed_degree.
Print Assumptions C34_bubbles.
