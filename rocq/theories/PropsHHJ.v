(** C56: the Hellan-Herrmann-Johnson element. *)
Set Warnings "-notation-overridden,-ambiguous-paths".
From mathcomp Require Import all_ssreflect all_algebra zify.
From Verif Require Base ModelIndex SpecIndex ModelCell SpecCell SpecFam ModelFam ProofsFam PropsFam.
From Verif Require Import FieldTac SpecJacobi ProofsDmatsReg PropsExpansion ModelDmats ModelDual SpecDual ProofsDual SpecPoly SpecRT SpecTens ModelSpace ModelNormal SpecNormal ModelTens ProofsLagLat ProofsSpace ProofsSpaceCell
  PropsConform ProofsTensElem ProofsTens ProofsTensNodes ProofsRegge PropsNormal PropsNormalCells PropsRefNormal ProofsRTNodes ProofsGaussReal PropsRegge ProofsHHJ PropsJacobi.
Set Implicit Arguments. Unset Strict Implicit. Unset Printing Implicit Defensive.
Import GRing.Theory Num.Theory.
Local Open Scope ring_scope.

Section C56.
Variable R : rcfType.
Notation arr := (seq (seq R)).
Notation K := (mcF R).
Notation pt := [eqType of seq R].
Notation nil_f := (@mkFunctional R pt [::] [::] [::]).
Notation vts c := (ModelCell.vertices K c : seq (seq R)).
Variables (sqrt : R -> R) (svd : arr -> arr * seq R * arr) (qr : arr -> arr * arr) (pop : seq nat -> nat).
Hypotheses (Hsq : sqrt_exact sqrt) (Hsvd : svd_correct svd) (Hqr : qr_correct qr) (Hpop : pop_correct pop).
Let R0 : char_zero R := num_char0 R.
Let K0 := char0K R0.
Notation pip c v w x := (ModelFunctional.PointwiseInnerProductEvaluation (geometry_of R c) v w x).
Definition nodeH n (c : cell) (l : ModelFam.node K) : functional R pt :=
  match hhj_node svd qr pop n c l with Ok f => f | Err _ => nil_f end.
Lemma nodeH_ok n c l : SpecFam.simplex c -> sdim_of c = 2%N -> List.In l (hhj_nodes R c n) -> hhj_node svd qr pop n c l = Ok (nodeH n c l) /\ exists v w x, nodeH n c l = pip c v w x.
Proof.
move=> Hc Hd /(hhj_shape Hsvd Hqr Hpop Hc Hd) [[e [V [nrm [y [k [-> _ _ _ E]]]]]]|[v [w [y [-> _ _ E]]]]]; rewrite /nodeH E; split=> //.
- by exists nrm, nrm, y.
- by exists v, w, y.
Qed.
Lemma hhj_el c n : SpecFam.simplex c -> sdim_of c = 2%N -> exists el, [/\ ModelFam.HellanHerrmannJohnson K c n = Base.Ok el, ModelFam.el_nodes K el = hhj_nodes R c n,
  size (ModelFam.el_nodes K el) = (3 * Base.binom (n + 2) 2)%N & SpecFam.placed (K := K) c el].
Proof.
move=> Hc Hd. have [el [E1 E2]] := @hhj_nodes_ok K c n Hc Hd. exists el. 
have [A _] := PropsFam.C34_regge_hhj K K0 c n Hc. have [_ [el' [X1 [_ [X3 [_ X2]]]]]] := A Hd. rewrite E1 in X1. case: X1 => X1. rewrite -X1 in X2 X3. split=> //.
Qed.

(** The constructor returns a nodal basis of the symmetric matrix fields of degree
    [n]: 3 binom(n+2, 2) members. *)
Theorem C56_hhj : forall c n, SpecFam.simplex c -> ModelCell.spatial_dimension c = 2%N ->
  exists el fs U, [/\ ModelFam.HellanHerrmannJohnson K c n = Base.Ok el, map_res (hhj_node svd qr pop n c) (ModelFam.el_nodes K el) = Ok fs,
    size fs = (3 * Base.binom (n + 2) 2)%N, hellan_herrmann_johnson sqrt svd qr pop c n = Ok U &
    tens_nodal sqrt c n [:: 2%N; 2%N] (sym_field 2) fs U].
Proof.
move=> c n Hc Hd. have Hd' : sdim_of c = 2%N := Hd. have Hd3 : (2 <= sdim_of c <= 3)%N by rewrite Hd'.
have [el [E1 E2 HN _]] := hhj_el n Hc Hd'.
have SH x : List.In x (ModelFam.el_nodes K el) -> hhj_node svd qr pop n c x = Ok (nodeH n c x) /\ exists v w y, nodeH n c x = pip c v w y by rewrite E2; exact: nodeH_ok.
set nds := ModelFam.el_nodes K el in E2 HN SH *.
have Hfs : map_res (hhj_node svd qr pop n c) nds = Ok (map (nodeH n c) nds) by apply: map_res_map => x /SH [].
have HN0 : (0 < size nds)%N by rewrite HN muln_gt0 /= (@binom_pos 2).
have HE : size nds = num_members (sym_U R c n) by rewrite HN sym_num exps_size Hd'.
have [|||||||U [U1 U2]] := @telem_ok R R0 sqrt Hsq c n [:: sdim_of c; sdim_of c] Hc (sym_U R c n) (map (nodeH n c) nds) (sym_field (sdim_of c)).
- split.
  + by rewrite size_map.
  + clear -SH HN0. case: nds SH HN0 => [|y l] //= SH _. by have [_ [v [w [x ->]]]] := SH y (or_introl erefl).
  + clear -SH. elim: nds SH => [|y l IH] SH //=. rewrite IH ?andbT; last by move=> z Hz; apply: SH; right.
    have [_ [v [w [x ->]]]] := SH y (or_introl erefl). exact: pip_wf.
  + suff -> : has (fun l0 : functional R pt => deriv_dict l0 != [::]) (map (nodeH n c) nds) = false by [].
    clear -SH. elim: nds SH => [|y l IH] SH //=. rewrite IH ?orbF; last by move=> z Hz; apply: SH; right.
    by have [_ [v [w [x ->]]]] := SH y (or_introl erefl).
- by [].
- by rewrite size_map.
- move=> a. exact: sym_span1.
- move=> cfs. exact: sym_span2.
- move=> a H. exact: (sym_indep Hd3).
- rewrite Hd'. move=> cfs Sc H0 cmp x /comps2P [i [l [Hi Hl ->]]] Sx.
  have Z l0 : List.In l0 (hhj_nodes R c n) -> forall v w y, hhj_node svd qr pop n c l0 = Ok (pip c v w y) -> bilin 2 w v (fun j k => pval 2 n (cfs [:: j; k]) y) = 0.
  { rewrite -E2 => Hin v w y El. have [k Hk] := List.In_nth_error _ _ Hin. have [K1 K2] := nth_error_map (nodeH n c) nil_f Hk.
    have [X1 _] := SH _ Hin. rewrite X1 in El. case: El => El. have := H0 k K1. rewrite K2 El pip_apply Hd'. by []. }
  apply: (nns_det (M := fun i j => pval 2 n (cfs [:: i; j]) x)) => // [i' j' Hi' Hj'|o Ho].
  + apply: eq_bigr => al _. by rewrite Sc.
  + have Px := cell_plane R0 Hc (etrans Sx (esym Hd')). rewrite Hd' in Px.
    apply: (nn_zero Hsvd Hqr Hpop Hc Hd' Sc Ho (iota_uniq _ _) _ _ _ _ Px).
    * move=> v. by rewrite mem_iota.
    * move=> v. rewrite mem_filter. by case/andP.
    * move=> e V nrm y HV HP N1 Hy _. have He : (e < 3)%N by move: HV; rewrite /facet_is; clear -Hc Hd; case: c Hc Hd => //= _ _; case: e => [|[|[|e]]].
      have [k [Hk Ek]] := hhj_edge_in He Hy. apply: (Z _ Hk). by rewrite /hhj_node N1 /= Ek.
    * move=> _ v w y Hvw Hy. exact: (Z _ (hhj_cell_in Hvw Hy)).
exists el, (map (nodeH n c) nds), U. split=> //; first by rewrite size_map HN.
- have [S1 S2] := sym_set_ok R0 Hsq n Hc. by rewrite /hellan_herrmann_johnson /tens_element S1 /= S2 E1 /= -/nds Hfs /= U1.
- by rewrite Hd' in U2.
Qed.
(** Every node is the normal-normal component at an interior lattice point of an
    edge, or one of the three components at an interior lattice point of the cell. *)
Theorem C56_nodes : forall c n, SpecFam.simplex c -> ModelCell.spatial_dimension c = 2%N ->
  exists el fs, [/\ ModelFam.HellanHerrmannJohnson K c n = Base.Ok el, map_res (hhj_node svd qr pop n c) (ModelFam.el_nodes K el) = Ok fs &
    forall j, (j < size fs)%N ->
      (exists e nrm x, [/\ (e < 3)%N, scaled_normal svd qr pop c e = Ok nrm, SpecFam.interior_point (K := K) (SpecFam.vertices_of (K := K) c 1 e) x &
        forall f, apply (nth nil_f fs j) f = bilin 2 nrm nrm (fun i k => fval f [:: i; k] x)]) \/
      (exists p q x, [/\ (p <= q < 2)%N, SpecFam.interior_point (K := K) (SpecFam.vertices_of (K := K) c 2 0) x &
        forall f, apply (nth nil_f fs j) f = fval f [:: q; p] x])].
Proof.
move=> c n Hc Hd. have Hd' : sdim_of c = 2%N := Hd. have [el [fs [U [H1 H2 H3 H4 H5]]]] := C56_hhj n Hc Hd. exists el, fs. split=> // j Hj.
have [el0 [E1 E2 HN _]] := hhj_el n Hc Hd'. rewrite H1 in E1. case: E1 => E1. rewrite -{el0}E1 in E2 HN.
have Hj' : (j < size (ModelFam.el_nodes K el))%N by rewrite HN -H3.
have [nd Nj] := nth_error_some Hj'. have [_ Ej] := map_res_nth0 H2 Nj.
have Hin := List.nth_error_In _ _ Nj. rewrite E2 in Hin.
have [[e [V [nrm [y [k [_ HV N1 Hy E]]]]]]|[v [w [y [_ Hvw Hy E]]]]] := hhj_shape Hsvd Hqr Hpop Hc Hd' Hin; rewrite E in Ej; case: Ej => <-; [left|right].
- have He : (e < 3)%N by move: HV; rewrite /facet_is; clear -Hc Hd; case: c Hc Hd => //= _ _; case: e => [|[|[|e]]].
  exists e, nrm, y. split=> //.
  + apply: (ProofsFam.make_points_interior (K := K) K0 c 1 e (n + 2)%N y Hc) Hy; first by rewrite Hd; lia.
    move: He. clear -Hc Hd. case: c Hc Hd => //= _ _; rewrite /ModelFam.num /=; lia.
  + move=> f. by rewrite pip_apply Hd'.
- have [p [q [Hpq Hb]]] : exists p q, (p <= q < 2)%N /\ forall M, bilin 2 w v M = M q p.
  { case: Hvw => [[<- <-]|[[<- <-]|[[<- <-]|[]]]]; [exists 0%N, 0%N|exists 0%N, 1%N|exists 1%N, 1%N]; split=> // M;
      rewrite /bilin !big_ord_recl !big_ord0 /= /zeroF /oneF !mul0r ?mul1r ?mulr0 ?mulr1 ?addr0 ?add0r //. }
  exists p, q, y. split=> //.
  + apply: (ProofsFam.make_points_interior (K := K) K0 c 2 0 (n + 2)%N y Hc) Hy; first by rewrite Hd; lia.
    clear -Hc Hd. case: c Hc Hd => //= _ _; rewrite /ModelFam.num /=; lia.
  + move=> f. by rewrite pip_apply Hd' Hb.
Qed.

(** Conformity: on an edge the normal-normal component of a basis field vanishes
    unless the field is registered on that edge. *)
Theorem C56_conforming : forall c n, SpecFam.simplex c -> ModelCell.spatial_dimension c = 2%N ->
  exists el U, [/\ ModelFam.HellanHerrmannJohnson K c n = Base.Ok el, hellan_herrmann_johnson sqrt svd qr pop c n = Ok U &
    forall e W nrm, ModelCell.lookup (ModelCell.topology c) (ModelCell.DI 1) e = Some W -> scaled_normal svd qr pop c e = Ok nrm ->
    forall d' e' j, List.In j (SpecCell.dofs_on (ModelFam.el_ids K el) (ModelCell.DI d', e')) -> (d', e') <> (1%N, e) ->
    forall x, in_plane 2 (vts c) W x ->
      bilin 2 nrm nrm (fun i k => fval (member (exp_set sqrt c n (size (exps 2 n))) U j) [:: i; k] x) = 0].
Proof.
move=> c n Hc Hd. have Hd' : sdim_of c = 2%N := Hd. have So := simplex2_solid Hc Hd'.
have [el [fs [U [H1 H2 H3 H4 H5]]]] := C56_hhj n Hc Hd. exists el, U. split=> //.
move=> e W nrm HW Hn d' e' j Hj Hne x Hx. have [UW NW SW Hle] := entity_ok Hc HW.
have [el0 [E1 E2 HN Hpl]] := hhj_el n Hc Hd'. rewrite H1 in E1. case: E1 => E1. rewrite -{el0}E1 in E2 HN Hpl.
have HF : facet_is c e W by rewrite /facet_is Hd. have [i Hi HP] := facet_opp So HF. rewrite Hd' in Hi HP.
have [nj [Nj Onj]] := Hpl d' e' j Hj. have [Jf Ej] := map_res_nth0 H2 Nj.
case: H5 => V1 V2 V3 V4 _. have [cfs Sc [Sv _]] := V3 j Jf.
have FV y a k : (a < 2)%N -> (k < 2)%N -> fval (member (exp_set sqrt c n (size (exps 2 n))) U j) [:: a; k] y = pval 2 n (cfs [:: a; k]) y.
{ move=> Ha Hk. rewrite -Hd'. apply: (Sv [:: a; k] y). apply/comps2P. by exists a, k. }
have Hi' : (i <= sdim_of c)%N by rewrite Hd'. have HP' : perm_eq W (opp (sdim_of c) i) by rewrite Hd'.
have [nrm' [N1 [l N2 N3]]] := normal_shape Hsvd Hqr Hpop So HF Hi' HP'. rewrite Hn in N1. case: N1 => N1. rewrite -N1 Hd' in N3.
rewrite (bilin_nn _ N3).
have -> : nn i (fun a k => fval (member (exp_set sqrt c n (size (exps 2 n))) U j) [:: a; k] x) = nn i (fun a k => pval 2 n (cfs [:: a; k]) x).
{ apply: eq_bigr => a _. apply: eq_bigr => k _. by rewrite FV ?ltn_ord. }
have Hle2 v : v \in W -> (v <= 2)%N by move/Hle; rewrite Hd'.
have iW : i \notin W by rewrite (perm_mem HP) mem_filter eqxx.
rewrite (nn_zero Hsvd Hqr Hpop Hc Hd' Sc Hi UW Hle2 _ _ _ Hx) ?mulr0 //.
- move=> v. by rewrite (perm_mem HP).
- move=> e1 V nrm1 y HV HPV N4 Hy _.
  have Ee : e1 = e.
  { have Hsx : forall v, v \in V <-> v \in W by move=> v; rewrite (perm_mem HPV) (perm_mem HP).
    move: HF HV HP HPV. rewrite /facet_is. clear -Hc Hd Hi. case: c Hc Hd => //= _ _; case: e1 => [|[|[|e1]]] //; case: e => [|[|[|e]]] //= [<-] [<-]; by case: i Hi => [|[|[|i]]]. }
  rewrite Ee in HV N4 Hy. have He : (e < 3)%N by move: HV; rewrite /facet_is; clear -Hc Hd; case: c Hc Hd => //= _ _; case: e => [|[|[|e]]].
  have [k [Hk Ek]] := hhj_edge_in He Hy. rewrite -E2 in Hk. have [m Hm] := List.In_nth_error _ _ Hk. have [M1 M2] := map_res_nth0 H2 Hm.
  rewrite /hhj_node N4 /= Ek in M2. case: M2 => M2.
  have := V4 m j M1 Jf. have -> : (m == j) = false.
  { apply/eqP => Emj. rewrite Emj Nj in Hm. case: Hm => Hm. rewrite Hm /= in Onj. case: Onj => O1 O2. apply: Hne. by rewrite O1 O2. }
  rewrite -M2 pip_apply Hd' => E. rewrite -[RHS]E. apply: bilin_ext => // a b Ha Hb. by rewrite -FV // Hd'.
- by move/negP: iW.
Qed.
(** Only triangles are accepted. *)
Theorem C56_refused : forall c n, SpecFam.simplex c -> ModelCell.spatial_dimension c <> 2%N -> hellan_herrmann_johnson sqrt svd qr pop c n = Err Base.ValueError.
Proof.
move=> c n Hc Hd. have [_ [_ [_ B]]] := PropsFam.C34_regge_hhj K K0 c n Hc.
have [S1 S2] := sym_set_ok R0 Hsq n Hc. by rewrite /hellan_herrmann_johnson /tens_element S1 /= S2 (B Hd).
Qed.
End C56.

(** The hypotheses can be met: exact square roots and decompositions exist over
    every real closed field. *)
Example C56_example (R : rcfType) : exists sqrt svd qr pop U, [/\ sqrt_exact sqrt, @svd_correct R svd, @qr_correct R qr & pop_correct pop] /\
  [/\ hellan_herrmann_johnson sqrt svd qr pop ModelCell.UFCTriangle 1 = Ok U, num_members U = 9%N &
    exists2 nrm, scaled_normal svd qr pop ModelCell.UFCTriangle 0 = Ok nrm &
      bilin 2 nrm nrm (fun i k => fval (member (exp_set sqrt ModelCell.UFCTriangle 1 (size (exps 2 1))) U 2) [:: i; k] [:: 1; 0]) = 0].
Proof.
have [svd [qr [pop [H1 H2 H3]]]] := C20_decompositions_exist R. have [_ H4] := C23_sqrt_witness_rcf R.
have [el [fs [U [E1 E2 E3 E4 [E5 _ _ _ _]]]]] := @C56_hhj R Num.sqrt svd qr pop H4 H1 H2 H3 ModelCell.UFCTriangle 1 I erefl.
have [el' [U' [E1' E4' H]]] := @C56_conforming R Num.sqrt svd qr pop H4 H1 H2 H3 ModelCell.UFCTriangle 1 I erefl.
rewrite E4 in E4'. case: E4' => E4'. rewrite -E4' in H.
exists Num.sqrt, svd, qr, pop, U. split=> //. split=> //; first by rewrite E5 E3.
have HF : facet_is ModelCell.UFCTriangle 0 [:: 1%N; 2%N] by []. have [i Hi HP] := facet_opp so2 HF.
have [nrm [N1 _]] := normal_shape H1 H2 H3 so2 HF Hi HP. exists nrm => //.
apply: (H 0%N [:: 1%N; 2%N] nrm HF N1 1%N 1%N) => //.
- move: E1'. rewrite /ModelFam.HellanHerrmannJohnson /=. by move=> [<-]; left.
- split=> //. exists (fun v => (v == 1%N)%:R). split; first by rewrite !big_cons big_nil /= !addr0.
  by case=> [|[|j]] //= _; rewrite !big_cons big_nil /= /oneF /zeroF ?mulr0 ?mulr1 ?mul0r ?addr0 ?add0r.
Qed.
