(** Normal-normal components on the edges of a triangle determine a symmetric
    matrix field together with the interior nodes. *)
Set Warnings "-notation-overridden,-ambiguous-paths".
From mathcomp Require Import all_ssreflect all_algebra zify.
From mathcomp Require Import realalg.
From Verif Require Base ModelGeom ModelIndex SpecIndex ModelCell SpecCell SpecFam ModelFam ProofsEntPts.
From Verif Require Import FieldTac SpecJacobi ProofsDmatsReg PropsExpansion ModelDmats ModelDual SpecDual ProofsDual SpecPoly SpecRT SpecTens ModelSpace ModelNormal SpecNormal ModelTens ProofsLagLat ProofsSpace ProofsSpaceCell
  PropsConform ProofsTensElem ProofsTens ProofsTensNodes ProofsRegge PropsNormalCells ProofsRTNodes ProofsGaussReal.
Set Implicit Arguments. Unset Strict Implicit. Unset Printing Implicit Defensive.
Import GRing.Theory Num.Theory.
Local Open Scope ring_scope.

Section Gen.
Variable F : fieldType.
Hypothesis F0 : char_zero F.
Add Field FFhg : (mc_field_theory F).
Definition fdir (i j : nat) : F := if i is i'.+1 then (j == i')%:R else 1.
Lemma nns_gen (M : nat -> nat -> F) : (forall i j, (i < 2)%N -> (j < 2)%N -> M i j = M j i) ->
  (forall i, (i <= 2)%N -> \sum_(j < 2) \sum_(k < 2) fdir i j * M j k * fdir i k = 0) -> forall i j, (i < 2)%N -> (j < 2)%N -> M i j = 0.
Proof.
have T2 : 2%:R != 0 :> F by apply: F0.
move=> Hs H. have H0 := H 0%N isT. have H1 := H 1%N isT. have H2 := H 2%N isT.
rewrite !big_ord_recl !big_ord0 /= in H0 H1 H2. rewrite /bump /= ?addn0 in H0 H1 H2.
have M0 : M 0%N 0%N = 0 by rewrite -[RHS]H1; fring. have M1 : M 1%N 1%N = 0 by rewrite -[RHS]H2; fring.
have M2 : M 0%N 1%N = 0.
{ rewrite M0 M1 (Hs 1%N 0%N) // in H0. apply: (mulfI T2). rewrite mulr0 -[RHS]H0 mulr2n. fring. }
case=> [|[|i]] // [|[|j]] // _ _. by rewrite Hs.
Qed.
Lemma bilin_gen (v : seq F) l i M : (forall j, (j < 2)%N -> nth 0 v j = l * fdir i j) -> bilin 2 v v M = l * l * \sum_(j < 2) \sum_(k < 2) fdir i j * M j k * fdir i k.
Proof.
move=> Hv. rewrite /bilin mulr_sumr. apply: eq_bigr => j _. rewrite mulr_sumr. apply: eq_bigr => k _. rewrite !Hv ?ltn_ord //. 
have G (a b m : F) : l * a * m * (l * b) = l * l * (a * m * b) by fring. exact: G.
Qed.
Lemma cell_gen (M : nat -> nat -> F) : M 1%N 0%N = M 0%N 1%N -> (forall v w, List.In (v, w) (ModelFam.sym_basis (mcF F)) -> bilin 2 w v M = 0) ->
  forall i j, (i < 2)%N -> (j < 2)%N -> M i j = 0.
Proof.
move=> Ms Q.
have M00 : M 0%N 0%N = 0.
{ rewrite -[RHS](Q _ _ (or_introl erefl)) /bilin !big_ord_recl !big_ord0 /=. rewrite /bump /= ?addn0 /zeroF /oneF. fring. }
have M01 : M 0%N 1%N = 0.
{ rewrite -[RHS](Q _ _ (or_intror (or_introl erefl))) /bilin !big_ord_recl !big_ord0 /=. rewrite /bump /= ?addn0 /zeroF /oneF Ms. fring. }
have M11 : M 1%N 1%N = 0.
{ rewrite -[RHS](Q _ _ (or_intror (or_intror (or_introl erefl)))) /bilin !big_ord_recl !big_ord0 /=. rewrite /bump /= ?addn0 /zeroF /oneF. fring. }
case=> [|[|i]] // [|[|j]] // _ _. by rewrite Ms.
Qed.
End Gen.

Section HHJ.
Variable R : rcfType.
Notation arr := (seq (seq R)).
Notation K := (mcF R).
Notation vts c := (ModelCell.vertices K c : seq (seq R)).
Variables (svd : arr -> arr * seq R * arr) (qr : arr -> arr * arr) (pop : seq nat -> nat).
Hypotheses (Hsvd : svd_correct svd) (Hqr : qr_correct qr) (Hpop : pop_correct pop).
Add Field FFhj : (mc_field_theory R).
Let R0 : char_zero R := num_char0 R.
Let K0 := char0K R0.
Lemma simplex2_solid c : SpecFam.simplex c -> sdim_of c = 2%N -> solid c.
Proof. case: c => //= *; constructor. Qed.
(** the component along the normal of the edge opposite vertex [i] *)
Definition nn (i : nat) (M : nat -> nat -> R) : R := \sum_(j < 2) \sum_(k < 2) facet_dir R i j * M j k * facet_dir R i k.
Lemma nns_det (M : nat -> nat -> R) : (forall i j, (i < 2)%N -> (j < 2)%N -> M i j = M j i) -> (forall i, (i <= 2)%N -> nn i M = 0) ->
  forall i j, (i < 2)%N -> (j < 2)%N -> M i j = 0.
Proof. exact: (@nns_gen R R0 M). Qed.
Lemma bilin_nn (v : seq R) l i M : (forall j, (j < 2)%N -> nth 0 v j = l * facet_dir R i j) -> bilin 2 v v M = l * l * nn i M.
Proof. exact: (@bilin_gen R v l i M). Qed.
Definition nn_cf (i : nat) (cfs : seq nat -> seq nat -> R) (al : seq nat) : R := nn i (fun j k => cfs [:: j; k] al).
Lemma pval_nn n i cfs x : pval 2 n (nn_cf i cfs) x = nn i (fun j k => pval 2 n (cfs [:: j; k]) x).
Proof.
rewrite /nn. under [RHS]eq_bigr => j _ do under eq_bigr => k _ do rewrite mulr_sumr mulr_suml.
under [RHS]eq_bigr => j _ do rewrite exchange_big /=. rewrite exchange_big /=. rewrite /pval. apply: eq_bigr => al _.
rewrite mulr_suml. apply: eq_bigr => j _. rewrite mulr_suml. apply: eq_bigr => k _. exact: (edgeE (facet_dir R i j)).
Qed.
(** [W] is the edge opposite [i], or the cell *)
Lemma nn_zero c n W i (cfs : seq nat -> seq nat -> R) : SpecFam.simplex c -> sdim_of c = 2%N -> sym_field 2 cfs -> (i <= 2)%N ->
  uniq W -> (forall v, v \in W -> (v <= 2)%N) -> {subset opp 2 i <= W} ->
  (forall e V nrm y, facet_is c e V -> perm_eq V (opp 2 i) -> scaled_normal svd qr pop c e = Ok nrm -> List.In y (ModelFam.make_points K c 1 e (n + 2)) -> in_plane 2 (vts c) W y ->
     bilin 2 nrm nrm (fun j k => pval 2 n (cfs [:: j; k]) y) = 0) ->
  (i \in W -> forall v w y, List.In (v, w) (ModelFam.sym_basis K) -> List.In y (ModelFam.make_points K c 2 0 (n + 2)) -> bilin 2 w v (fun j k => pval 2 n (cfs [:: j; k]) y) = 0) ->
  forall x, in_plane 2 (vts c) W x -> nn i (fun j k => pval 2 n (cfs [:: j; k]) x) = 0.
Proof.
move=> Hc Hd Sc Hi UW Hle Hop H0 H1 x Hx. rewrite -pval_nn.
have [a [b [Eab Hab]]] : exists a b, opp 2 i = [:: a; b] /\ a != b by case: i Hi {Hop H0 H1} => [|[|[|i]]] // _; do 2 eexists; split; reflexivity.
have Ha : a \in opp 2 i by rewrite Eab mem_head. have Hb : b \in opp 2 i by rewrite Eab !inE eqxx orbT.
have Hai v : v \in opp 2 i = (v != i) && (v <= 2)%N by rewrite mem_filter mem_iota /= add0n ltnS.
have := @edge_det R R0 c n W a b (nn_cf i cfs) Hc UW. rewrite Hd. apply => //; try exact: Hop. move=> w y Hsup Pa Pb Hw Sy Hy.
have La : (a <= sdim_of c)%N by rewrite Hd Hle // Hop. have Lb : (b <= sdim_of c)%N by rewrite Hd Hle // Hop.
have Hw' : (\sum_(v < (sdim_of c).+1) w v = n + 2)%N by rewrite Hd.
have [d [e [V [x' [HV d1 EV Hx' [Sx' Cx']]]]]] := lat_entity R0 Hc La Lb Hab Pa Pb Hw'. rewrite Hd in EV Sx' Cx'.
have Ey : x' = y by apply: (@eq_from_nth _ 0) => [|j]; rewrite Sx' ?Sy // => Hj; rewrite Cx' ?Hy.
rewrite {x' Sx' Cx'}Ey in Hx'. have [UV NV SV HleV] := entity_ok Hc HV.
have PV (L : seq nat) : uniq L -> L =i V -> size L = d.+1 by move=> UL EL; rewrite -SV; apply: perm_size; apply: uniq_perm.
rewrite pval_nn. case: (posnP (w i)) => Hwi.
- have EV' : V =i opp 2 i.
  { move=> v. rewrite EV Hai. case: (v =P i) => [->|Hne] /=; first by rewrite Hwi ltnn andbF.
    case Hv : (v <= 2)%N => //=. have : v \in opp 2 i by rewrite Hai Hv andbT; apply/eqP. rewrite Eab !inE => /orP [] /eqP ->; by rewrite ?Pa ?Pb. }
  have Uop : uniq (opp 2 i) by rewrite filter_uniq ?iota_uniq.
  have Ed : d = 1%N by have := PV _ Uop (fun v => esym (EV' v)); rewrite Eab => -[].
  subst d. have HF : facet_is c e V by rewrite /facet_is -[ModelCell.spatial_dimension c]/(sdim_of c) Hd.
  have HP : perm_eq V (opp (sdim_of c) i) by rewrite Hd; apply: uniq_perm.
  have Hi' : (i <= sdim_of c)%N by rewrite Hd.
  have [nrm [N1 [l N2 N3]]] := normal_shape Hsvd Hqr Hpop (simplex2_solid Hc Hd) HF Hi' HP. rewrite Hd in N3 HP.
  have Pin : in_plane 2 (vts c) W y.
  { have P0 : (0 < n + 2)%N by rewrite addn2. have := @lat_plane R R0 c (n + 2) W w y P0 UW. rewrite Hd. by apply. }
  have := H0 e V nrm y HF HP N1 Hx' Pin. rewrite (bilin_nn _ N3) => /eqP. by rewrite mulf_eq0 mulf_eq0 (negbTE N2) /= => /eqP.
- have iW := Hsup i Hwi.
  have EV' : iota 0 3 =i V.
  { move=> v. rewrite EV mem_iota /= add0n ltnS. case Hv : (v <= 2)%N => //=. case: (v =P i) => [->|Hne] //.
    have : v \in opp 2 i by rewrite Hai Hv andbT; apply/eqP. rewrite Eab !inE => /orP [] /eqP ->; by rewrite ?Pa ?Pb. }
  have Ed : d = 2%N by have := PV _ (iota_uniq _ _) EV' => -[].
  subst d. have Ee : e = 0%N. { move: HV. clear -Hc Hd. case: c Hc Hd => //= _ _; by case: e. }
  subst e. have Q v v' := H1 iW v v' y ^~ Hx'.
  pose M j k := pval 2 n (cfs [:: j; k]) y.
  have Ms : M 1%N 0%N = M 0%N 1%N by apply: eq_bigr => al _; rewrite Sc.
  have MZ := @cell_gen R M Ms Q. rewrite /nn big1 // => j _. rewrite big1 // => k _. by rewrite -/(M j k) MZ ?ltn_ord // mulr0 mul0r.
Qed.
(** the nodes of the element *)
Definition hhj_nodes (c : cell) (n : nat) : seq (ModelFam.node K) :=
  List.flat_map (fun e => List.map (ModelFam.Moment K ModelFam.MNormalNormal 1 e) (Base.range 0 (List.length (ModelFam.make_points K c 1 e (n + 2))))) (Base.range 0 3) ++
  List.flat_map (fun vw => List.map (ModelFam.InnerProduct K (fst vw) (snd vw)) (ModelFam.make_points K c 2 0 (n + 2))) (ModelFam.sym_basis K).
Notation pip c v w x := (ModelFunctional.PointwiseInnerProductEvaluation (geometry_of R c) v w x).
Lemma hhj_shape c n l : SpecFam.simplex c -> sdim_of c = 2%N -> List.In l (hhj_nodes c n) ->
  (exists e V nrm y k, [/\ l = ModelFam.Moment K ModelFam.MNormalNormal 1 e k, facet_is c e V, scaled_normal svd qr pop c e = Ok nrm, List.In y (ModelFam.make_points K c 1 e (n + 2)) &
     hhj_node svd qr pop n c l = Ok (pip c nrm nrm y)]) \/
  (exists v w y, [/\ l = ModelFam.InnerProduct K v w y, List.In (v, w) (ModelFam.sym_basis K), List.In y (ModelFam.make_points K c 2 0 (n + 2)) & hhj_node svd qr pop n c l = Ok (pip c v w y)]).
Proof.
move=> Hc Hd /List.in_app_iff [/List.in_flat_map [e [/Base.in_range [_ He] /List.in_map_iff [k [<- /Base.in_range [_ Hk]]]]]|
  /List.in_flat_map [[v w] [Hvw /List.in_map_iff [y [<- Hy]]]]]; [left|right].
- have So := simplex2_solid Hc Hd. have [V HV] : exists V, facet_is c e V by apply: (@facet_all c 1 So Hd); lia.
  have [i Hi HP] := facet_opp So HV. have [nrm [N1 _]] := normal_shape Hsvd Hqr Hpop So HV Hi HP.
  exists e, V, nrm, (nth [::] (ModelFam.make_points K c 1 e (n + 2)) k), k. split=> //; last by rewrite /hhj_node N1.
  rewrite -[nth _ _ _]Lnth. exact: List.nth_In.
- by exists v, w, y.
Qed.
Lemma hhj_edge_in c n e y : (e < 3)%N -> List.In y (ModelFam.make_points K c 1 e (n + 2)) ->
  exists k, List.In (ModelFam.Moment K ModelFam.MNormalNormal 1 e k) (hhj_nodes c n) /\ nth [::] (ModelFam.make_points K c 1 e (n + 2)) k = y.
Proof.
move=> He Hy. have [k [Hk E]] := List.In_nth _ _ [::] Hy. exists k. split; last by rewrite -[nth _ _ _]Lnth.
apply/List.in_app_iff. left. apply/List.in_flat_map. exists e. split; first by apply/Base.in_range; lia.
apply/List.in_map_iff. exists k. split=> //. apply/Base.in_range; lia.
Qed.
Lemma hhj_cell_in c n v w y : List.In (v, w) (ModelFam.sym_basis K) -> List.In y (ModelFam.make_points K c 2 0 (n + 2)) -> List.In (ModelFam.InnerProduct K v w y) (hhj_nodes c n).
Proof.
move=> Hvw Hy. apply/List.in_app_iff. right. apply/List.in_flat_map. exists (v, w). split=> //. apply/List.in_map_iff. by exists y.
Qed.
End HHJ.
