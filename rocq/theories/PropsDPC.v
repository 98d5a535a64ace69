(** C54: the DPC element on hypercubes. *)
Set Warnings "-notation-overridden,-ambiguous-paths".
From mathcomp Require Import all_ssreflect all_algebra all_field zify.
From Verif Require Base ModelIndex ModelCell SpecCell SpecFam ModelFam ProofsFam ProofsFam5 PropsFam PropsTraceCells.
From Verif Require Import FieldTac SpecJacobi ProofsDmatsReg SpecExpansion ModelDmats ModelAffine SpecAffine PropsAffine PropsExpansion.
From Verif Require Import ModelDual SpecDual ProofsDual SpecPoly ModelSpace ProofsLagLat ProofsSpace ProofsSpaceCell ProofsPolyClo ProofsElem PropsLagrange ModelDPC SpecDPC ProofsDPC ProofsGaussReal.
Set Implicit Arguments. Unset Strict Implicit. Unset Printing Implicit Defensive.
Import Order.TTheory GRing.Theory Num.Theory.
Local Open Scope ring_scope.

(** the hypercubes and the tensor products of them that are hypercubes, in one,
    two and three dimensions *)
Definition hypercubes : seq ModelCell.cell :=
  let I := ModelCell.UFCInterval in let L := ModelCell.DefaultLine in let Q := ModelCell.UFCQuadrilateral in
  let T := ModelCell.TensorProductCell in
  [:: L; I; Q; ModelCell.UFCHexahedron; T [:: I; I]; T [:: L; L]; T [:: I; L]; T [:: I; I; I]; T [:: L; L; L]; T [:: Q; I]; T [:: I; Q]].

Section C54.
Variable F : fieldType.
Hypothesis F0 : char_zero F.
Variable sqrt : F -> F.
Hypothesis Hsq : sqrt_exact sqrt.
Notation K := (mcF F).
Add Field FFpd : (mc_field_theory F).
Let T2 : 1 + 1 != 0 :> F := F0 (m := 2%N) isT.
Let T4 : 1 + (1 + (1 + 1)) != 0 :> F := F0 (m := 4%N) isT.
Let T3 : 1 + (1 + 1) != 0 :> F := F0 (m := 3%N) isT.

Lemma simplexE f s V : node_simplex F f = Some (s, V) -> [/\ hypercube_simplex_map f = Base.Ok s, SpecFam.simplex s, dpc_vertices F f = V, size V = (sdim_of s).+1 & in_dim (sdim_of s) V].
Proof.
have D0 l : (forall x : seq F, x \in l -> size x = sdim_of s) -> in_dim (sdim_of s) l by [].
case: f => //= -[Es EV]; subst s V; split=> //; rewrite /dpc_vertices /average /mkseq /=; rewrite ?big_cons ?big_nil /= ?big_cons ?big_nil.
all: try by move=> x; rewrite !inE => /orP [/eqP ->|/eqP ->].
all: try by move=> x; rewrite !inE => /or3P [/eqP ->|/eqP ->|/eqP ->].
all: try by move=> x; rewrite !inE => /or4P [/eqP ->|/eqP ->|/eqP ->|/eqP ->].
- rewrite /zeroF /oneF /addF /= -[2%:R]/(1 + 1 : F). congr [:: _; _; [:: _; _]]; refine (_ : @eq F _ _); ffield; nz.
- rewrite /zeroF /oneF /addF /= -[2%:R]/(1 + 1 : F) -[4%:R]/(1 + (1 + (1 + 1)) : F) -[3%:R]/(1 + (1 + 1) : F). congr [:: _; _; [:: _; _; _]; [:: _; _; _]]; refine (_ : @eq F _ _); ffield; repeat split; nz.
Qed.
Lemma covers_ok f s V : node_simplex F f = Some (s, V) -> covers (sdim_of s) V.
Proof.
case: f => //= -[Es EV] z; subst s V; case: z => [|a [|b [|d [|]]]] //= _.
- exists [:: (a + 1) / (1 + 1)] => //. rewrite /simplex_point /mkseq /= big_ord1 /=. congr [:: _]. refine (_ : @eq F _ _). ffield. nz.
- exists [:: a] => //. rewrite /simplex_point /mkseq /= big_ord1 /=. congr [:: _]. refine (_ : @eq F _ _). fring.
- exists [:: a - b / (1 + 1); b] => //. rewrite /simplex_point /mkseq /= !big_ord_recl !big_ord0 /= -[2%:R]/(1 + 1 : F). congr [:: _; _]; refine (_ : @eq F _ _); ffield; nz.
- pose y2 := (b - d / (1 + 1)) / ((1 + (1 + 1)) / (1 + 1)). exists [:: a - y2 / (1 + 1) - d / (1 + 1); y2; d] => //.
  rewrite /simplex_point /mkseq /= !big_ord_recl !big_ord0 /= -[2%:R]/(1 + 1 : F) -[3%:R]/(1 + (1 + 1) : F) /y2. congr [:: _; _; _]; refine (_ : @eq F _ _); ffield; repeat split; nz.
Qed.
(** The element of degree n >= 1: one node at each lattice point of order n of
    the node simplex; the basis is the nodal basis of P_n. *)
Theorem C54_dpc : forall c f s V n, ModelCell.flatten_reference_cube c = Base.Ok f -> node_simplex F f = Some (s, V) -> (0 < n)%N ->
  exists el pts U, [/\ DPC F c n = Base.Ok el, ModelFam.el_nodes K el = map (ModelFam.PointEvaluation K) pts,
    perm_eq pts [seq lattice_point V n idx | idx <- exps (sdim_of s) n], dpc sqrt c n = Ok U & nodal_at sqrt s n U pts].
Proof.
move=> c f s V n Hf HV Hn. have [E1 Hs E2 SV DV] := simplexE HV. have d0 : (0 < sdim_of s)%N by case/andP: (proj2 (proj2 (simplex_dim Hs))).
have [A [b [EA Sb Haff]]] := map_to_V F0 Hs SV DV d0.
have [pts0 [el0 [P1 P2 P3 P4]]] := lagrange_pts F0 Hs Hn.
have HN := exps_size n (proj2 (proj2 (simplex_dim Hs))).
have Pp : perm_eq pts0 [seq lat_pt F s n idx | idx <- exps (sdim_of s) n] by apply: (lagrange_perm F0) => //; rewrite HN.
have Sx x : x \in pts0 -> size x = sdim_of s.
{ rewrite (perm_mem Pp) => /mapP [idx]. rewrite exps_mem => /andP [/eqP S _] ->. by rewrite size_map. }
pose pts := [seq affine A b x | x <- pts0].
have [m Em] : exists m, ModelFam.on_members s n 1 = Base.Ok m.
{ move: P1. rewrite /ModelFam.Lagrange. by case: (ModelFam.on_members s n 1) => // m _; exists m. }
have [el [Eel Enodes]] : exists el, DPC F c n = Base.Ok el /\ ModelFam.el_nodes K el = map (ModelFam.PointEvaluation K) pts.
{ rewrite /DPC Hf /= E1 /= Em /= (gtn_eqF Hn) E2 EA /= P2. eexists. split; first reflexivity. by rewrite /= /pts -!map_comp. }
have [||U [H1 H2]] := nodal_element F0 Hsq (n := n) Hs Enodes; first by rewrite size_map P4 HN.
- move=> cf H. apply: (dpc_det F0 Hs Hn (covers_ok HV) Sb Haff P2 Sx) => i Hi. have := H i. rewrite size_map => /(_ Hi). by rewrite (nth_map [::]).
exists el, pts, U. split=> //.
- rewrite /pts. apply: (perm_trans (perm_map _ Pp)). rewrite -map_comp. have -> : [seq lattice_point V n idx | idx <- exps (sdim_of s) n] = [seq (affine A b \o lat_pt F s n) idx | idx <- exps (sdim_of s) n]; last exact: perm_refl.
  apply/eq_in_map => idx. rewrite exps_mem => /andP [/eqP S _] /=. rewrite Haff ?size_map //. rewrite /lattice_point. congr simplex_point. rewrite /rel /lat_pt -map_comp. apply: eq_map => i /=.
  have S0 := scl0 F0 s. have N0 : n%:R != 0 :> F by apply: F0. move: (org F s) (scl F s) (i%:R : F) (n%:R : F) S0 N0 => o t u v S0 N0. ffield. repeat split; nz.
- by rewrite /dpc Hf E1 Eel.
Qed.
(** degree 0: evaluation at the mean of the vertices of the cell *)
Theorem C54_dpc_degree_zero : forall c f s V, ModelCell.flatten_reference_cube c = Base.Ok f -> node_simplex F f = Some (s, V) ->
  exists U, dpc sqrt c 0 = Ok U /\ nodal_at sqrt s 0 U [:: ModelFam.barycenter K c].
Proof.
move=> c f s V Hf HV. have [E1 Hs E2 SV DV] := simplexE HV.
have [m Em] : exists m, ModelFam.on_members s 0 1 = Base.Ok m by case: s Hs {HV E1 E2 SV DV} => // _; eexists; reflexivity.
have [el [Eel Enodes]] : exists el, DPC F c 0 = Base.Ok el /\ ModelFam.el_nodes K el = map (ModelFam.PointEvaluation K) [:: ModelFam.barycenter K c].
{ rewrite /DPC Hf /= E1 /= Em /=. by eexists. }
have Es : exps (sdim_of s) 0 = [:: nseq (sdim_of s) 0%N] by case: s Hs {HV E1 E2 SV DV Em}.
have [||U [H1 H2]] := nodal_element F0 Hsq (n := 0) Hs Enodes; first by rewrite Es.
- move=> cf H a. rewrite Es inE => /eqP ->. have := H 0%N isT. by rewrite /pval Es big_seq1 mono_const mulr1.
exists U. split=> //. by rewrite /dpc Hf E1 Eel.
Qed.
(** All nodes are registered on the cell, for every degree. *)
Theorem C54_dofs : forall c n, List.In c hypercubes -> SpecFam.cell_only c (Base.binom (n + sdim_of c) (sdim_of c)) (DPC F c n).
Proof.
move=> c n Hc. have [f [s [V [Hf HV Ed]]]] : exists f s V, [/\ ModelCell.flatten_reference_cube c = Base.Ok f, node_simplex F f = Some (s, V) & sdim_of s = sdim_of c].
{ by move: Hc => /=; do ! case=> [<-|]; try contradiction; do 3 eexists; split; reflexivity. }
have Ids l : ProofsFam5.cell_ids c (ModelFam.set_last l (ModelFam.all_empty (ModelCell.topology c))) l.
{ move: Hc => /=; do ! case=> [<-|]; try contradiction; rewrite /ProofsFam5.cell_ids; cbn; rewrite ?List.app_nil_r; auto. }
have [E1 Hs E2 SV DV] := simplexE HV.
have Em : ModelFam.on_members s n 1 = Base.Ok (Base.binom (n + sdim_of s) (sdim_of s)).
{ rewrite /ModelFam.on_members ProofsFam.dimension_binom //=. by rewrite PeanoNat.Nat.add_0_r. }
rewrite -Ed. case: (posnP n) => [En|Hn].
- rewrite /DPC Hf /= E1 /= Em /= En /=. apply: ProofsFam5.cell_only_intro => //=.
  + move: Hc => /=; do ! case=> [<-|]; try contradiction; rewrite /ProofsFam5.cell_ids; cbn; auto.
  + by rewrite ProofsIndex.binom_diag.
- have [el [pts [U [H1 H2 H3 _ _]]]] := C54_dpc Hf HV Hn. 
  move: H1. rewrite /DPC Hf /= E1 /= Em /= (gtn_eqF Hn). case: make_affine_mapping => //= Ab [El]. rewrite -El /= in H2 *.
  apply: ProofsFam5.cell_only_intro => //.
  rewrite H2. rewrite -[LHS]/(size _) size_map (perm_size H3) size_map exps_size //. exact: (proj2 (proj2 (simplex_dim Hs))).
Qed.
(** The errors. *)
Theorem C54_refused :
  (forall c n, SpecFam.simplex c -> (2 <= sdim_of c)%N -> DPC F c n = Base.Err Base.TypeError /\ dpc sqrt c n = Err Base.TypeError) /\
  (forall n, (0 < n)%N -> DPC F ModelCell.Point n = Base.Err Base.ValueError) /\
  (forall c n, c = ModelCell.DefaultLine \/ c = ModelCell.UFCInterval -> DPC F (ModelCell.TensorProductCell [:: c]) n = Base.Err Base.KeyError).
Proof.
split; [|split].
- by move=> c n; case: c => // _ _.
- by case.
- by move=> c n [->|->].
Qed.
End C54.

Section Alg.
Variable F : fieldType.
Hypothesis T2 : 2%:R != 0 :> F.
Add Field FFpa : (mc_field_theory F).
Let T2' : 1 + 1 != 0 :> F := T2.
Lemma hull1 (t : F) : -1 + (t * (1 - -1) + 0) = (1 - t) * -1 + (t * 1 + 0). Proof. fring. Qed.
Lemma hull2 (t : F) : 0 + (t * (1 - 0) + 0) = (1 - t) * 0 + (t * 1 + 0). Proof. fring. Qed.
Lemma hull3 (t u : F) : 1 - (t + u) + (u * 2%:R^-1 + (t + (u * 2%:R^-1 + 0))) = 1. Proof. rewrite -[2%:R]/(1 + 1 : F). ffield. nz. Qed.
Lemma hull4 (t u : F) : 0 + (t * (1 - 0) + (u * (1 / 2%:R - 0) + 0)) = (1 - (t + u)) * 0 + (u * 2%:R^-1 * 0 + (t * 1 + (u * 2%:R^-1 * 1 + 0))). Proof. rewrite -[2%:R]/(1 + 1 : F). ffield. nz. Qed.
Lemma hull5 (t u : F) : 0 + (t * (0 - 0) + (u * (1 - 0) + 0)) = (1 - (t + u)) * 0 + (u * 2%:R^-1 * 1 + (t * 0 + (u * 2%:R^-1 * 1 + 0))). Proof. rewrite -[2%:R]/(1 + 1 : F). ffield. nz. Qed.
End Alg.

Section Place.
Variable R : rcfType.
Notation K := (mcF R).
Let R0 : char_zero R := num_char0 R.
Add Field FFpp : (mc_field_theory R).
Lemma In_mem (x : seq R) (l : seq (seq R)) : List.In x l -> x \in l.
Proof. elim: l => [|y l IH] //= [->|/IH]; rewrite inE ?eqxx // => ->. by rewrite orbT. Qed.
Lemma dpc_nodes c f s V n el x : ModelCell.flatten_reference_cube c = Base.Ok f -> node_simplex R f = Some (s, V) -> (0 < n)%N ->
  DPC R c n = Base.Ok el -> List.In (ModelFam.PointEvaluation K x) (ModelFam.el_nodes K el) <-> exists2 idx, (size idx = sdim_of s /\ (sumn idx <= n)%N) & x = lattice_point V n idx.
Proof.
move=> Hf HV Hn He. have [_ Hsq] := C23_sqrt_witness_rcf R. have [el' [pts [U [E1 E2 E3 _ _]]]] := C54_dpc R0 Hsq Hf HV Hn.
move: E1. rewrite He => -[E1]. rewrite -E1 in E2. rewrite E2. split.
- move=> /List.in_map_iff [y [[->] /In_mem]]. rewrite (perm_mem E3) => /mapP [idx]. rewrite exps_mem => /andP [/eqP H1 H2] ->. by exists idx.
- move=> [idx [H1 H2] ->]. apply: List.in_map. have : lattice_point V n idx \in pts by rewrite (perm_mem E3); apply: map_f; rewrite exps_mem H1 eqxx.
  elim: (pts) => [|z l IH] //=. rewrite inE => /orP [/eqP ->|/IH]; by [left|right].
Qed.
Lemma frac01 i n : (i <= n)%N -> (0 < n)%N -> 0 <= i%:R / n%:R :> R /\ 0 <= 1 - i%:R / n%:R :> R.
Proof. move=> H Hn. split; first by rewrite divr_ge0 ?ler0n. by rewrite subr_ge0 ler_pdivr_mulr ?ltr0n // mul1r ler_nat. Qed.
(** On intervals and quadrilaterals every node is in the cell. *)
Theorem C54_nodes_inside : forall c f n el, List.In f [:: ModelCell.DefaultLine; ModelCell.UFCInterval; ModelCell.UFCQuadrilateral] ->
  ModelCell.flatten_reference_cube c = Base.Ok f -> (0 < n)%N -> DPC R c n = Base.Ok el ->
  forall x, List.In (ModelFam.PointEvaluation K x) (ModelFam.el_nodes K el) -> in_hull (ModelCell.vertices K f : seq (seq R)) x.
Proof.
have T2 : 1 + 1 != 0 :> R := R0 (m := 2%N) isT.
have h0 : 0 <= 2%:R^-1 :> R by rewrite invr_ge0 ler0n.
move=> c f n el Hin Hf Hn He x. have [s [V HV]] : exists s V, node_simplex R f = Some (s, V) by move: Hin => /=; do ! case=> [<-|]; try contradiction; do 2 eexists.
move/(dpc_nodes x Hf HV Hn He) => [idx [S1 S2] ->]. have Nn : n%:R != 0 :> R by rewrite R0.
move: Hin HV S1 {He Hf} => /=; do ! case=> [<-|] //; move=> [<- <-] /=.
- case: idx S2 => [|i []] //=. rewrite addn0 => Hi _. have [P0 P1] := frac01 Hi Hn. exists [:: 1 - i%:R / n%:R; i%:R / n%:R]. split=> //.
  + by move=> t; rewrite !inE => /orP [] /eqP ->.
  + by rewrite !big_cons big_nil addr0 subrK.
  + case=> [|j] //= _. rewrite ?big_ord_recl ?big_ord0 /= ?big_ord_recl ?big_ord0 /=. exact: hull1.
- case: idx S2 => [|i []] //=. rewrite addn0 => Hi _. have [P0 P1] := frac01 Hi Hn. exists [:: 1 - i%:R / n%:R; i%:R / n%:R]. split=> //.
  + by move=> t; rewrite !inE => /orP [] /eqP ->.
  + by rewrite !big_cons big_nil addr0 subrK.
  + case=> [|j] //= _. rewrite ?big_ord_recl ?big_ord0 /= ?big_ord_recl ?big_ord0 /=. exact: hull2.
- case: idx S2 => [|i [|k []]] //=. rewrite addn0 => Hi _. have [P0 P1] := frac01 Hi Hn. have [Pi _] := frac01 (leq_trans (leq_addr _ _) Hi) Hn. have [Pk _] := frac01 (leq_trans (leq_addl _ _) Hi) Hn.
  exists [:: 1 - (i + k)%:R / n%:R; k%:R / n%:R * 2%:R^-1; i%:R / n%:R; k%:R / n%:R * 2%:R^-1]. split=> //.
  + move=> t. rewrite !inE => /or4P [] /eqP -> //; exact: mulr_ge0.
  + rewrite !big_cons big_nil natrD mulrDl. exact: hull3.
  + rewrite natrD mulrDl. case=> [|[|j]] //= _; rewrite ?big_ord_recl ?big_ord0 /= ?big_ord_recl ?big_ord0 /=; [exact: hull4|exact: hull5].
Qed.
(** On the hexahedron there is, for every degree, a node outside the cell. *)
Theorem C54_hexahedron_nodes_inside_refuted : forall c n el, ModelCell.flatten_reference_cube c = Base.Ok ModelCell.UFCHexahedron -> (0 < n)%N -> DPC R c n = Base.Ok el ->
  let x := [:: 2%:R^-1; 3%:R / 2%:R; 0] : seq R in
  List.In (ModelFam.PointEvaluation K x) (ModelFam.el_nodes K el) /\ ~ in_hull (ModelCell.vertices K ModelCell.UFCHexahedron : seq (seq R)) x.
Proof.
move=> c n el Hf Hn He x. have Nn : n%:R != 0 :> R by rewrite R0. split.
- apply/(dpc_nodes (f := ModelCell.UFCHexahedron) x Hf erefl Hn He). exists [:: 0%N; n; 0%N]; first by split=> //=; lia.
  rewrite /lattice_point /simplex_point /mkseq /= !big_ord_recl !big_ord0 /= divff // mul0r !mul0r !mul1r !addr0 !add0r !subr0 ?mul1r ?oppr0. by [].
- move=> [w [Sw Pw S1 H]]. have := H 1%N isT. set P := ModelCell.vertices K ModelCell.UFCHexahedron : seq (seq R).
  have L : \sum_(i < size P) nth 0 w i * nth 0 (nth [::] P i) 1 <= \sum_(i < size P) nth 0 w i.
  { apply: ler_sum => i _. apply: ler_pimulr; first by apply/Pw/mem_nth; exact: (leq_trans (ltn_ord i) (eq_leq (esym Sw))).
    case: i => i /=. do 8 (case: i => [|i]; first by rewrite /= /zeroF /oneF ?lexx ?ler01). by []. }
  have Hsum N : size w = N -> \sum_(i < N) nth 0 w i = 1 by move=> <-; rewrite -S1 (big_nth 0) big_mkord.
  have E1 : \sum_(i < size P) nth 0 w i = 1 by exact: (Hsum _ Sw).
  rewrite E1 in L. move=> E. rewrite -E in L. move: L. rewrite /x /= ler_pdivr_mulr ?ltr0n // mul1r ler_nat. by [].
Qed.
End Place.

(** Instance: degree 2 on the product of two intervals. *)
Example C54_example : exists sqrt el U, [/\ @sqrt_exact Algebraics.Implementation.fieldType sqrt,
  DPC Algebraics.Implementation.fieldType (ModelCell.TensorProductCell [:: ModelCell.UFCInterval; ModelCell.UFCInterval]) 2 = Base.Ok el,
  dpc sqrt (ModelCell.TensorProductCell [:: ModelCell.UFCInterval; ModelCell.UFCInterval]) 2 = Ok U, num_members U = 6%N &
  List.In (ModelFam.PointEvaluation (mcF Algebraics.Implementation.fieldType) [:: 2%:R^-1; 1]) (ModelFam.el_nodes _ el)].
Proof.
have [C0 Hsq] := C23_sqrt_witness_algC.
have [el [pts [U [E1 E2 E3 E4 [[E5 _] _ _ _ _]]]]] := @C54_dpc _ C0 _ Hsq (ModelCell.TensorProductCell [:: ModelCell.UFCInterval; ModelCell.UFCInterval]) _ _ _ 2 erefl erefl isT.
exists sqrtC, el, U. split=> //.
- by rewrite E5 (perm_size E3) size_map exps_size.
- rewrite E2. apply: List.in_map. 
  have : [:: 2%:R^-1; 1] \in pts.
  { rewrite (perm_mem E3). apply/mapP. exists [:: 0%N; 2%N]; first by rewrite exps_mem.
    rewrite /lattice_point /simplex_point /mkseq /= !big_ord_recl !big_ord0 /= divff ?C0 // mul0r !mul0r !mul1r !addr0 !add0r !subr0 ?mul1r. by []. }
  elim: (pts) => [|z l IH] //=. rewrite inE => /orP [/eqP ->|/IH]; by [left|right].
Qed.
