(** C52: the Morley and Argyris elements on triangles, from the constructor call to
    the basis functions, and the C1 conformity of the Argyris elements. *)
Set Warnings "-notation-overridden,-ambiguous-paths".
From mathcomp Require Import all_ssreflect all_algebra zify.
From Verif Require Base ModelIndex ModelCell SpecCell SpecFam ModelFam PropsFam ModelFunctional ProofsC1Nodes.
From Verif Require Import FieldTac SpecJacobi ProofsJacobi ProofsDmatsReg PropsSimplexTopo PropsExpansion ModelDual SpecDual SpecPoly ModelSpace SpecRT SpecJet.
From Verif Require Import ModelExpansion ModelDmats ModelAffine ProofsLagLat ProofsSpace ProofsSpaceCell ProofsPolyClo ProofsElem PropsConform ProofsRestr ProofsJet
  ModelNormal SpecNormal PropsNormalCells PropsRefNormal ProofsGaussReal ProofsRTNodes ModelC1 SpecC1 ProofsC1Uni ProofsC1Edge ProofsC1.
Set Implicit Arguments. Unset Strict Implicit. Unset Printing Implicit Defensive.
Import Order.TTheory GRing.Theory Num.Theory.
Local Open Scope ring_scope.

Section C52.
Variable R : rcfType.
Notation K := (mcF R).
Notation arr := (seq (seq R)).
Notation V c v := (nth [::] (ModelCell.vertices K c : seq (seq R)) v).
Notation vts c := (ModelCell.vertices K c : seq (seq R)).
Let R0 : char_zero R := num_char0 R.
Add Field FFc1q : (mc_field_theory R).
Variable sqrt : R -> R.
Hypothesis Hsq : sqrt_exact sqrt.
Variables (svd : arr -> arr * seq R * arr) (qr : arr -> arr * arr) (pop : seq nat -> nat).
Hypotheses (Hsvd : svd_correct svd) (Hqr : qr_correct qr) (Hpop : pop_correct pop).

(** quadratics *)
Lemma mid_der cf (x z : seq R) : size x = 2%N -> size z = 2%N -> pval 2 2 cf x = 0 -> pval 2 2 cf z = 0 ->
  nth 0 (ed x z) 0 * pder 2 2 cf [:: 1%N; 0%N] (along 2 x (ed x z) (fr R 2 1)) + nth 0 (ed x z) 1 * pder 2 2 cf [:: 0%N; 1%N] (along 2 x (ed x z) (fr R 2 1)) = 0.
Proof.
move=> Sx Sz Hx Hz. have T2 : 2%:R != 0 :> R by exact: R0.
have <- : (P0 2 cf x z)^`().[fr R 2 1] = nth 0 (ed x z) 0 * pder 2 2 cf [:: 1%N; 0%N] (along 2 x (ed x z) (fr R 2 1)) + nth 0 (ed x z) 1 * pder 2 2 cf [:: 0%N; 1%N] (along 2 x (ed x z) (fr R 2 1)).
{ by rewrite der2 hornerD !hornerZ !ev. }
have S3 : (size (P0 2 cf x z) <= 3)%N by apply: (leq_trans (lpoly_size _ _ _ _ _ _)); rewrite !big_ord_recl big_ord0.
have S2 : (size (P0 2 cf x z)^`() <= 2)%N.
{ case: (eqVneq (P0 2 cf x z) 0) => [->|Z]; first by rewrite derivC size_poly0. have := lt_size_deriv Z. move: S3. clear. lia. }
have E0 : (P0 2 cf x z).[0] = 0 by rewrite P0ev on0. have E1 : (P0 2 cf x z).[1] = 0 by rewrite P0ev on1.
move: E0 E1. rewrite !(horner_coef_wide _ S3) (horner_coef_wide _ S2) !big_ord_recl !big_ord0 /= !coef_deriv /bump /=.
move: (P0 2 cf x z)`_0 (P0 2 cf x z)`_1 (P0 2 cf x z)`_2 => p0 p1 p2. rewrite !expr0 !expr1n !expr1 !expr0n /= !(mulr0, mulr1, addr0) => -> .
rewrite !add0r => H. rewrite /fr -[RHS]H div1r. congr (_ + _). by rewrite -[_ *+ _]/(p2 *+ 2) -mulr_natr mulfK.
Qed.
Lemma morley_det c (nu : nat -> seq R) nds cf : ModelFam.is_triangle c = true -> unit_normals c nu -> morley_spec c nu nds ->
  (forall N, N \in nds -> dval N (pval 2 2 cf) (pder 2 2 cf) = 0) -> {in exps 2 2, forall a, cf a = 0}.
Proof.
move=> Hc Hnu [_ S1 S2] H. have [Hs Hx Hd _] := tri_ok Hc. have s0 := scl0 R0 c.
have Hv v : (v <= 2)%N -> pval 2 2 cf (V c v) = 0 by move=> Hv; have := H _ (S1 v Hv); rewrite dval_at'.
(* the gradient at the midpoints *)
have G e a b : facet_is c e [:: a; b] -> grad0 2 cf (on_edge R c a b 1 2).
{ move=> Hf. have [a' [b' [[Ea Eb] Hab Ha Hb He]]] := edge_pair Hc Hf. subst a' b'. have [H1 H2] := Hnu e _ Hf. have Hdet := edge_det Hc Hf H1 H2.
  rewrite on_edgeE. apply: (solve2 Hdet); first by apply: mid_der; rewrite ?size_V ?Hv.
  have := H _ (S2 e a b Hf). by rewrite dval_along on_edgeE. }
have G' i : (i <= 2)%N -> exists a b, perm_eq [:: a; b] (opp 2 i) /\ grad0 2 cf (on_edge R c a b 1 2).
{ move=> Hi. have Hi' : (i <= sdim_of c)%N by rewrite Hd. have [e [W [He HW HP]]] := solid_opp Hs Hi'. rewrite Hd in HP.
  have [a [b [EW _ _ _ _]]] := edge_pair Hc HW. subst W. exists a, b. split=> //. exact: (G e). }
have T2 : 2%:R != 0 :> R by exact: R0.
set o := org R c in s0 *. set s := scl R c in s0 *. pose h := s / 2%:R. have h0 : h != 0 by rewrite mulf_neq0 ?invr_eq0.
have M a b : perm_eq [:: a; b] (opp 2 a) -> True by [].
have Mid a b i : (i <= 2)%N -> perm_eq [:: a; b] (opp 2 i) -> on_edge R c a b 1 2 = [:: o + h * (i != 1%N)%:R; o + h * (i != 2%N)%:R].
{ move=> Hi HP. have Hab : (a <= 2)%N /\ (b <= 2)%N /\ (a + b + i = 3)%N.
  { have Hm v : v \in [:: a; b] -> (v <= 2)%N by rewrite (perm_mem HP) mem_filter mem_iota => /andP [_]; lia.
    have Hsm : (a + b = sumn (opp 2 i))%N by have := perm_sumn HP; rewrite /= addn0. split; [|split]; [by apply: Hm; rewrite !inE eqxx|by apply: Hm; rewrite !inE eqxx orbT|].
    rewrite Hsm. by clear -Hi; case: i Hi => [|[|[|i]]]. }
  have Hne : a != b by have := perm_uniq HP; rewrite /= inE andbT => ->; rewrite filter_uniq ?iota_uniq.
  case: Hab => Ha [Hb Hsum]. apply: (@eq_from_nth _ 0) => [|j]; rewrite size_mkseq // => Hj. rewrite nth_mkseq // !V_coord // -/o -/s /h.
  have T2' : 1 + 1 != 0 :> R by exact: T2. rewrite -[2%:R]/(1 + 1 : R).
  by case: j Hj => [|[|j]] // _; clear -Hi Ha Hb Hsum Hne T2'; (case: i Hi Hsum => [|[|[|i]]] // _; case: a Ha Hne => [|[|[|a]]] // _; case: b Hb => [|[|[|b]]] // _ _ _; rewrite ?eqxx /= ?(mulr0, mulr1, addr0); ffield; nz). }
have {G'} G2 i : (i <= 2)%N -> grad0 2 cf [:: o + h * (i != 1%N)%:R; o + h * (i != 2%N)%:R].
{ move=> Hi. have [a [b [HP Gab]]] := G' i Hi. by rewrite -(Mid a b i). }
have D1 y0 y1 : pder 2 2 cf [:: 1%N; 0%N] [:: y0; y1] = cf [:: 1%N; 0%N] + (cf [:: 2%N; 0%N] * 2%:R) * y0 + cf [:: 1%N; 1%N] * y1.
{ rewrite /pder /dmono /=. rewrite !big_cons big_nil !big_ord_recl !big_ord0 /= !ffactn0 !subn0 /=. rewrite ?expr0 ?expr1. rewrite !(mulr0, mul0r, mulr1, mul1r, addr0, add0r). fring. }
have D2 y0 y1 : pder 2 2 cf [:: 0%N; 1%N] [:: y0; y1] = cf [:: 0%N; 1%N] + cf [:: 1%N; 1%N] * y0 + (cf [:: 0%N; 2%N] * 2%:R) * y1.
{ rewrite /pder /dmono /=. rewrite !big_cons big_nil !big_ord_recl !big_ord0 /= !ffactn0 !subn0 /=. rewrite ?expr0 ?expr1. rewrite !(mulr0, mul0r, mulr1, mul1r, addr0, add0r). fring. }
have Lin A B C : A + B * (o + h * 1) + C * (o + h * 1) = 0 -> A + B * (o + h * 0) + C * (o + h * 1) = 0 -> A + B * (o + h * 1) + C * (o + h * 0) = 0 -> [/\ A = 0, B = 0 & C = 0].
{ move=> L0 L1 L2. have HB : B * h = 0 by rewrite -[RHS](subrr 0) -{1}L0 -L1; fring. have HC : C * h = 0 by rewrite -[RHS](subrr 0) -{1}L0 -L2; fring.
  have B0 : B = 0 by move/eqP: HB; rewrite mulf_eq0 (negbTE h0) orbF => /eqP. have C0 : C = 0 by move/eqP: HC; rewrite mulf_eq0 (negbTE h0) orbF => /eqP.
  split=> //. move: L0. by rewrite B0 C0 !mul0r !addr0. }
have [g01 g02] := G2 0%N isT. have [g11 g12] := G2 1%N isT. have [g21 g22] := G2 2%N isT.
rewrite /= !D1 in g01 g11 g21. rewrite /= !D2 in g02 g12 g22.
have [A1 B1 C1] := Lin _ _ _ g01 g11 g21. have [A2 _ C2] := Lin _ _ _ g02 g12 g22.
have {}B1 : cf [:: 2%N; 0%N] = 0 by move/eqP: B1; rewrite mulf_eq0 (negbTE T2) orbF => /eqP.
have {}C2 : cf [:: 0%N; 2%N] = 0 by move/eqP: C2; rewrite mulf_eq0 (negbTE T2) orbF => /eqP.
have C00 : cf [:: 0%N; 0%N] = 0.
{ have := Hv 0%N isT. rewrite /pval /= !big_cons big_nil A1 A2 B1 C1 C2 !mul0r !addr0 ?add0r /mono /= !big_ord_recl big_ord0 /= !expr0 !mulr1. by []. }
move=> a Ha. have : a \in [:: [:: 0; 0]; [:: 1; 0]; [:: 0; 1]; [:: 2; 0]; [:: 1; 1]; [:: 0; 2]]%N.
{ move: Ha. rewrite exps_mem => /andP [/eqP Sa Hsa]. case: a Sa Hsa => [|a [|b []]] //= _. rewrite addn0. by case: a => [|[|[|a]]]; case: b => [|[|[|b]]]. }
by rewrite !inE => /or4P [/eqP ->|/eqP ->|/eqP ->|/or3P [] /eqP ->].
Qed.
(** the node lists *)
Lemma argyris_spec_ok c q : ModelFam.is_triangle c = true -> (5 <= q)%N -> argyris_spec c q (nrm svd qr pop c) (map (cnode svd qr pop c) (ProofsC1Nodes.argyris_list (K := K) c q)).
Proof.
move=> Hc Hq. have [Hs Hx Hd _] := tri_ok Hc.
have In0 v l : (v <= 2)%N -> List.In l (ModelFam.jet2 K c v) -> List.In l (ProofsC1Nodes.argyris_list (K := K) c q).
{ move=> Hv Hl. apply/List.in_app_iff; left. apply/List.in_flat_map. exists v. split=> //. by case: v Hv {Hl} => [|[|[|v]]] //= _; tauto. }
have In1 e l : (e < 3)%N -> List.In l (ProofsC1Nodes.edge_nodes (K := K) c q e) -> List.In l (ProofsC1Nodes.argyris_list (K := K) c q).
{ move=> He Hl. apply/List.in_app_iff; right. apply/List.in_app_iff; left. apply/List.in_flat_map. exists e. split=> //. by case: e He {Hl} => [|[|[|e]]] //= _; tauto. }
split.
- have [_ _ ] := conj I I. have [H1 _] := PropsFam.C34_morley_argyris_bell K (char0K R0) c Hx. have [_ [_ [_ H2]]] := H1 Hc.
  have [el [E1 [_ [_ [_ E2]]]]] := H2 q (ssrnat.leP Hq). have [el' [E3 E4]] := ProofsC1Nodes.argyris_nodes (K := K) c q Hc. rewrite E1 in E3. case: E3 => E3. rewrite -E3 in E4.
  rewrite size_map -E4. exact: E2.
- have Hsd : ModelCell.spatial_dimension c = 2%N by exact: Hd.
  move=> v Hv. have J l : List.In l (ModelFam.jet2 K c v) -> cnode svd qr pop c l \in map (cnode svd qr pop c) (ProofsC1Nodes.argyris_list (K := K) c q) by move=> Hl; apply: In_map; exact: (In0 v).
  have Vv : ModelFam.vertex K c v = V c v by rewrite /ModelFam.vertex Lnth.
  have T : ModelFam.jet2 K c v = [:: ModelFam.PointEvaluation K (V c v); ModelFam.PointDerivative K (V c v) [:: 1; 0]%N; ModelFam.PointDerivative K (V c v) [:: 0; 1]%N;
     ModelFam.PointDerivative K (V c v) [:: 2; 0]%N; ModelFam.PointDerivative K (V c v) [:: 1; 1]%N; ModelFam.PointDerivative K (V c v) [:: 0; 2]%N].
  { by rewrite /ModelFam.jet2 /ModelFam.jet1 Hsd Vv. }
  split; first by apply: (J (ModelFam.PointEvaluation K (V c v))); rewrite T; left.
  move=> al Hal. apply: (J (ModelFam.PointDerivative K (V c v) al)). rewrite T. move: Hal. rewrite !inE => /or4P [/eqP ->|/eqP ->|/eqP ->|/orP [] /eqP ->] /=; tauto.
- move=> e a b k Hf Hk. have [_ [_ [_ _ _ _ He]]] := edge_pair Hc Hf.
  have := In1 e (ModelFam.PointNormalDerivative K e (on_edge R c a b k (q - 3) : seq R)) He. move/(_ _)/(In_map (cnode svd qr pop c)). apply.
  apply/List.in_app_iff; left. apply/List.in_map_iff. eexists. split; first reflexivity. have -> : (q - 3)%coq_nat = (q - 3)%N by lia. exact: edge_in.
- move=> e a b k Hf Hk. have [_ [_ [_ _ _ _ He]]] := edge_pair Hc Hf.
  have := In1 e (ModelFam.PointEvaluation K (on_edge R c a b k (q - 4) : seq R)) He. move/(_ _)/(In_map (cnode svd qr pop c)). apply.
  apply/List.in_app_iff; right. have -> : PeanoNat.Nat.ltb 5 q = true by apply/PeanoNat.Nat.ltb_lt; lia.
  apply/List.in_map_iff. eexists. split; first reflexivity. have -> : (q - 4)%coq_nat = (q - 4)%N by lia. exact: edge_in.
- move=> i j k Hi Hj Hk Hm. apply: (In_map (cnode svd qr pop c) (x := ModelFam.PointEvaluation K (inside R c i j k (q - 3) : seq R))).
  apply/List.in_app_iff; right. apply/List.in_app_iff; right. case: (PeanoNat.Nat.ltb_spec 5 q) => H5; last first.
  { exfalso. lia. }
  apply/List.in_map_iff. eexists. split; first reflexivity. have -> : (q - 3)%coq_nat = (q - 3)%N by lia. exact: inside_in.
Qed.
Lemma argyris_list_ok c q l : ModelFam.is_triangle c = true -> List.In l (ProofsC1Nodes.argyris_list (K := K) c q) -> cnode_ok l.
Proof.
move=> Hc. have [Hs Hx Hd _] := tri_ok Hc. have Hsd : ModelCell.spatial_dimension c = 2%N by exact: Hd.
move/List.in_app_iff => [/List.in_flat_map [v [_ Hl]]|/List.in_app_iff [/List.in_flat_map [e [He Hl]]|Hl]].
- move: Hl. rewrite /ModelFam.jet2 /ModelFam.jet1 Hsd /=. by repeat (move=> [<-|]; first by []).
- have {}He : (e < 3)%N by case: He => [<-|[<-|[<-|[]]]]. move: Hl => /List.in_app_iff [/List.in_map_iff [x [<- _]]|] //.
  case: (PeanoNat.Nat.ltb _ _) => // /List.in_map_iff [x [<- _]] //.
- move: Hl. case: (PeanoNat.Nat.ltb _ _) => // /List.in_map_iff [x [<- _]] //.
Qed.
Lemma morley_spec_ok c L : ModelFam.is_triangle c = true ->
  L = ([seq ModelFam.PointEvaluation K (ModelFam.vertex K c v) | v <- [:: 0; 1; 2]%N] ++ List.flat_map (ProofsC1Nodes.mid_nodes (K := K) c) [:: 0; 1; 2]%N)%SEQ ->
  morley_spec c (nrm svd qr pop c) (map (cnode svd qr pop c) L) /\ forall l, List.In l L -> cnode_ok l.
Proof.
move=> Hc ->. have Hm e : (e < 3)%N -> exists x, ModelFam.make_points K c 1 e 2 = [:: x] by clear -Hc; case: c Hc => // _; case: e => [|[|[|e]]] // _; eexists; reflexivity.
have [x0 E0] := Hm 0%N isT. have [x1 E1] := Hm 1%N isT. have [x2 E2] := Hm 2%N isT.
rewrite /= /ProofsC1Nodes.mid_nodes E0 E1 E2 /=. split; last by move=> l; repeat (move=> [<-|]; first by []).
split=> //.
- move=> v Hv. have -> : V c v = ModelFam.vertex K c v by rewrite /ModelFam.vertex Lnth. case: v Hv => [|[|[|v]]] // _; by rewrite !inE eqxx ?orbT.
- move=> e a b Hf. have [_ [_ [_ _ _ _ He]]] := edge_pair Hc Hf. have := edge_in R Hc Hf (k := 1) (m := 2) isT.
  case: e He {Hf} => [|[|[|e]]] // _; rewrite ?E0 ?E1 ?E2 => -[<-|[]]; by rewrite !inE eqxx ?orbT.
Qed.
Lemma c1_elem c n L (el : ModelFam.element K) (r : Base.result (ModelFam.element K)) : ModelFam.is_triangle c = true -> r = Base.Ok el -> ModelFam.el_nodes K el = L -> (forall l, List.In l L -> cnode_ok l) ->
  size L = size (exps 2 n) -> (forall cf, (forall N, N \in map (cnode svd qr pop c) L -> dval N (pval 2 n cf) (pder 2 n cf) = 0) -> {in exps 2 n, forall a, cf a = 0}) ->
  exists U, c1_element sqrt svd qr pop c n r = Ok U /\ jet_nodal sqrt c n U (map (cnode svd qr pop c) L).
Proof.
move=> Hc -> EL Hok HS Hdet. have [Hs Hx Hd _] := tri_ok Hc. have [fs [F1 F2 F3]] := c1_nodes Hsvd Hqr Hpop Hc Hok.
have HN := exps_size n (isT : (1 <= 2 <= 3)%N).
rewrite /c1_element (on_set_ok R0 Hsq n Hx) /= EL F1 /=. rewrite -Hd in HN F3 Hdet HS.
have [||||U [H1 H2]] := jet_element R0 Hsq (c := c) (n := n) (nodes := fs) (nds := map (cnode svd qr pop c) L) Hx.
- by rewrite F2.
- by rewrite size_map F2.
- move=> i Hi. apply: F3. by rewrite -F2.
- move=> cf H. apply: Hdet => N HNin. rewrite -(nth_index [::] HNin). apply: H. by rewrite index_mem.
exists U. split=> //. rewrite -HS -F2. exact: H1.
Qed.

(** The Morley element can be built on every triangle: its basis functions are the
    quadratics dual to the values at the vertices and the normal derivatives at the
    edge midpoints. *)
Theorem C52_morley : forall c, ModelFam.is_triangle c = true ->
  exists U nu nds, [/\ morley sqrt svd qr pop c = Ok U, forall e, (e < 3)%N -> cell_normal svd qr pop c e = Ok (nu e), unit_normals c nu,
    morley_spec c nu nds & jet_nodal sqrt c 2 U nds].
Proof.
move=> c Hc. have [el [E1 E2]] := ProofsC1Nodes.morley_nodes (K := K) c Hc. have [S1 S2] := morley_spec_ok Hc E2.
have [||U [H1 H2]] := c1_elem (n := 2) Hc E1 (erefl _) S2.
- case: S1 => S _ _. by rewrite size_map in S.
- move=> cf. exact: (morley_det Hc (unit_nrm Hsvd Hqr Hpop Hc) S1).
exists U, (nrm svd qr pop c), (map (cnode svd qr pop c) (ModelFam.el_nodes K el)). split=> //; last exact: unit_nrm.
move=> e He. have [W HW] : exists W, facet_is c e W by clear -Hc He; case: c Hc => // _; case: e He => [|[|[|e]]] // _; eexists; reflexivity.
by have [H _ _] := nrm_ok Hsvd Hqr Hpop Hc HW.
Qed.
(** The Argyris element of every degree from 5 on can be built on every triangle;
    its basis functions are dual to the listed nodes.  Node number [i] of the dual
    set is the [i]-th one listed. *)
Theorem C52_argyris : forall c q, ModelFam.is_triangle c = true -> (5 <= q)%N ->
  exists U el nu nds, [/\ argyris sqrt svd qr pop c q = Ok U, forall e, (e < 3)%N -> cell_normal svd qr pop c e = Ok (nu e), unit_normals c nu,
    ModelFam.Argyris K c q = Base.Ok el /\ nds = map (node_terms nu) (ModelFam.el_nodes K el) & argyris_spec c q nu nds /\ jet_nodal sqrt c q U nds].
Proof.
move=> c q Hc Hq. have [el [E1 E2]] := ProofsC1Nodes.argyris_nodes (K := K) c q Hc. have S1 := argyris_spec_ok Hc Hq.
have Hnu := unit_nrm Hsvd Hqr Hpop Hc.
have [|||U [H1 H2]] := c1_elem (n := q) Hc E1 E2.
- by move=> l; exact: argyris_list_ok.
- case: S1 => S _ _ _ _. rewrite size_map in S. by rewrite S (exps_size q (isT : (1 <= 2 <= 3)%N)).
- move=> cf H. apply: (grid_zero (g := fun i => i%:R) (isT : (1 <= 2 <= 3)%N)); first exact: (natr_inj R0).
  move=> idx Hs _. apply: (argyris_det Hc Hq Hnu S1 H). by rewrite size_map.
exists U, el, (nrm svd qr pop c), (map (cnode svd qr pop c) (ProofsC1Nodes.argyris_list (K := K) c q)). rewrite E2. split=> //.
move=> e He. have [W HW] : exists W, facet_is c e W by clear -Hc He; case: c Hc => // _; case: e He => [|[|[|e]]] // _; eexists; reflexivity.
by have [H _ _] := nrm_ok Hsvd Hqr Hpop Hc HW.
Qed.
(** The quintic class builds the same basis as the general one at degree 5. *)
Theorem C52_quintic_argyris : forall c, ModelFam.is_triangle c = true -> quintic_argyris sqrt svd qr pop c = argyris sqrt svd qr pop c 5.
Proof.
move=> c Hc. have [el [E1 E2]] := ProofsC1Nodes.argyris_nodes (K := K) c 5 Hc. have [el' [E3 E4]] := ProofsC1Nodes.quintic_argyris5 (K := K) c Hc.
by rewrite /quintic_argyris /argyris E1 E3 /c1_element E2 E4.
Qed.
(** C1 conformity: a basis function registered on an entity that is not part of (the
    closure of) an edge vanishes on that edge with its gradient. *)
Theorem C52_argyris_c1 : forall c q, ModelFam.is_triangle c = true -> (5 <= q)%N ->
  exists U el, [/\ ModelFam.Argyris K c q = Base.Ok el, argyris sqrt svd qr pop c q = Ok U &
    forall e W d' e' W', facet_is c e W -> ModelCell.lookup (ModelCell.topology c) (ModelCell.DI d') e' = Some W' -> ~ {subset W' <= W} ->
    forall j, List.In j (SpecCell.dofs_on (ModelFam.el_ids K el) (ModelCell.DI d', e')) ->
    forall x, in_plane 2 (vts c) W x -> [/\ bval sqrt c q U j x = 0, bder sqrt c q U j [:: 1; 0]%N x = 0 & bder sqrt c q U j [:: 0; 1]%N x = 0]].
Proof.
move=> c q Hc Hq. have [Hs Hsx Hd _] := tri_ok Hc. have [U [el [nu [nds [EU _ Hnu [E1 Ends] [HS [_ HP HD _ _]]]]]]] := C52_argyris Hc Hq. exists U, el. split=> //.
move=> e W d' e' W' Hf HW' Hns j Hj x Hx. rewrite Hd in HP.
have [el2 [E2 EL]] := ProofsC1Nodes.argyris_nodes (K := K) c q Hc. rewrite E1 in E2. case: E2 => E2. rewrite -E2 in EL. clear E2 el2.
have [el0 [E0 [_ [Hpl _]]]] := proj2 (proj2 (proj2 ((PropsFam.C34_morley_argyris_bell K (char0K R0) c Hsx).1 Hc))) q (ssrnat.leP Hq).
rewrite E1 in E0. case: E0 => E0. rewrite -E0 in Hpl. have [nj [Nj Onj]] := Hpl d' e' j Hj.
have [Jp Enj] : (j < size nds)%N /\ nth [::] nds j = node_terms nu nj.
{ move: Nj. rewrite Ends. elim: (ModelFam.el_nodes K el) j {Hj Hpl} => [|z L IH] [|j] //=; [by move=> [<-]|exact: IH]. }
have [a [b [EW Hab Ha Hb _]]] := edge_pair Hc Hf.
have Hloc : ~ located (in_plane 2 (vts c) W) (nth [::] nds j).
{ rewrite Enj => HL. have UW : uniq W by rewrite EW /= inE Hab.
  have Hle v : v \in W -> (v <= sdim_of c)%N by rewrite EW Hd !inE => /orP [] /eqP ->.
  have {}HL : located (in_plane (sdim_of c) (vts c) W) (node_terms nu nj) by rewrite Hd. apply: Hns. have Hin : List.In nj (ModelFam.el_nodes K el) by exact: List.nth_error_In Nj. rewrite EL in Hin. have := argyris_list_ok Hc Hin.
  case: nj Onj HL {Nj Enj Hin} => //= [y On HL _|y al On HL _|f y [_ [_ On]] HL _]; have P : in_plane (sdim_of c) (vts c) W y by [exact: (HL _ (mem_head _ _))]; exact: (interior_sub R0 Hsx UW Hle HW' P On). }
have [cf [G1 G2]] := HP j Jp. subst W.
have [|P1 [P2 P3]] := argyris_edge (cf := cf) Hc Hq Hnu HS Hf _ Hx; last by rewrite G1 !G2.
move=> N HN HL. have Hi : (index N nds < size nds)%N by rewrite index_mem. have := HD _ j Hi Jp. rewrite nth_index //.
have -> : (index N nds == j) = false by apply/eqP => E; apply: Hloc; rewrite -E nth_index.
move=> E; refine (etrans _ E). apply: eq_big_seq => t Ht. congr (_ * _). case: eqP => Et; first by rewrite G1.
rewrite G2 //. move: HN Ht. rewrite Ends EL. elim: (ProofsC1Nodes.argyris_list _ _) (fun l => @argyris_list_ok c q l Hc) => [|l L IH] Hok //=.
rewrite inE => /orP [/eqP -> Ht|HN Ht]; last by apply: IH => // l' Hl'; apply: Hok; right.
have := Hok l (or_introl erefl). case: l Ht {Hok IH} => //= [y Ht|y al Ht [Sal _]|f y /mapP [i _ ->]]; [by move: Ht Et; rewrite inE => /eqP -> |by move: Ht; rewrite inE => /eqP ->|by []].
Qed.
End C52.

(** the hypotheses are met: on the triangle with degree 6, the function dual to the
    value at the interior node vanishes with its gradient in the middle of an edge *)
Example C52_example (R : rcfType) : exists sqrt svd qr pop U, [/\ sqrt_exact sqrt, @svd_correct R svd, @qr_correct R qr & pop_correct pop] /\
  [/\ argyris sqrt svd qr pop ModelCell.UFCTriangle 6 = Ok U, num_members U = 28%N & bval sqrt ModelCell.UFCTriangle 6 U 27 [:: 0; 2%:R^-1] = 0 /\ bder sqrt ModelCell.UFCTriangle 6 U 27 [:: 1; 0]%N [:: 0; 2%:R^-1] = 0].
Proof.
have [svd [qr [pop [H1 H2 H3]]]] := C20_decompositions_exist R. have [_ H4] := C23_sqrt_witness_rcf R.
have [U [el [E1 E2 H]]] := @C52_argyris_c1 R _ H4 _ _ _ H1 H2 H3 ModelCell.UFCTriangle 6 erefl isT.
have [U' [el' [nu [nds [E3 _ _ _ [[S _ _ _ _] [[S2 _] _ _ _ _]]]]]]] := @C52_argyris R _ H4 _ _ _ H1 H2 H3 ModelCell.UFCTriangle 6 erefl isT.
move: E3. rewrite E2 => -[EU]. rewrite -EU in S2. exists Num.sqrt, svd, qr, pop, U. split; first by []. split=> //; first by rewrite S2 S.
have A1 : ~ {subset [:: 0; 1; 2]%N <= [:: 0; 2]%N} by move/(_ 1%N); rewrite !inE /= => /(_ isT).
have A2 : List.In 27%N (SpecCell.dofs_on (ModelFam.el_ids (mcF R) el) (ModelCell.DI 2, 0%N)) by move: E1; rewrite /ModelFam.Argyris /=; move=> [<-] /=; left.
have A3 : in_plane 2 (ModelCell.vertices (mcF R) ModelCell.UFCTriangle : seq (seq R)) [:: 0; 2]%N [:: 0; 2%:R^-1].
{ split=> //. exists (fun=> 2%:R^-1). have h2 : 2%:R^-1 + 2%:R^-1 = 1 :> R.
  { have T : 2%:R != 0 :> R by exact: num_char0. have := divff T. rewrite -[X in X / _]/(1 + 1) mulrDl mul1r. by []. }
  split; first by rewrite !big_cons big_nil addr0.
  by case=> [|[|j]] //= _; rewrite !big_cons big_nil /= ?mulr0 ?mulr1 ?addr0 ?add0r. }
have [H5 H6 _] := H 1%N [:: 0; 2]%N 2%N 0%N [:: 0; 1; 2]%N erefl erefl A1 27%N A2 _ A3. by [].
Qed.
