(** C55: the Regge element. *)
Set Warnings "-notation-overridden,-ambiguous-paths".
From mathcomp Require Import all_ssreflect all_algebra all_field zify.
From Verif Require Base ModelIndex SpecIndex ModelCell SpecCell SpecFam ModelFam PropsFam.
From Verif Require Import FieldTac SpecJacobi ProofsDmatsReg PropsExpansion ModelDmats ModelDual SpecDual ProofsDual SpecPoly SpecRT SpecTens ModelSpace ModelTens ProofsLagLat ProofsSpace ProofsSpaceCell
  PropsConform ProofsTensElem ProofsTens ProofsTensNodes ProofsRegge PropsLagrange.
Set Implicit Arguments. Unset Strict Implicit. Unset Printing Implicit Defensive.
Import GRing.Theory Num.Theory.
Local Open Scope ring_scope.

(** the vector from vertex [a] to vertex [b] of the reference cell *)
Definition edge_vector (F : fieldType) (c : ModelCell.cell) (a b : nat) : seq F :=
  let vs := ModelCell.vertices (mcF F) c : seq (seq F) in
  mkseq (fun i => nth 0 (nth [::] vs b) i - nth 0 (nth [::] vs a) i) (ModelCell.spatial_dimension c).

Lemma map_res_nth0 (R : fieldType) (A : Type) (f : A -> result (functional R [eqType of seq R])) (l : seq A) fs k x : map_res f l = Ok fs -> List.nth_error l k = Some x ->
  (k < size fs)%N /\ f x = Ok (nth (@mkFunctional R [eqType of seq R] [::] [::] [::]) fs k).
Proof.
elim: l fs k => [|y l IH] fs [|k] //=; case Ey : (f y) => [g|] //=; case El : (map_res f l) => [gs|] //= -[<-].
- by move=> [<-].
- move=> H. exact: IH El H.
Qed.
Section Alg.
Variable F : fieldType.
Add Field FFpr : (mc_field_theory F).
Lemma expand4 (q p q' p' m : F) : (q - p) * m * (q' - p') = q * m * q' - q * m * p' - p * m * q' + p * m * p'.
Proof. fring. Qed.
Lemma swap3 (a m b : F) : a * m * b = b * m * a.
Proof. fring. Qed.
Lemma polar (bb bp qq aa bq ba' aq aa' : F) : 2%:R != 0 :> F -> qq - bq - bq + bb = 0 -> bp - ba' - ba' + bb = 0 -> qq - aq - aq + aa = 0 -> bp - aa' - aa' + aa = 0 ->
  bq - ba' - aq + aa' = 0.
Proof.
move=> T H1 H2 H3 H4. apply: (mulfI T). rewrite mulr0.
have -> : 2%:R * (bq - ba' - aq + aa') = - (qq - bq - bq + bb) + (bp - ba' - ba' + bb) + (qq - aq - aq + aa) - (bp - aa' - aa' + aa) by rewrite mulr2n; fring.
by rewrite H1 H2 H3 H4 oppr0 !addr0.
Qed.
End Alg.

Lemma vsub_nth (F : fieldType) m (X Y : seq F) i : (i < m)%N -> size X = m -> size Y = m -> nth 0 (@ModelIndex.vsub (mcF F) X Y) i = nth 0 X i - nth 0 Y i.
Proof. elim: X Y i m => [|x0 X IH] [|y0 Y] [|i] [|m] //= Hi [HX] [HY]. exact: (IH Y i m). Qed.
Section C55.
Variable F : fieldType.
Hypothesis F0 : char_zero F.
Variable sqrt : F -> F.
Hypothesis Hsq : sqrt_exact sqrt.
Notation K := (mcF F).
Notation pt := [eqType of seq F].
Notation nil_f := (@mkFunctional F pt [::] [::] [::]).
Notation vts c := (ModelCell.vertices K c : seq (seq F)).
Notation pip c v w x := (ModelFunctional.PointwiseInnerProductEvaluation (geometry_of F c) v w x).
Definition nodeT (c : cell) (l : ModelFam.node K) : functional F pt :=
  match l with ModelFam.InnerProduct v w x => pip c v w x | _ => nil_f end.
Lemma regge_shape c n l : List.In l (regge_nodes K c n) -> exists t x, l = ModelFam.InnerProduct K t t x.
Proof.
move=> /List.in_flat_map [d [_ /List.in_flat_map [e [_ /List.in_flat_map [x [_ /List.in_map_iff [t [<- _]]]]]]]]. by exists t, x.
Qed.
Lemma nodeT_ok c l : (exists t x, l = ModelFam.InnerProduct K t t x) -> tens_node c l = Ok (nodeT c l).
Proof. by move=> [t [x ->]]. Qed.
Lemma good_nodeT c n N (l : list (ModelFam.node K)) : (0 < size l)%N -> (forall x, List.In x l -> exists t y, x = ModelFam.InnerProduct K t t y) ->
  good_nodes (exp_set sqrt c n N) (map (nodeT c) l) (sym_U F c n).
Proof.
move=> H0 Hl. split.
- by rewrite size_map.
- case: l H0 Hl => [|y l] //= _ H. by have [t [z ->]] := H y (or_introl erefl).
- elim: l Hl {H0} => [|y l IH] H //=. rewrite IH ?andbT; last by move=> z Hz; apply: H; right.
  have [t [z ->]] := H y (or_introl erefl). exact: pip_wf.
- suff -> : has (fun l0 : functional F pt => deriv_dict l0 != [::]) (map (nodeT c) l) = false by [].
  elim: l Hl {H0} => [|y l IH] H //=. rewrite IH ?orbF; last by move=> z Hz; apply: H; right.
  by have [t [z ->]] := H y (or_introl erefl).
Qed.
Lemma pip_tens c n t x cfs : apply (pip c t t x) (tens_func (sdim_of c) n cfs) = bilin (sdim_of c) t t (fun i j => pval (sdim_of c) n (cfs [:: i; j]) x).
Proof. exact: pip_apply. Qed.
Lemma binom_pos sd n : (0 < sd <= 3)%N -> (0 < Base.binom (n + sd) sd)%N.
Proof.
move=> H. rewrite -exps_size; last by lia. have : nseq sd 0%N \in exps sd n by rewrite exps_mem size_nseq eqxx sumn_nseq. by case: exps.
Qed.

(** The constructor returns a nodal basis of the symmetric matrix fields of degree
    [n], sd (sd+1)/2 binom(n+sd, sd) of them. *)
Theorem C55_regge : forall c n, SpecFam.simplex c -> (2 <= ModelCell.spatial_dimension c)%N ->
  let sd := ModelCell.spatial_dimension c in
  exists el fs U, [/\ ModelFam.Regge K c n = Base.Ok el, map_res (tens_node c) (ModelFam.el_nodes K el) = Ok fs,
    size fs = ((sd * (sd + 1)) %/ 2 * Base.binom (n + sd) sd)%N, regge sqrt c n = Ok U &
    tens_nodal sqrt c n [:: sd; sd] (sym_field sd) fs U].
Proof.
move=> c n Hc Hd sd. have Hd3 : (2 <= sdim_of c <= 3)%N by have [_ [_]] := simplex_dim Hc; lia.
have [el [E1 E2]] := @regge_nodes_ok K c n Hc (ssrnat.leP Hd).
have SH : forall x, List.In x (ModelFam.el_nodes K el) -> exists t y, x = ModelFam.InnerProduct K t t y by rewrite E2; exact: regge_shape.
have Hfs : map_res (tens_node c) (ModelFam.el_nodes K el) = Ok (map (nodeT c) (ModelFam.el_nodes K el)).
{ apply: map_res_map => x Hx. exact: nodeT_ok (SH x Hx). }
have HN : size (ModelFam.el_nodes K el) = (sd * (sd + 1) %/ 2 * Base.binom (n + sd) sd)%N.
{ have [A [B _]] := PropsFam.C34_regge_hhj K (char0K F0) c n Hc.
  have [D|D] : sdim_of c = 2%N \/ sdim_of c = 3%N by lia.
  - have [[el' [X1 [_ [_ [_ X2]]]]] _] := A D. rewrite E1 in X1. case: X1 => X1. rewrite /sd D X1. exact: X2.
  - have [el' [X1 [_ [_ [_ X2]]]]] := B D. rewrite E1 in X1. case: X1 => X1. rewrite /sd D X1. exact: X2. }
have HN0 : (0 < size (ModelFam.el_nodes K el))%N.
{ rewrite HN muln_gt0 binom_pos; last by rewrite /sd; lia. rewrite andbT /sd. have [->|->] : sdim_of c = 2%N \/ sdim_of c = 3%N by lia. by []. by []. }
have HE : size (ModelFam.el_nodes K el) = num_members (sym_U F c n).
{ rewrite HN sym_num exps_size; last by lia. rewrite /sd. by have [->|->] : sdim_of c = 2%N \/ sdim_of c = 3%N by lia. }
have [|||||||U [U1 U2]] := @telem_ok F F0 sqrt Hsq c n [:: sd; sd] Hc (sym_U F c n) (map (nodeT c) (ModelFam.el_nodes K el)) (sym_field sd).
- exact: good_nodeT.
- by [].
- by rewrite size_map.
- move=> a. exact: sym_span1.
- move=> cfs. exact: sym_span2.
- move=> a H. exact: (sym_indep Hd3).
- move=> cfs Sc H0 cmp x /comps2P [i [l [Hi Hl ->]]] Sx.
  apply: (edges_det F0 Hd3 (M := fun i j => pval sd n (cfs [:: i; j]) x)) => // [i' j' Hi' Hj'|a b Hab Hb].
  + apply: eq_bigr => al _. by rewrite Sc.
  + apply: (@tang_zero F F0 c n (iota 0 sd.+1) a b cfs Hc (iota_uniq _ _)) => //.
    * move=> v. by rewrite mem_iota.
    * rewrite mem_iota /= add0n ltnS. lia.
    * by rewrite mem_iota.
    * by rewrite neq_ltn Hab.
    * move=> t y Hin _. rewrite -E2 in Hin. have [k Hk] := List.In_nth_error _ _ Hin.
      have [K1 K2] := nth_error_map (nodeT c) nil_f Hk. have := H0 k K1. by rewrite K2 /= pip_tens.
    * exact: cell_plane.
exists el, (map (nodeT c) (ModelFam.el_nodes K el)), U. split=> //; first by rewrite size_map.
have [S1 S2] := sym_set_ok F0 Hsq n Hc.
by rewrite /regge /tens_element S1 /= S2 E1 /= Hfs /= U1.
Qed.

Lemma edge_vectorE c a b i : (i < sdim_of c)%N -> nth 0 (edge_vector F c a b) i = vco F c b i - vco F c a i.
Proof. move=> Hi. by rewrite nth_mkseq. Qed.
Lemma bilin_ext sd (v v' w w' : seq F) M M' : (forall i, (i < sd)%N -> nth 0 v i = nth 0 v' i) -> (forall i, (i < sd)%N -> nth 0 w i = nth 0 w' i) ->
  (forall i j, (i < sd)%N -> (j < sd)%N -> M i j = M' i j) -> bilin sd v w M = bilin sd v' w' M'.
Proof. move=> Hv Hw HM. apply: eq_bigr => i _. apply: eq_bigr => j _. by rewrite Hv ?ltn_ord // Hw ?ltn_ord // HM ?ltn_ord. Qed.

Lemma lookup_top c d e vs : ModelCell.elookup e (ModelFam.top c d) = Some vs -> ModelCell.lookup (ModelCell.topology c) (ModelCell.DI d) e = Some vs.
Proof. rewrite /ModelCell.lookup /ModelFam.top. by case: (ModelCell.dlookup _ _). Qed.
(** Every node is the value, at an interior lattice point of an entity, of the
    component of the field along an edge of that entity. *)
Theorem C55_nodes : forall c n, SpecFam.simplex c -> (2 <= ModelCell.spatial_dimension c)%N ->
  let sd := ModelCell.spatial_dimension c in
  exists el fs, [/\ ModelFam.Regge K c n = Base.Ok el, map_res (tens_node c) (ModelFam.el_nodes K el) = Ok fs &
    forall j, (j < size fs)%N ->
      exists d e W a b x, [/\ ModelCell.lookup (ModelCell.topology c) (ModelCell.DI d) e = Some W, a \in W, b \in W & a != b] /\
        [/\ List.In x (ModelFam.make_points K c d e (n + 2)), SpecFam.interior_point (K := K) (SpecFam.vertices_of (K := K) c d e) x &
        forall f, apply (nth nil_f fs j) f = bilin sd (edge_vector F c a b) (edge_vector F c a b) (fun i j => fval f [:: i; j] x)]].
Proof.
move=> c n Hc Hd sd. have [el [fs [U [H1 H2 H3 H4 H5]]]] := C55_regge n Hc Hd. exists el, fs. split=> // j Hj.
have [el0 [E1 E2]] := @regge_nodes_ok K c n Hc (ssrnat.leP Hd). rewrite H1 in E1. case: E1 => E1. rewrite -{el0}E1 in E2.
have SH : forall y, List.In y (ModelFam.el_nodes K el) -> exists t z, y = ModelFam.InnerProduct K t t z by rewrite E2; exact: regge_shape.
have Hfs : map_res (tens_node c) (ModelFam.el_nodes K el) = Ok (map (nodeT c) (ModelFam.el_nodes K el)) by apply: map_res_map => x Hx; exact: nodeT_ok (SH x Hx).
rewrite H2 in Hfs. case: Hfs => Hfs. rewrite Hfs size_map in Hj.
have [nd Nj] := nth_error_some Hj. have [_ Ej] := nth_error_map (nodeT c) nil_f Nj. rewrite Hfs Ej.
have := List.nth_error_In _ _ Nj. rewrite E2 => /List.in_flat_map [d [/Base.in_range Ld /List.in_flat_map [e [/Base.in_range Le /List.in_flat_map [x [Hx /List.in_map_iff [t [Et Ht]]]]]]]].
have Ld' : (d <= ModelCell.spatial_dimension c)%coq_nat by lia.
have [W [LW [SW _]]] := ProofsFam.top_entities c d e Hc Ld' (proj2 Le). have HW := lookup_top LW. have [UW _ SW' Hle] := entity_ok Hc HW.
have EV : ModelFam.entity_vertices K c d e = [seq (nth [::] (vts c) v : seq F) | v <- W].
{ rewrite /ModelFam.entity_vertices LW /=. apply: eq_map => v. exact: Lnth. }
have := Ht. rewrite /ModelFam.face_edge_tangents => /List.in_flat_map [p [/Base.in_range Lp /List.in_map_iff [q [Eq /Base.in_range Lq]]]].
have Hp : (p < size W)%N by rewrite SW'; lia. have Hq : (q < size W)%N by rewrite SW'; lia.
exists d, e, W, (nth 0%N W p), (nth 0%N W q), x. split; first (split=> //; try exact: mem_nth).
- rewrite nth_uniq //. lia.
- split=> //; first exact: (ProofsFam.make_points_interior (K := K) (char0K F0) c d e (n + 2)%N x Hc Ld' (proj2 Le) Hx).
  move=> f. rewrite -Et /= pip_apply.
  have Et2 i : (i < sdim_of c)%N -> nth 0 t i = nth 0 (edge_vector F c (nth 0%N W p) (nth 0%N W q)) i; last by apply: bilin_ext.
  move=> Hi. rewrite edge_vectorE // -Eq EV !Lnth !(nth_map 0%N) //. apply: (@vsub_nth F (sdim_of c)) => //.
  + have [Z1 Z2] := verts_dim F Hc. apply: Z2. apply: mem_nth. by rewrite Z1 ltnS Hle // mem_nth.
  + have [Z1 Z2] := verts_dim F Hc. apply: Z2. apply: mem_nth. by rewrite Z1 ltnS Hle // mem_nth.
Qed.

(** The part of a basis field tangential to an entity vanishes there unless the
    field belongs to (the closure of) that entity. *)
Theorem C55_conforming : forall c n, SpecFam.simplex c -> (2 <= ModelCell.spatial_dimension c)%N ->
  let sd := ModelCell.spatial_dimension c in
  exists el U, [/\ ModelFam.Regge K c n = Base.Ok el, regge sqrt c n = Ok U &
    forall d e W d' e' W', ModelCell.lookup (ModelCell.topology c) (ModelCell.DI d) e = Some W ->
    ModelCell.lookup (ModelCell.topology c) (ModelCell.DI d') e' = Some W' -> ~ {subset W' <= W} ->
    forall j, List.In j (SpecCell.dofs_on (ModelFam.el_ids K el) (ModelCell.DI d', e')) ->
    forall a b a' b', a \in W -> b \in W -> a' \in W -> b' \in W ->
    forall x, in_plane sd (vts c) W x ->
      bilin sd (edge_vector F c a b) (edge_vector F c a' b') (fun i k => fval (member (exp_set sqrt c n (size (exps sd n))) U j) [:: i; k] x) = 0].
Proof.
move=> c n Hc Hd sd. have [el [fs [U [H1 H2 H3 H4 H5]]]] := C55_regge n Hc Hd. exists el, U. split=> //.
move=> d e W d' e' W' HW HW' Hns j Hj a b a' b' Ha Hb Ha' Hb' x Hx. have [UW NW _ Hle] := entity_ok Hc HW.
have [el0 [E1 E2]] := @regge_nodes_ok K c n Hc (ssrnat.leP Hd). rewrite H1 in E1. case: E1 => E1. rewrite -{el0}E1 in E2.
have Hpl : SpecFam.placed (K := K) c el.
{ have [A [B _]] := PropsFam.C34_regge_hhj K (char0K F0) c n Hc.
  have [D|D] : sdim_of c = 2%N \/ sdim_of c = 3%N by have [_ [_]] := simplex_dim Hc; lia.
  - have [[el' [X1 [_ [X2 _]]]] _] := A D. rewrite H1 in X1. case: X1 => X1. by rewrite X1.
  - have [el' [X1 [_ [X2 _]]]] := B D. rewrite H1 in X1. case: X1 => X1. by rewrite X1. }
have [nj [Nj Onj]] := Hpl d' e' j Hj. have [Jf Ej] := map_res_nth0 H2 Nj.
have SH : forall y, List.In y (ModelFam.el_nodes K el) -> exists t z, y = ModelFam.InnerProduct K t t z by rewrite E2; exact: regge_shape.
have [tj [xj Enj]] := SH _ (List.nth_error_In _ _ Nj). rewrite Enj /= in Onj.
case: H5 => V1 V2 V3 V4 _. have [cfs Sc [Sv _]] := V3 j Jf.
pose M y i k := pval sd n (cfs [:: i; k]) y.
have FV y i k : (i < sd)%N -> (k < sd)%N -> fval (member (exp_set sqrt c n (size (exps sd n))) U j) [:: i; k] y = M y i k.
{ move=> Hi Hk. rewrite Sv //. apply/comps2P. by exists i, k. }
have MS i k : (i < sd)%N -> (k < sd)%N -> M x i k = M x k i by move=> Hi Hk; apply: eq_bigr => al _; rewrite Sc.
have Z p q : p \in W -> q \in W -> bilin sd (edge_vector F c p q) (edge_vector F c p q) (M x) = 0.
{ move=> Hp Hq. case: (p =P q) => [->|/eqP Hpq].
  - rewrite /bilin big1 // => i _. rewrite big1 // => k _. by rewrite edge_vectorE ?ltn_ord // subrr !mul0r.
  - rewrite (@bilin_edge F c _ 1 p q) //; try exact: Hle; try by rewrite mulr1.
    + rewrite (@tang_zero F F0 c n W p q cfs) // ?mulr0 // => t y Hin Hy.
      rewrite -E2 in Hin. have [k Hk] := List.In_nth_error _ _ Hin. have [K1 K2] := map_res_nth0 H2 Hk.
      have := V4 k j K1 Jf. have -> : (k == j) = false.
      { apply/eqP => Ekj. rewrite Ekj Nj in Hk. case: Hk => Hk. rewrite Enj in Hk. case: Hk => _ _ Exy. rewrite Exy in Onj.
        apply: Hns. exact: (interior_sub F0 Hc UW Hle HW' Hy Onj). }
      move: K2 => /= [<-]. rewrite pip_apply => E. rewrite -[RHS]E. apply: bilin_ext => // i l Hi Hl. by rewrite FV.
    + move=> i Hi. by rewrite edge_vectorE // mul1r. }
(* polarization *)
pose B p q := \sum_(i < sd) \sum_(k < sd) vco F c p i * M x i k * vco F c q k.
have BE p q p' q' : bilin sd (edge_vector F c p q) (edge_vector F c p' q') (M x) = B q q' - B q p' - B p q' + B p p'.
{ rewrite /B -!sumrB -!big_split /=. apply: eq_bigr => i _. rewrite -!sumrB -!big_split /=. apply: eq_bigr => k _.
  rewrite !edge_vectorE ?ltn_ord //. exact: expand4. }
have BS p q : B p q = B q p.
{ rewrite /B exchange_big /=. apply: eq_bigr => k _. apply: eq_bigr => i _. rewrite MS ?ltn_ord //. exact: swap3. }
rewrite (bilin_ext (v' := edge_vector F c a b) (w' := edge_vector F c a' b') (M' := M x)) //; last by move=> i k Hi Hk; rewrite FV.
have Z1 := Z b b' Hb Hb'. have Z2 := Z b a' Hb Ha'. have Z3 := Z a b' Ha Hb'. have Z4 := Z a a' Ha Ha'.
rewrite BE in Z1; rewrite BE in Z2; rewrite BE in Z3; rewrite BE in Z4; rewrite BE. rewrite ?[B b' b]BS ?[B a' b]BS ?[B b' a]BS ?[B a' a]BS in Z1 Z2 Z3 Z4.
exact: (polar (F0 (m := 2%N) isT) Z1 Z2 Z3 Z4).
Qed.

(** There is no Regge element on intervals. *)
Theorem C55_refused : forall c n, SpecFam.simplex c -> ModelCell.spatial_dimension c = 1%N -> regge sqrt c n = Err Base.ValueError.
Proof.
move=> c n Hc Hd. have [_ [_ [B _]]] := PropsFam.C34_regge_hhj K (char0K F0) c n Hc.
have [S1 S2] := sym_set_ok F0 Hsq n Hc. by rewrite /regge /tens_element S1 /= S2 (B Hd).
Qed.
End C55.

(** the hypotheses are met: lowest degree on the triangle; the field of the edge
    of vertices 1 and 2 has no tangential part on the edge of vertices 0 and 1 *)
Example C55_example : exists sqrt U, [/\ @sqrt_exact Algebraics.Implementation.fieldType sqrt, regge sqrt ModelCell.UFCTriangle 0 = Ok U, num_members U = 3%N &
  bilin 2 (edge_vector _ ModelCell.UFCTriangle 0 1) (edge_vector _ ModelCell.UFCTriangle 0 1)
    (fun i k => fval (member (exp_set sqrt ModelCell.UFCTriangle 0 (size (exps 2 0))) U 0) [:: i; k] [:: 2%:R^-1; 0]) = 0].
Proof.
have [C0 Hsq] := C23_sqrt_witness_algC. exists sqrtC.
have [||el [fs [U [E1 E2 E3 E4 [E5 _ _ _ _]]]]] := @C55_regge _ C0 _ Hsq ModelCell.UFCTriangle 0; [by []|by []|].
have [||el' [U' [E1' E4' H]]] := @C55_conforming _ C0 _ Hsq ModelCell.UFCTriangle 0; [by []|by []|].
rewrite E4 in E4'. case: E4' => E4'. rewrite -E4' in H. exists U. split=> //; first by rewrite E5 E3.
apply: (H 1%N 2%N [:: 0%N; 1%N] 1%N 0%N [:: 1%N; 2%N]) => //.
- by move/(_ 2%N isT).
- move: E1'. rewrite /ModelFam.Regge /=. by move=> [<-]; left.
- split=> //. exists (fun=> 2%:R^-1). have h2 : 2%:R^-1 + 2%:R^-1 = 1 :> Algebraics.Implementation.fieldType.
  { have := divff (C0 2%N isT). rewrite -[X in X / _]/(1 + 1) mulrDl mul1r. by []. }
  split; first by rewrite !big_cons big_nil addr0.
  by case=> [|[|j]] //= _; rewrite !big_cons big_nil /= ?mulr0 ?mulr1 ?addr0 ?add0r.
Qed.
