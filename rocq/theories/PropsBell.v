(** C57: the Bell element, from the constructor call to the basis functions. *)
Set Warnings "-notation-overridden,-ambiguous-paths".
From mathcomp Require Import all_ssreflect all_algebra zify.
From Verif Require Base ModelIndex ModelCell SpecCell SpecFam ModelFam PropsFam ModelFunctional ModelGeom PropsGeom ModelQuad.
From Verif Require Import FieldTac SpecJacobi SpecQuad PropsQuad PropsQuadPos ProofsJacobi ProofsDmatsReg PropsSimplexTopo PropsExpansion ModelDual SpecDual ProofsDual PropsDual SpecPoly ModelSpace SpecRT SpecJet.
From Verif Require Import ModelExpansion ModelDmats ModelAffine ProofsLagLat ProofsSpace ProofsSpaceCell ProofsPolyClo ProofsElem PropsConform ProofsRestr ProofsJet
  ModelNormal SpecNormal PropsNormalCells PropsRefNormal ProofsGaussReal ProofsRTNodes ModelC1 SpecC1 ProofsC1Uni ProofsC1Edge ProofsC1 ModelBell SpecBell ProofsBell.
Set Implicit Arguments. Unset Strict Implicit. Unset Printing Implicit Defensive.
Import Order.TTheory GRing.Theory Num.Theory.
Local Open Scope ring_scope.

Section C57.
Variable R : rcfType.
Notation K := (mcF R).
Notation arr := (seq (seq R)).
Notation tri := ModelCell.UFCTriangle.
Notation vts c := (ModelCell.vertices K c : seq (seq R)).
Let R0 : char_zero R := num_char0 R.
Variable sqrt : R -> R.
Hypothesis Hsq : sqrt_exact sqrt.
Variables (svd : arr -> arr * seq R * arr) (qr : arr -> arr * arr) (pop : seq nat -> nat).
Hypotheses (Hsvd : svd_correct svd) (Hqr : qr_correct qr) (Hpop : pop_correct pop).
Variable gjp : nat -> nat -> nat -> seq R.
Hypothesis G : gauss_points gjp 5.
Notation bell_tri := (bell sqrt svd qr pop gjp tri).

Lemma bell_built : exists U nds, [/\ bell_tri = Ok U, bell_spec tri (nrm svd qr pop tri) nds & jet_nodal sqrt tri 5 U nds].
Proof.
have Hc : ModelFam.is_triangle tri = true by []. have [Hs Hx Hd _] := tri_ok Hc.
have [el [E1 E2 E3]] := bell_el R. have [fs [nds [F1 F2 F3 F4 F5]]] := all_nodes Hsvd Hqr Hpop G (@bell_list_good R).
have HS := bell_spec_ok (svd := svd) (qr := qr) (pop := pop) F3 F5.
have [||||U [H1 H2]] := jet_element R0 Hsq (c := tri) (n := 5) (nodes := fs) (nds := nds) Hx.
- by rewrite F2.
- by rewrite F2 F3.
- by move=> i Hi; apply: F4; rewrite -F2.
- move=> cf H. have Sn : size nds = 21%N by rewrite F3.
  apply: (grid_zero (g := fun i => i%:R) (isT : (1 <= 2 <= 3)%N)); first exact: (natr_inj R0).
  move=> idx Hi _. apply: (bell_det Hsvd Hqr Hpop HS _); last by rewrite size_map.
  by move=> i Hi'; apply: H; rewrite Sn.
exists U, nds. split=> //.
rewrite /bell (on_set_ok R0 Hsq 5 Hx) E1. rewrite [bind _ _]/(bind (map_res _ (ModelFam.el_nodes K el)) _) E2 F1 [LHS]/(ciarlet _ fs _). rewrite F2 in H1. exact: H1.
Qed.
(** dual nodes of the function with index [j], for polynomials that agree with it *)
Lemma bell_dual U nu nds cf i j : unit_normals tri nu -> bell_spec tri nu nds -> jet_nodal sqrt tri 5 U nds -> (i < 21)%N -> (j < 21)%N ->
  (forall x, bval sqrt tri 5 U j x = pval 2 5 cf x) -> (forall al x, size al = 2%N -> bder sqrt tri 5 U j al x = pder 2 5 cf al x) ->
  dval (nth [::] nds i) (pval 2 5 cf) (pder 2 5 cf) = (i == j)%:R.
Proof.
move=> Hnu [S1 S2 S3] [_ _ HD _ _] Hi Hj G1 G2. rewrite S1 in HD. rewrite -(HD i j Hi Hj).
case: (ltnP i 18) => Hi18.
- have Ev : i = (6 * (divn i 6) + modn i 6)%N by rewrite mulnC -divn_eq. have Hv : (divn i 6 <= 2)%N by rewrite -ltnS ltn_divLR.
  have [M1 M2] := S2 _ Hv. have Hk := ltn_pmod i (isT : (0 < 6)%N). rewrite Ev. move: (divn i 6) (modn i 6) Hk Hv M1 M2 => v k Hk Hv M1 M2 {Ev Hi Hi18}.
  case: k Hk => [|k] Hk; first by rewrite addn0 M1 !dval_at' G1.
  rewrite M2 //. clear -Hk G1 G2. case: k Hk => [|[|[|[|[|k]]]]] // _; by rewrite /= !dval_der' // G2.
- have [e Ee] : exists e, i = (18 + e)%N by exists (i - 18)%N; rewrite subnKC. have He : (e < 3)%N by move: Hi; rewrite Ee -[21%N]/(18 + 3)%N ltn_add2l.
  have [a [b Hf]] : exists a b, facet_is tri e [:: a; b] by clear -He; case: e He => [|[|[|e]]] // _; eexists; eexists; reflexivity.
  pose N := N0 5 cf (nth [::] (vts tri) a) (nth [::] (vts tri) b) (nu e).
  have SN : (size N <= 6)%N.
  { rewrite /N /N0. apply: (leq_trans (size_add _ _)). rewrite geq_max. apply/andP; split; apply: (leq_trans (size_scale_leq _ _)); apply: (leq_trans (lpoly_size _ _ _ _ _ _)); by rewrite !big_ord_recl big_ord0. }
  have T1 : normal_trace tri a b (nu e) (pder 2 5 cf) N by move=> t; rewrite edge_pointE N0ev.
  have T2 : normal_trace tri a b (nu e) (bder sqrt tri 5 U j) N by move=> t; rewrite T1 !G2.
  by rewrite Ee (S3 e a b _ _ N Hf SN T1) (S3 e a b _ _ N Hf SN T2).
Qed.
(** The Bell element can be built on the UFC triangle: its basis functions are the
    quintics dual to the values and the first and second derivatives at the vertices
    and to the moments of the normal derivatives against the Legendre polynomial of
    degree 4 of each edge. *)
Theorem C57_bell : exists U nu nds, [/\ bell_tri = Ok U, forall e, (e < 3)%N -> cell_normal svd qr pop tri e = Ok (nu e), unit_normals tri nu,
  bell_spec tri nu nds & jet_nodal sqrt tri 5 U nds].
Proof.
have [U [nds [E1 E2 E3]]] := bell_built. exists U, (nrm svd qr pop tri), nds. split=> //.
- move=> e He. have [W HW] : exists W, facet_is tri e W by clear -He; case: e He => [|[|[|e]]] // _; eexists; reflexivity.
  by have [H _ _] := nrm_ok Hsvd Hqr Hpop (c := tri) erefl HW.
- exact: unit_nrm.
Qed.
(** C1 conformity: a basis function registered on an entity that is not part of (the
    closure of) an edge vanishes on that edge with its gradient. *)
Theorem C57_bell_c1 : exists U el, [/\ ModelFam.Bell K tri = Base.Ok el, bell_tri = Ok U &
  forall e W d' e' W', facet_is tri e W -> ModelCell.lookup (ModelCell.topology tri) (ModelCell.DI d') e' = Some W' -> ~ {subset W' <= W} ->
  forall j, List.In j (SpecCell.dofs_on (ModelFam.el_ids K el) (ModelCell.DI d', e')) ->
  forall x, in_plane 2 (vts tri) W x -> [/\ bval sqrt tri 5 U j x = 0, bder sqrt tri 5 U j [:: 1; 0]%N x = 0 & bder sqrt tri 5 U j [:: 0; 1]%N x = 0]].
Proof.
have [U [nds [EU HS HJ]]] := bell_built. have [el [E1 E2 E3]] := bell_el R. exists U, el. split=> //.
have Hnu := unit_nrm Hsvd Hqr Hpop (c := tri) erefl.
move=> e W d' e' W' Hf HW' Hns j Hj x Hx. have [S1 S2 S3] := HS. have [HJ1 HJ2 HJ3 _ _] := HJ.
have [a [b [EW Hab Ha Hb He]]] := edge_pair (c := tri) erefl Hf.
have Hj' : (j < 21)%N /\ ~~ ((j < 18)%N && (divn j 6 \in W) || (j == 18 + e)%N).
{ clear -Hf HW' Hns Hj E3. move: Hj. rewrite /SpecCell.dofs_on E3.
  have HV : W = nth [::] [:: [:: 1; 2]; [:: 0; 2]; [:: 0; 1]]%N e /\ (e < 3)%N by move: Hf; case: e => [|[|[|e]]] //; rewrite /facet_is ?[ModelCell.lookup _ _ _]/(Some _) => -[<-].
  case: HV => EW He. subst W. clear Hf.
  have HV' : (d', e', W') \in [:: (0, 0, [:: 0]); (0, 1, [:: 1]); (0, 2, [:: 2]); (1, 0, [:: 1; 2]); (1, 1, [:: 0; 2]); (1, 2, [:: 0; 1]); (2, 0, [:: 0; 1; 2])]%N.
  { move: HW'. case: d' => [|[|[|d']]] //; case: e' => [|[|[|e']]] //; rewrite ?[ModelCell.lookup _ _ _]/(Some _) => -[<-]; by rewrite !inE eqxx ?orbT. }
  have no (W1 : seq nat) : all (mem W1) W' -> W1 = nth [::] [:: [:: 1; 2]; [:: 0; 2]; [:: 0; 1]]%N e -> False by move=> /allP Ha E1; apply: Hns; rewrite -E1; exact: Ha.
  clear Hns HW'. case: e He no => [|[|[|e]]] // _ no; move: HV'; rewrite !inE => /or4P [||| /or4P []] /eqP [Ed Ee Ew]; subst d' e' W'; try (by case: (no _ _ erefl)); rewrite /=; by repeat (case=> [<-|]; first by []). }
have [Jj Nj] := Hj'. rewrite S1 in HJ2. have [cf [G1 G2]] := HJ2 j Jj. subst W.
have [|P1 [P2 P3]] := bell_edge Hsvd Hqr Hpop HS Hf _ Hx (cf := cf); last by rewrite G1 !G2.
move=> i Hi Hin. rewrite (bell_dual Hnu HS HJ Hi Jj G1 G2). case: eqP => // E. by rewrite E in Hin; rewrite Hin in Nj.
Qed.
(** The first eighteen basis functions span the reduced space of the Bell element:
    the quintics whose normal derivative is a cubic on every edge. *)
Definition cubic_normals (nu : nat -> seq R) (fd : seq nat -> seq R -> R) : Prop :=
  forall e a b, facet_is tri e [:: a; b] -> exists N : {poly R}, (size N <= 4)%N /\ normal_trace tri a b (nu e) fd N.
Theorem C57_bell_reduced : exists U nu nds, [/\ bell_tri = Ok U, unit_normals tri nu, bell_spec tri nu nds,
  forall j, (j < 18)%N -> cubic_normals nu (bder sqrt tri 5 U j) &
  forall cf, cubic_normals nu (pder 2 5 cf) -> forall x, pval 2 5 cf x = \sum_(j < 18) dval (nth [::] nds j) (pval 2 5 cf) (pder 2 5 cf) * bval sqrt tri 5 U j x].
Proof.
have [U [nds [EU HS HJ]]] := bell_built. have Hnu := unit_nrm Hsvd Hqr Hpop (c := tri) erefl. exists U, (nrm svd qr pop tri), nds.
have [S1 S2 S3] := HS. have [HJ1 HJ2 HJ3 HJ4 _] := HJ. split=> //.
- move=> j Hj e a b Hf. have Hj' : (j < 21)%N by exact: (leq_trans Hj). have [cf [G1 G2]] := HJ2 j (leq_trans Hj' (eq_leq (esym S1))).
  have He : (e < 3)%N by have [_ [_ [_ _ _ _ He]]] := edge_pair (c := tri) erefl Hf.
  pose N := N0 5 cf (nth [::] (vts tri) a) (nth [::] (vts tri) b) (nrm svd qr pop tri e).
  have T1 : normal_trace tri a b (nrm svd qr pop tri e) (pder 2 5 cf) N by move=> t; rewrite edge_pointE N0ev.
  exists N. split; last by move=> t; rewrite T1 !G2.
  apply: moment_low. have SN : (size N <= 6)%N.
  { rewrite /N /N0. apply: (leq_trans (size_add _ _)). rewrite geq_max. apply/andP; split; apply: (leq_trans (size_scale_leq _ _)); apply: (leq_trans (lpoly_size _ _ _ _ _ _)); by rewrite !big_ord_recl big_ord0. }
  have He' : (18 + e < 21)%N by rewrite -[21%N]/(18 + 3)%N ltn_add2l.
  rewrite -(S3 e a b (pval 2 5 cf) (pder 2 5 cf) N Hf SN T1) (bell_dual Hnu HS HJ He' Hj' G1 G2). case: eqP => // E. by move: Hj; rewrite -E ltnNge leq_addr.
- move=> cf Hc x. rewrite (HJ4 cf x) S1. rewrite -[21%N]/(18 + 3)%N big_split_ord /= [X in _ + X]big1 ?addr0 // => k _.
  have [a [b Hf]] : exists a b, facet_is tri k [:: a; b] by case: k => -[|[|[|k]]] // Hk; eexists; eexists; reflexivity.
  have [N [SN HN]] := Hc k a b Hf. rewrite (S3 k a b _ _ N Hf _ HN); last by apply: (leq_trans SN).
  rewrite leg_moment; last by apply: (leq_trans SN). by rewrite nth_default // mul0r mul0r.
Qed.
End C57.

Section Other.
Variable R : rcfType.
Notation K := (mcF R).
Notation arr := (seq (seq R)).
Notation vts c := (ModelCell.vertices K c : seq (seq R)).
Notation nil_f := (@mkFunctional R [eqType of seq R] [::] [::] [::]).
Let R0 : char_zero R := num_char0 R.
Add Field FFblo : (mc_field_theory R).
Variable sqrt : R -> R.
Hypothesis Hsq : sqrt_exact sqrt.
Variables (svd : arr -> arr * seq R * arr) (qr : arr -> arr * arr) (pop : seq nat -> nat).
Hypotheses (Hsvd : svd_correct svd) (Hqr : qr_correct qr) (Hpop : pop_correct pop).
Variable gjp : nat -> nat -> nat -> seq R.
Hypothesis G : gauss_points gjp 5.

(** a node that is a combination of the others *)
Lemma jet_singular c n (nodes : seq (functional R [eqType of seq R])) (nds : seq (dnode R)) i (ws : seq (nat * R)) : SpecFam.simplex c -> (i < size nodes)%N ->
  (forall k, (k < size nodes)%N -> realizes (sdim_of c) (nth nil_f nodes k) (nth [::] nds k)) -> (forall p, p \in ws -> (p.1 < size nodes)%N /\ p.1 != i) ->
  (forall f fd, dval (nth [::] nds i) f fd = \sum_(p <- ws) p.2 * dval (nth [::] nds p.1) f fd) ->
  ciarlet (exp_set sqrt c n (size nodes)) nodes (mkPolySet (size nodes) [::] (fun j _ k => (k == j)%:R)) = Err Base.LinAlgError.
Proof.
move=> Hc Hi HR Hw Hdep.
have Ap k f : (k < size nodes)%N -> apply (nth nil_f nodes k) f = dval (nth [::] nds k) (fval f [::]) (fder f [::]) by move=> Hk; case: (HR k Hk).
set E := exp_set _ _ _ _. set U := mkPolySet _ _ _.
have HG : good_nodes E nodes U.
{ have N0 : (0 < size nodes)%N by apply: leq_ltn_trans Hi. split=> //.
  + have -> : head nil_f nodes = nth nil_f nodes 0 by case: (nodes). by case: (HR 0%N N0).
  + apply/(all_nthP nil_f) => k Hk. case: (HR k Hk) => _ W _ _. exact: W.
  + move/(has_nthP nil_f) => [k Hk Hd]. rewrite (big_nth nil_f) big_mkord. apply: (leq_trans _ (leq_bigmax (Ordinal Hk))) => /=.
    case: (HR k Hk) => _ _ P _. exact: P. }
have [H1 H2] := C10_construction_iff_unisolvent HG. apply: H2 => /H1 [U' HU'].
have [_ _ _ M4 _] := C10_nodal_basis HG HU'. have := M4 i i Hi Hi. rewrite eqxx Ap // Hdep big1_seq; first by move/esym/eqP; rewrite oner_eq0.
move=> p /andP [_ /Hw [P1 P2]]. by rewrite -Ap // M4 // (negbTE P2) mulr0.
Qed.
Lemma nodes_of (node : ModelFam.node K -> result (functional R [eqType of seq R])) (P : ModelFam.node K -> dnode R -> Prop) (L : seq (ModelFam.node K)) :
  (forall l, List.In l L -> exists f nd, [/\ node l = Ok f, realizes 2 f nd & P l nd]) ->
  exists fs nds, [/\ map_res node L = Ok fs, size fs = size L, size nds = size L,
    forall i, (i < size L)%N -> realizes 2 (nth nil_f fs i) (nth [::] nds i) & forall i l, List.nth_error L i = Some l -> P l (nth [::] nds i)].
Proof.
elim: L => [|l L IH] H; first by exists [::], [::]; split=> //; case.
have [|fs [nds [E1 E2 E3 E4 E5]]] := IH; first by move=> l' Hl; apply: H; right.
have [f [nd [F1 F2 F3]]] := H l (or_introl erefl).
exists (f :: fs), (nd :: nds). rewrite /= F1 /= E1 /= E2 E3. split=> // [[|i]|[|i] l'] //=; [exact: E4|by case=> <-|exact: E5].
Qed.
Lemma build_const (T : Type) (x : seq R) (v : T) l : ModelFunctional.build [seq (x, w) | w <- v :: l] = [:: (x, last v l)].
Proof.
rewrite /ModelFunctional.build /=. elim: l v => //= w l IH v. rewrite eqxx. exact: IH.
Qed.
Lemma bell_quad : exists Q p0 ps, [/\ bell_rule gjp = Base.Ok Q, ModelQuad.q_pts Q = p0 :: ps & size (ModelQuad.q_pts Q) = 5%N].
Proof.
have Sv : simplex_verts 1 [:: [:: 0 : R]; [:: 1]] by split=> // v; rewrite !inE => /orP [] /eqP ->.
have [Q [Q1 Q2 Q3 Q4 Q5]] := C28_interval (F := R) true R0 (isT : (0 < 5)%N) G Sv.
exists Q, (head [::] (ModelQuad.q_pts Q)), (behead (ModelQuad.q_pts Q)). split=> //; by case: (ModelQuad.q_pts Q) Q3.
Qed.
Definition other c := c = ModelCell.DefaultTriangle \/ c = ModelCell.IntrepidTriangle.
Lemma other_ok c : other c -> [/\ ModelFam.is_triangle c = true, exists el, ModelFam.Bell K c = Base.Ok el /\ ModelFam.el_nodes K el = (ModelFam.jet2 K c 0 ++ ModelFam.jet2 K c 1 ++ ModelFam.jet2 K c 2 ++ [seq ModelFam.Moment K ModelFam.MNormalDerivative 1 e 0 | e <- [:: 0; 1; 2]%N])%SEQ,
  forall v, ModelFam.jet2 K c v = [:: ModelFam.PointEvaluation K (ModelFam.vertex K c v); ModelFam.PointDerivative K (ModelFam.vertex K c v) [:: 1; 0]%N; ModelFam.PointDerivative K (ModelFam.vertex K c v) [:: 0; 1]%N;
     ModelFam.PointDerivative K (ModelFam.vertex K c v) [:: 2; 0]%N; ModelFam.PointDerivative K (ModelFam.vertex K c v) [:: 1; 1]%N; ModelFam.PointDerivative K (ModelFam.vertex K c v) [:: 0; 2]%N] &
  forall e, (e < 3)%N -> exists T, @ModelGeom.get_entity_transform K c (ModelCell.DI (sdim_of c - 1)) e = Base.Ok T /\ forall x, T x = Base.Ok (ModelFam.vertex K c e)].
Proof.
case=> ->; (split; [by []|by eexists; split; reflexivity|by []|]); move=> e He; case: e He => [|[|[|e]]] // _; eexists; (split; [reflexivity|]) => x; reflexivity.
Qed.
Definition low_dnode (c : cell) (e : nat) (w : R) : dnode R :=
  [:: (w * nth 0 (nrm svd qr pop c e) 0, ModelFam.vertex K c e : seq R, [:: 1; 0]%N); (w * nth 0 (nrm svd qr pop c e) 1, ModelFam.vertex K c e : seq R, [:: 0; 1]%N)].
Definition other_is (c : cell) (l : ModelFam.node K) (nd : dnode R) : Prop :=
  match l with
  | ModelFam.PointEvaluation x => nd = at_pt (x : seq R)
  | ModelFam.PointDerivative x a => nd = der_at (x : seq R) a
  | ModelFam.Moment _ _ e _ => exists w, nd = low_dnode c e w
  | _ => False
  end.
Lemma other_node c l : other c -> node_good l -> exists f nd, [/\ bell_node svd qr pop gjp c l = Ok f, realizes 2 f nd & other_is c l nd].
Proof.
move=> Ho. have [Hc _ _ HT] := other_ok Ho. have [_ _ Hd _] := tri_ok Hc.
case: l => //= [x _|x a [H1 H2]|[] // m e k He].
- exists (point_eval (x : seq R)), (at_pt (x : seq R)). split=> //. exact: realizes_pe.
- exists (point_deriv (x : seq R) a), (der_at (x : seq R) a). split=> //. exact: realizes_pd.
- have [a [b HW]] : exists a b, facet_is c e [:: a; b] by clear -He Ho; case: Ho => ->; case: e He => [|[|[|e]]] // _; eexists; eexists; reflexivity.
  have [T [T1 T2]] := HT e He. have [N1 _ _] := nrm_ok Hsvd Hqr Hpop Hc HW. have [Q [p0 [ps [BR EQ SQ]]]] := bell_quad.
  rewrite /bell_node BR N1 T1 [bind _ _]/=. set f := ModelFunctional.IntegralMomentOfNormalDerivative _ _ _ _.
  set n := nrm svd qr pop c e in f *. pose w := (ModelQuad.q_wts Q)`_4 * (bell_weights Q)`_4. exists f, (low_dnode c e w).
  have Ef : f = mkFunctional [::] [::] [:: (ModelFam.vertex K c e : seq R, [seq ((ModelQuad.q_wts Q)`_4 * n`_i * (bell_weights Q)`_4, ModelFunctional.e_ 2 i, [::]) | i <- iota 0 2])].
  { rewrite /f /ModelFunctional.IntegralMomentOfNormalDerivative. congr mkFunctional.
    rewrite [ModelFunctional.qpts _]/= SQ /geometry_map [ModelFunctional.sd _]/= [ModelFunctional.transform _]/= Hd.
    under eq_map do rewrite T2.
    rewrite (map_comp (fun v => (ModelFam.vertex K c e : seq R, v)) (fun j => [seq ((ModelQuad.q_wts Q)`_j * n`_i * (bell_weights Q)`_j, ModelFunctional.e_ 2 i, [::]) | i <- iota 0 2]) (iota 0 5)).
    exact: build_const. }
  split=> //; last by exists w.
  rewrite Ef. split=> //.
  + move=> E HE. by rewrite /wf_functional /= HE.
  + move=> _. by rewrite /max_deriv_order /= !big_cons /= leq_max leq_max.
  + move=> h. rewrite /apply /= big_nil add0r /dval /low_dnode !big_cons !big_nil /= !addr0. rewrite -[ModelFunctional.e_ 2 0]/[:: 1; 0]%N -[ModelFunctional.e_ 2 1]/[:: 0; 1]%N /w. congr (_ * _ + _ * _); exact: mulrAC.
Qed.
(** On the default and Intrepid triangles the map of an edge is constant (C18), the
    moment node is a multiple of the normal derivative at one vertex, and the Bell
    element cannot be built. *)
Theorem C57_bell_other_triangles_refuted : forall c, c = ModelCell.DefaultTriangle \/ c = ModelCell.IntrepidTriangle ->
  bell sqrt svd qr pop gjp c = Err Base.LinAlgError.
Proof.
move=> c Ho. have [Hc [el [E1 E2]] HJ HT] := other_ok Ho. have [Hs Hx Hd _] := tri_ok Hc.
set L := (X in _ = X) in E2.
have good l : List.In l L -> node_good l by rewrite /L !HJ /=; repeat (move=> [<-|]; first by []).
have [fs [nds [F1 F2 F3 F4 F5]]] := nodes_of (fun l Hl => other_node Ho (good l Hl)).
have SL : size L = 21%N by rewrite /L !HJ.
rewrite /bell (on_set_ok R0 Hsq 5 Hx) E1. rewrite [bind _ _]/(bind (map_res _ (ModelFam.el_nodes K el)) _) E2 F1 [LHS]/(ciarlet _ fs _).
have -> : size (exps (sdim_of c) 5) = size fs by rewrite F2 SL Hd.
have P l i : List.nth_error L i = Some l -> other_is c l (nth [::] nds i) by exact: F5.
rewrite /L !HJ in P. have [w Hw] := P _ 18%N erefl. have H1 := P _ 1%N erefl. have H2 := P _ 2%N erefl. rewrite /other_is in H1 H2.
apply: (@jet_singular c 5 fs nds 18 [:: (1%N, w * nth 0 (nrm svd qr pop c 0) 0); (2%N, w * nth 0 (nrm svd qr pop c 0) 1)]) => //; rewrite ?F2 ?SL //.
- by move=> k Hk; rewrite Hd; apply: F4; rewrite SL.
- by move=> p; rewrite !inE => /orP [] /eqP ->.
- move=> f fd. rewrite Hw /low_dnode !big_cons big_nil /= H1 H2 !dval_der' // /dval !big_cons big_nil /=. by [].
Qed.
End Other.

(** the hypotheses are met: the function dual to the value at vertex 0 vanishes with
    its gradient in the middle of the opposite edge *)
Example C57_example (R : rcfType) : exists sqrt svd qr pop gjp U, [/\ sqrt_exact sqrt, @svd_correct R svd, @qr_correct R qr & pop_correct pop /\ gauss_points gjp 5] /\
  [/\ bell sqrt svd qr pop gjp ModelCell.UFCTriangle = Ok U, num_members U = 21%N & bval sqrt ModelCell.UFCTriangle 5 U 0 [:: 2%:R^-1; 2%:R^-1] = 0 /\ bder sqrt ModelCell.UFCTriangle 5 U 0 [:: 1; 0]%N [:: 2%:R^-1; 2%:R^-1] = 0].
Proof.
have [svd [qr [pop [H1 H2 H3]]]] := C20_decompositions_exist R. have [_ H4] := C23_sqrt_witness_rcf R. have [gjp [G _]] := C28_points_exist R 5.
have [U [el [E1 E2 H]]] := @C57_bell_c1 R _ H4 _ _ _ H1 H2 H3 _ G.
have [U' [nu [nds [E3 _ _ [S _ _] [[S2 _] _ _ _ _]]]]] := @C57_bell R _ H4 _ _ _ H1 H2 H3 _ G.
move: E3. rewrite E2 => -[EU]. rewrite -EU in S2. exists Num.sqrt, svd, qr, pop, gjp, U. split; first by []. split=> //; first by rewrite S2 S.
have A1 : ~ {subset [:: 0]%N <= [:: 1; 2]%N} by move/(_ 0%N); rewrite !inE /= => /(_ isT).
have A2 : List.In 0%N (SpecCell.dofs_on (ModelFam.el_ids (mcF R) el) (ModelCell.DI 0, 0%N)) by move: E1; rewrite /ModelFam.Bell /=; move=> [<-] /=; left.
have A3 : in_plane 2 (ModelCell.vertices (mcF R) ModelCell.UFCTriangle : seq (seq R)) [:: 1; 2]%N [:: 2%:R^-1; 2%:R^-1].
{ split=> //. exists (fun=> 2%:R^-1). have h2 : 2%:R^-1 + 2%:R^-1 = 1 :> R.
  { have T : 2%:R != 0 :> R by exact: num_char0. have := divff T. rewrite -[X in X / _]/(1 + 1) mulrDl mul1r. by []. }
  split; first by rewrite !big_cons big_nil addr0.
  by case=> [|[|j]] //= _; rewrite !big_cons big_nil /= ?mulr0 ?mulr1 ?addr0 ?add0r. }
have [H5 H6 _] := H 0%N [:: 1; 2]%N 0%N 0%N [:: 0]%N erefl erefl A1 0%N A2 _ A3. by [].
Qed.
Print Assumptions C57_bell.
Print Assumptions C57_bell_c1.
Print Assumptions C57_bell_reduced.
Print Assumptions C57_bell_other_triangles_refuted.
