(** C53: the discontinuous Taylor element, from the constructor call to the basis
    functions. *)
Set Warnings "-notation-overridden,-ambiguous-paths".
From mathcomp Require Import all_ssreflect all_algebra zify.
From Verif Require Base ModelIndex SpecIndex PropsIndex ModelCell ModelFam SpecFam PropsFam ModelFunctional PropsFunctional ModelQuad.
From Verif Require Import FieldTac SpecJacobi ProofsDmatsReg PropsExpansion ModelDual SpecDual ProofsDual SpecPoly ModelSpace ProofsLagLat ProofsSpace ProofsSpaceCell ProofsElem SpecJet ProofsJet
  SpecExpansion SpecQuad ProofsGaussReal ModelExpansion ModelDmats ModelAffine ModelRT ModelTaylor SpecTaylor ProofsTaylor PropsQuadPos.
Set Implicit Arguments. Unset Strict Implicit. Unset Printing Implicit Defensive.
Import Order.TTheory GRing.Theory Num.Theory.
Local Open Scope ring_scope.

Section Bary.
Variable F : fieldType.
Hypothesis F0 : char_zero F.
Add Field FFtf : (mc_field_theory F).
Lemma baryE c : SpecFam.simplex c -> ModelFam.barycenter (mcF F) c = center F c.
Proof.
have T2 : 1 + 1 != 0 :> F by have := F0 (m := 2%N) isT.
have T3 : 1 + (1 + 1) != 0 :> F by have := F0 (m := 3%N) isT.
have T4 : 1 + (1 + (1 + 1)) != 0 :> F by have := F0 (m := 4%N) isT.
case: c => //= _; rewrite /center /mkseq /= !big_cons !big_nil /= /ModelFam.barycenter /= /addF /mulF /divF /subF /oneF /zeroF /oppF.
all: rewrite -?[2%:R]/(1 + 1 : F) -?[3%:R]/(1 + (1 + 1) : F) -?[4%:R]/(1 + (1 + (1 + 1)) : F).
1-2: congr [:: _].
3-5: congr [:: _; _].
9-11: congr [:: _; _; _].
all: refine (_ : @eq F _ _); ffield; repeat split; nz.
Qed.
End Bary.

Section C53.
Variable R : rcfType.
Notation K := (mcF R).
Let R0 : char_zero R := num_char0 R.

Variable sqrt : R -> R.
Hypothesis Hsq : sqrt_exact sqrt.
Variable gjp : nat -> nat -> nat -> seq R.
Notation pt := [eqType of seq R].

(** derivative indices *)
Lemma sdS c : SpecFam.simplex c -> exists d, sdim_of c = d.+1.
Proof. move=> Hc. have := proj2 (proj2 (simplex_dim Hc)). rewrite -/(sdim_of c). case: (sdim_of c) => // d _. by exists d. Qed.
Definition alphas (sd n : nat) : seq (seq nat) := flatten [seq ModelIndex.mis sd k | k <- iota 1 n].
Lemma InE (T : eqType) (x : T) l : List.In x l <-> x \in l.
Proof. elim: l => [|y l IH] //=. rewrite inE. split=> [[->|/IH ->]|/orP [/eqP ->|/IH]]; rewrite ?eqxx ?orbT //; by [left|right]. Qed.
Lemma uniqP (T : eqType) (l : seq T) : List.NoDup l -> uniq l.
Proof. elim=> [|x l' H _ IH] //=. rewrite IH andbT. apply/negP => /InE. exact: H. Qed.
Lemma nsumE' (a : seq nat) : Base.nsum a = sumn a.
Proof. by elim: a => [|x a IH] //=; rewrite -IH. Qed.
Lemma mis_mem sd k a : (0 < sd)%N -> (a \in ModelIndex.mis sd k) = (size a == sd) && (sumn a == k).
Proof.
move=> /ssrnat.ltP Hs. have [H _] := @PropsIndex.C02_mis_exact sd k Hs. have := H a. rewrite /SpecIndex.multi_index nsumE' => {}H.
apply/idP/andP => [/InE /H [E1 E2]|[/eqP E1 /eqP E2]]; last by apply/InE/H.
split; apply/eqP => //. 
Qed.
Lemma mis_uniq sd k : (0 < sd)%N -> uniq (ModelIndex.mis sd k).
Proof. move=> /ssrnat.ltP Hs. have [_ [H _]] := @PropsIndex.C02_mis_exact sd k Hs. exact: uniqP. Qed.
Lemma alphas_mem sd n a : (0 < sd)%N -> (a \in alphas sd n) = [&& size a == sd, (0 < sumn a)%N & (sumn a <= n)%N].
Proof.
move=> Hs. apply/flattenP/and3P => [[l /mapP [k Hk ->]]|[H1 H2 H3]].
- rewrite mis_mem // => /andP [-> /eqP ->]. move: Hk. rewrite mem_iota => Hk. by split=> //; lia.
- exists (ModelIndex.mis sd (sumn a)); last by rewrite mis_mem // H1 eqxx. apply/mapP. exists (sumn a) => //. rewrite mem_iota. lia.
Qed.
Lemma alphas_S sd n : alphas sd n.+1 = alphas sd n ++ ModelIndex.mis sd n.+1.
Proof. by rewrite /alphas -(addn1 n) iotaD map_cat flatten_cat /= cats0 add1n ?addn1. Qed.
Lemma alphas_uniq sd n : (0 < sd)%N -> uniq (alphas sd n).
Proof.
move=> Hs. elim: n => [|n IH] //. rewrite alphas_S cat_uniq IH mis_uniq // andbT /=. apply/hasPn => a. rewrite mis_mem // => /andP [_ /eqP E]. rewrite /= alphas_mem // E.
by rewrite ltnn !andbF.
Qed.
Lemma alphas_perm sd n : (0 < sd)%N -> perm_eq (alphas sd n) [seq a <- exps sd n | (0 < sumn a)%N].
Proof.
move=> Hs. apply: uniq_perm; first exact: alphas_uniq; first exact/filter_uniq/exps_uniq.
move=> a. rewrite mem_filter exps_mem alphas_mem //. by rewrite andbCA.
Qed.
Lemma alphas_sorted sd n : (0 < sd)%N -> sorted (fun a b => sumn a <= sumn b)%N (alphas sd n).
Proof.
move=> Hs. have T : transitive (fun a b : seq nat => sumn a <= sumn b)%N by move=> b a c; exact: leq_trans.
elim: n => [|n IH] //. rewrite alphas_S sorted_pairwise // pairwise_cat -!sorted_pairwise // IH /=. apply/andP; split.
- apply/allrelP => a b. rewrite alphas_mem // mis_mem // => /and3P [_ _ H] /andP [_ /eqP ->]. exact: leqW.
- rewrite sorted_pairwise //. apply/(pairwiseP [::]) => i j Hi Hj _. have := mem_nth [::] Hi. have := mem_nth [::] Hj. by rewrite !mis_mem // => /andP [_ /eqP ->] /andP [_ /eqP ->].
Qed.
(** the nodes *)
Definition moment_node (r : ModelQuad.rule R) : dnode R := [seq (xw.2, xw.1, [::]) | xw <- zip (ModelQuad.q_pts r) (ModelQuad.q_wts r)].
Lemma dval_moment r f fd : dval (moment_node r) f fd = ModelQuad.integrate r f.
Proof. by rewrite /dval /moment_node big_map. Qed.
Lemma moment_ok c n r : size (ModelQuad.q_pts r) = size (ModelQuad.q_wts r) -> uniq (ModelQuad.q_pts r) ->
  ModelQuad.make_quadrature gjp (quad_cell R c) (2 * (n + 1)) = Base.Ok r -> forall d,
  exists f, taylor_node gjp c n (ModelFam.Moment K ModelFam.MPlain d 0 0) = Ok f /\ realizes (sdim_of c) f (moment_node r).
Proof.
move=> Hs Hu Er d. rewrite /taylor_node Er /ModelFunctional.IntegralMoment /= size_nseq Hs ltnn /=. eexists. split; first reflexivity.
set items := [seq _ | i <- iota 0 _].
have Ei : items = [seq (xw.1, [:: (xw.2 * 1, [::])]) | xw <- zip (ModelQuad.q_pts r) (ModelQuad.q_wts r)].
{ have Sz : size (zip (ModelQuad.q_pts r) (ModelQuad.q_wts r)) = size (ModelQuad.q_wts r) by rewrite size_zip Hs minnn.
  rewrite /items ?Hs. apply: (@eq_from_nth _ ([::], [::])); first by rewrite !size_map Sz size_iota.
  move=> i; rewrite size_map size_iota => Hi.
  rewrite (nth_map 0%N) ?size_iota // nth_iota // add0n (nth_map ([::], 0)) ?size_zip ?Hs ?minnn // nth_zip //=. by rewrite nth_nseq Hi. }
have Eb : ModelFunctional.build items = items.
{ apply: PropsFunctional.build_uniq. rewrite Ei -map_comp. rewrite (_ : map _ _ = unzip1 (zip (ModelQuad.q_pts r) (ModelQuad.q_wts r))) //. by rewrite unzip1_zip // Hs. }
rewrite Eb. split=> //.
- move=> E HE. rewrite /wf_functional /= !andbT. apply/andP; split.
  + rewrite Ei -map_comp. rewrite (_ : map _ _ = unzip1 (zip (ModelQuad.q_pts r) (ModelQuad.q_wts r))) //. by rewrite unzip1_zip // Hs.
  + by rewrite Ei; apply/allP => pw /mapP [xw _ ->].
- move=> f. rewrite /apply /= big_nil addr0 Ei big_map dval_moment /ModelQuad.integrate. apply: eq_bigr => xw _. by rewrite big_seq1 /= mulr1.
Qed.
Definition tnode (r : ModelQuad.rule R) (l : ModelFam.node K) : dnode R :=
  match l with ModelFam.PointDerivative x a => der_at (x : seq R) a | _ => moment_node r end.
Lemma size_pos sd n : (0 < sd)%N -> (size [seq a <- exps sd n | (0 < sumn a)%N]).+1 = size (exps sd n).
Proof.
move=> Hs. rewrite size_filter -[RHS](count_predC (fun a => 0 < sumn a)%N) -addn1. congr addn.
have Z0 a : size a = sd -> sumn a = 0%N -> a = nseq sd 0%N.
{ move=> <- {Hs sd}. elim: a => [|x a IH] //= /eqP. rewrite addn_eq0 => /andP [/eqP -> /eqP /IH <-]. by []. }
have M0 : nseq sd 0%N \in exps sd n by rewrite exps_mem size_nseq eqxx sumn_nseq.
have C1 : count_mem (nseq sd 0%N) (exps sd n) = 1%N by rewrite count_uniq_mem ?exps_uniq // M0.
apply: (etrans (esym C1)). apply: eq_in_count => a. rewrite exps_mem => /andP [/eqP Sa _] /=. rewrite -eqn0Ngt. apply/eqP/eqP => [->|H]; [by rewrite sumn_nseq|exact: Z0].
Qed.
(** C53.  The discontinuous Taylor element of every degree from 1 on can be built
    on every simplex cell; its basis is dual to the listed nodes. *)
Theorem C53_taylor : forall c n, SpecFam.simplex c -> (0 < n)%N -> gauss_points gjp (2 * (n + 1)) ->
  exists U nds, [/\ taylor sqrt gjp c n = Ok U, taylor_spec c n nds & jet_nodal sqrt c n U nds].
Proof.
move=> c n Hc n0 G. have [d Ed] := sdS Hc. have d0 : (0 < sdim_of c)%N by rewrite Ed.
have [||r [Er Sr Ur Wr Ir]] := @cell_rule R gjp (2 * (n + 1)) _ G c n Hc; [lia|rewrite -mul2n; lia|].
have [_ [el [Eel [Hel _]]]] := PropsFam.C34_taylor_p0 K c n Hc.
have EL : ModelFam.el_nodes K el = ModelFam.Moment K ModelFam.MPlain (sdim_of c) 0 0 :: [seq ModelFam.PointDerivative K (center R c) a | a <- alphas (sdim_of c) n].
{ move: Eel. rewrite /ModelFam.DiscontinuousTaylor. case: PeanoNat.Nat.eqb_spec => [E|_]; first by rewrite E in n0.
  rewrite /ModelFam.on_members. case: (ModelFam.polynomial_dimension c n) => //= N. case: (ModelCell.dset_in _ _ _ _) => //= ids [<-] /=. congr cons.
  rewrite (baryE R0 Hc) -[ModelCell.spatial_dimension c]/(sdim_of c).
  have -> : Base.range 1 (n + 1)%coq_nat = iota 1 n. { rewrite /Base.range (_ : (_ - _)%coq_nat = n); last by lia. by elim: n 1%N {n0 G Er Ir} => [|k IH] a //=; rewrite IH. }
  rewrite /alphas. elim: (iota 1 n) => [|k l IH] //=. by rewrite IH map_cat. }
have Z0 a : size a = sdim_of c -> sumn a = 0%N -> a = nseq (sdim_of c) 0%N.
{ move=> <- {Ir EL}. elim: a => [|x a IH] //= /eqP. rewrite addn_eq0 => /andP [/eqP -> /eqP /IH <-]. by []. }
have Nd : (size (alphas (sdim_of c) n)).+1 = size (exps (sdim_of c) n) by rewrite (perm_size (alphas_perm n d0)) size_pos.
have SE : size (ModelFam.el_nodes K el) = size (exps (sdim_of c) n) by rewrite EL /= size_map Nd.
pose nds := map (tnode r) (ModelFam.el_nodes K el).
have End : nds = moment_node r :: [seq der_at (center R c) a | a <- alphas (sdim_of c) n] by rewrite /nds EL /= -map_comp.
have [fs [F1 F2 F3]] : exists fs, [/\ map_res (taylor_node gjp c n) (ModelFam.el_nodes K el) = Ok fs, size fs = size (ModelFam.el_nodes K el) &
    forall i, (i < size (ModelFam.el_nodes K el))%N -> realizes (sdim_of c) (nth (mkFunctional [::] [::] [::]) fs i) (nth [::] nds i)].
{ rewrite /nds. have : forall l, l \in behead nds -> True by []. move=> _.
  have Hok l : List.In l (ModelFam.el_nodes K el) -> exists f, taylor_node gjp c n l = Ok f /\ realizes (sdim_of c) f (tnode r l).
  { rewrite EL => -[<-|/List.in_map_iff [a [<- Ha]]]; first exact: moment_ok.
    eexists. split; [reflexivity|]. move/InE: Ha. rewrite alphas_mem // => /and3P [/eqP Sa Pa _]. exact: realizes_pd. }
  elim: (ModelFam.el_nodes K el) Hok => [|l L IH] Hok; first by exists [::].
  have [|fs [E1 E2 E3]] := IH; first by move=> l' Hl; apply: Hok; right. have [f [Ef Rf]] := Hok l (or_introl erefl).
  exists (f :: fs). rewrite /= Ef /= E1. split=> //=; first by rewrite E2. case=> [|i] //=. exact: E3. }
have [||||U [H1 H2]] := jet_element R0 Hsq (c := c) (n := n) (nodes := fs) (nds := nds) Hc.
- by rewrite F2 SE.
- by rewrite F2 size_map.
- move=> i Hi. apply: F3. by rewrite -F2.
- move=> cf H. have H' N : N \in nds -> dval N (pval (sdim_of c) n cf) (pder (sdim_of c) n cf) = 0 by move=> HN; rewrite -(nth_index [::] HN); apply: H; rewrite index_mem.
  have Hd a : a \in exps (sdim_of c) n -> (0 < sumn a)%N -> cf a = 0.
  { apply: (taylor_coefs R0 (x := center R c)) => {}a Ha Pa. have := H' (der_at (center R c) a). rewrite End inE. rewrite map_f ?orbT; last first.
    { rewrite (perm_mem (alphas_perm n d0)) mem_filter Pa. exact: Ha. }
    have Ne : a != [::] by case: (a) Pa.
    rewrite /dval big_seq1 /= (negbTE Ne) mul1r. by apply. }
  move=> a Ha. case: (posnP (sumn a)) => [Sa|]; last exact: Hd.
  have -> : a = nseq (sdim_of c) 0%N. { apply: Z0 => //. by move: Ha; rewrite exps_mem => /andP [/eqP]. }
  have := H' (moment_node r). rewrite End mem_head dval_moment => /(_ isT). rewrite /ModelQuad.integrate.
  under eq_bigr do rewrite (const_pval _ Hd). rewrite -mulr_suml. move/eqP. rewrite mulf_eq0. case/orP => /eqP // Z. case/eqP: Wr. rewrite -[RHS]Z. by rewrite -(big_map snd xpredT id) -/(unzip2 _) unzip2_zip // Sr.
exists U, nds. split=> //.
- rewrite /taylor Eel (on_set_ok R0 Hsq n Hc) /= F1 /=. rewrite -SE -F2. exact: H1.
- exists (moment_node r), (alphas (sdim_of c) n). split=> //; [|by move=> cf fd; rewrite dval_moment|exact: alphas_perm|exact: alphas_sorted].
  by move=> t /mapP [xw _ ->].
Qed.
(** The first basis function is the constant 1 / volume, the others have mean 0. *)
Theorem C53_mean : forall c n, SpecFam.simplex c -> (0 < n)%N -> gauss_points gjp (2 * (n + 1)) ->
  exists U, [/\ taylor sqrt gjp c n = Ok U, num_members U = size (exps (sdim_of c) n),
    forall x, bval sqrt c n U 0 x * cell_integral c 0 (fun=> 1) = 1 &
    forall j, (0 < j < num_members U)%N -> exists cf, (forall x, bval sqrt c n U j x = pval (sdim_of c) n cf x) /\ cell_integral c n cf = 0].
Proof.
move=> c n Hc n0 G. have [U [nds [HU [w [al [End Hw Hm Hp Hs]]] [[H1 H1'] H2 H3 _ _]]]] := C53_taylor Hc n0 G. exists U.
have Sn : size nds = size (exps (sdim_of c) n).
{ have [d Ed] := sdS Hc. have d0 : (0 < sdim_of c)%N by rewrite Ed. rewrite End /= size_map (perm_size Hp). exact: size_pos. }
have [||r [Er Sr Ur Wr Ir]] := @cell_rule R gjp (2 * (n + 1)) _ G c n Hc; [lia|rewrite -mul2n; lia|].
have [||r' [Er' _ _ _ Ir']] := @cell_rule R gjp (2 * (n + 1)) _ G c 0 Hc; [lia|rewrite -mul2n; lia|].
move: Er'. rewrite Er => -[Err]. subst r'.
have V : cell_integral c 0 (fun=> 1) = \sum_(t <- ModelQuad.q_wts r) t.
{ rewrite -Ir' /ModelQuad.integrate. rewrite -[in RHS](unzip2_zip (s := ModelQuad.q_pts r) (t := ModelQuad.q_wts r)) ?Sr // /unzip2 big_map. apply: eq_bigr => z _. rewrite const_pval ?mulr1 // => a. rewrite exps_mem => /andP [_]. by case: (sumn a). }
have Wn f fd fd' : dval w f fd = dval w f fd' by rewrite /dval; apply: eq_big_seq => t Ht; rewrite (Hw t Ht) eqxx.
have Dx j cf : (forall x, bval sqrt c n U j x = pval (sdim_of c) n cf x) -> (forall al x, size al = sdim_of c -> bder sqrt c n U j al x = pder (sdim_of c) n cf al x) ->
  forall i, (i < size nds)%N -> dval (nth [::] nds i) (bval sqrt c n U j) (bder sqrt c n U j) = dval (nth [::] nds i) (pval (sdim_of c) n cf) (pder (sdim_of c) n cf).
{ move=> E1 E2 i Hi. have : nth [::] nds i \in nds by exact: mem_nth. rewrite {2}End inE => /orP [/eqP ->|/mapP [a Ha ->]].
  - rewrite (Wn _ _ (pder (sdim_of c) n cf)). rewrite /dval. apply: eq_big_seq => t Ht. by rewrite (Hw t Ht) eqxx E1.
  - rewrite /dval !big_seq1 /= E1 E2 //. move: Ha. rewrite (perm_mem Hp) mem_filter exps_mem => /and3P [_ /eqP]. by []. }
split=> //; first by rewrite H1.
- move=> x. have N0 : (0 < size nds)%N by rewrite End. have [cf [E1 E2]] := H2 0%N N0. rewrite E1 V.
  have D i : (i < size nds)%N -> dval (nth [::] nds i) (pval (sdim_of c) n cf) (pder (sdim_of c) n cf) = (i == 0)%N%:R.
  { move=> Hi. by rewrite -(H3 i 0%N Hi N0); apply/esym/Dx. }
  have Hd a : a \in exps (sdim_of c) n -> (0 < sumn a)%N -> cf a = 0.
  { apply: (taylor_coefs R0 (x := center R c)) => {}a Ha Pa.
    have Hal : a \in al by rewrite (perm_mem Hp) mem_filter Pa.
    have := D (index a al).+1. rewrite End /= size_map ltnS index_mem (nth_map [::]) ?index_mem // nth_index // => /(_ Hal). rewrite /dval big_seq1 /=.
    have Ne : a != [::] by case: (a) Pa. by rewrite (negbTE Ne) mul1r. }
  have := D 0%N N0. rewrite End /= Hm -Ir /ModelQuad.integrate.
  under eq_bigr do rewrite (const_pval _ Hd). rewrite (const_pval _ Hd) -mulr_suml mulrC. by rewrite -(big_map snd xpredT id) -/(unzip2 _) unzip2_zip // Sr.
- move=> j /andP [j0 Hj]. rewrite H1 in Hj. have [cf [E1 E2]] := H2 j Hj. exists cf. split=> //.
  have N0 : (0 < size nds)%N by rewrite End. have Ej : (0%N == j) = false by case: (j) j0.
  rewrite -(Hm cf (pder (sdim_of c) n cf)). have := Dx j cf E1 E2 0%N N0. rewrite (H3 0%N j N0 Hj) Ej End /= => <-. by [].
Qed.
Theorem C53_degree_zero : forall c, SpecFam.simplex c -> taylor sqrt gjp c 0 = discontinuous_lagrange sqrt c 0.
Proof. move=> c Hc. rewrite /taylor /discontinuous_lagrange /element_of -[ModelFam.DiscontinuousTaylor K c 0]/(ModelFam.P0 K c) -[ModelFam.DiscontinuousLagrange K c 0]/(ModelFam.P0 K c).
rewrite (on_set_ok R0 Hsq 0 Hc) /ModelFam.P0. by case: (ModelFam.on_members c 0 1).
Qed.
End C53.
(** Instance: the element of degree 2 on the interval (-1, 1). *)
Example C53_example : forall R : rcfType, exists sqrt gjp U, [/\ sqrt_exact sqrt, gauss_points gjp 6, @taylor R sqrt gjp ModelCell.DefaultLine 2 = Ok U,
  num_members U = 3%N & forall x, bval sqrt ModelCell.DefaultLine 2 U 0 x * 2%:R = 1].
Proof.
move=> R. have [_ Hsq] := C23_sqrt_witness_rcf R. have [gjp [G _]] := C28_points_exist R 6.
have [U [H1 H2 H3 _]] := C53_mean Hsq (c := ModelCell.DefaultLine) (n := 2) I isT G. exists Num.sqrt, gjp, U. split=> // x.
have := H3 x. rewrite (_ : cell_integral _ _ _ = 2%:R) //. rewrite /cell_integral /= /int_interval /vtx /= poly_def big_ord1 scale1r.
rewrite (@ProofsOrtho.integral_Xn R (num_char0 R) _ _ 0) !expr1 divr1 /oppF /oneF opprK. by [].
Qed.
