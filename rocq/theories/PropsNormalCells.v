(** C20 on the cell classes of the module. *)
Set Warnings "-notation-overridden,-ambiguous-paths".
From mathcomp Require Import all_ssreflect all_algebra.
From Verif Require Base ModelCell.
From Verif Require Import SpecNormal ModelAffine ProofsSerPlace ModelNormal ProofsNormal PropsNormal ProofsSvd ProofsNormalCells PropsVolume FieldTac.
Set Implicit Arguments. Unset Strict Implicit. Unset Printing Implicit Defensive.
Import Order.TTheory GRing.Theory Num.Theory.
Local Open Scope ring_scope.

(** the triangle and tetrahedron classes of the module *)
Inductive solid : ModelCell.cell -> Prop :=
| so1 : solid ModelCell.DefaultTriangle | so2 : solid ModelCell.UFCTriangle | so3 : solid ModelCell.IntrepidTriangle
| so4 : solid ModelCell.DefaultTetrahedron | so5 : solid ModelCell.UFCTetrahedron | so6 : solid ModelCell.IntrepidTetrahedron.
Inductive line : ModelCell.cell -> Prop := li1 : line ModelCell.DefaultLine | li2 : line ModelCell.UFCInterval.
(** facet number [i] of [c] has the vertices [facet] *)
Definition facet_is (c : ModelCell.cell) (i : nat) (facet : seq nat) : Prop :=
  ModelCell.lookup (ModelCell.topology c) (ModelCell.DI (ModelCell.spatial_dimension c - 1)) i = Some facet.

Section C20.
Variable R : rcfType.
Add Field FFnc2 : (mc_field_theory R).
Notation arr := (seq (seq R)).
Notation verts c := (ModelCell.vertices (mcF R) c).

Lemma solid_facet c i facet : solid c -> facet_is c i facet ->
  [/\ has_facet (simplex_of R c) i facet, s_dim (simplex_of R c) = ModelCell.spatial_dimension c,
   well_conditioned (s_dim (simplex_of R c)) (s_dim (simplex_of R c)) (edges_from_first (s_dim (simplex_of R c)) (s_verts (simplex_of R c))) &
   well_conditioned (s_dim (simplex_of R c) - 1) (s_dim (simplex_of R c))
     (edges_from_first (s_dim (simplex_of R c)) [seq nth [::] (s_verts (simplex_of R c)) v | v <- facet])].
Proof.
move=> Hc Hf.
have Hsol : is_solid c by case: Hc.
have Hd : s_dim (simplex_of R c) = ModelCell.spatial_dimension c by case: Hc.
rewrite Hd -[s_verts _]/(verts c).
have K : forall V k, edges_from_first k (emb R V) = emb R (edgesZ k V) by move=> V k; apply: edges_emb.
have N : forall l V, all (fun v => v < size V)%N l -> [seq nth [::] (emb R V) v | v <- l] = emb R [seq nth [::] V v | v <- l].
{ move=> l V Hl. rewrite /emb -map_comp. apply/eq_in_map => v Hv /=. rewrite (nth_map [::]) //. exact: (allP Hl). }
have chk : [&& all (fun v => v < size (vertsZ c))%N facet, gramcheck (ModelCell.spatial_dimension c) (edgesZ (ModelCell.spatial_dimension c) (vertsZ c)),
  gramcheck (ModelCell.spatial_dimension c) (edgesZ (ModelCell.spatial_dimension c) [seq nth [::] (vertsZ c) v | v <- facet]),
  size (edgesZ (ModelCell.spatial_dimension c) (vertsZ c)) == ModelCell.spatial_dimension c, (1 < ModelCell.spatial_dimension c)%N, uniq facet,
  size facet == ModelCell.spatial_dimension c & size (vertsZ c) == (ModelCell.spatial_dimension c).+1].
{ move: Hf. rewrite /facet_is. clear -Hc. case: Hc; case: i => [|[|[|[|i]]]]; rewrite ?[ModelCell.lookup _ _ _]/(Some _) => //; by move=> [<-]; vm_compute. }
case/and5P: chk => C1 C2 C3 /eqP C4 /and4P [C5 C6 /eqP C7 /eqP C8].
rewrite vertsE ?Hsol // N // !K. split=> //.
- rewrite /has_facet Hd. split; [split|split]=> //.
  + by case: Hc.
  + rewrite /= vertsE ?Hsol //. split; first by rewrite size_map C8. move=> r. clear -Hc. by case: Hc => /=; rewrite !inE => H; repeat (case/orP: H => [/eqP -> //|H]); rewrite ?(eqP H).
  + rewrite /entity /=. by rewrite Hf.
  + exists (iota 0 (ModelCell.spatial_dimension c).+1). split=> //. by case: Hc.
  + by rewrite C8 in C1.
- have := gramcheck_ok (R := R) C2. by rewrite C4.
- have := gramcheck_ok (R := R) C3. by rewrite size_map size_behead size_map C7 subn1.
Qed.

Variables (svd : arr -> arr * seq R * arr) (qr : arr -> arr * arr) (pop : seq nat -> nat).
Hypotheses (Hsvd : svd_correct svd) (Hqr : qr_correct qr) (Hpop : pop_correct pop).

(** [Simplex.compute_normal] on every facet of every triangle or tetrahedron class *)
Theorem C20_builtin_normal c i facet : solid c -> facet_is c i facet ->
  exists n, [/\ compute_normal svd qr pop (simplex_of R c) i = Ok n,
    orthogonal_to (ModelCell.spatial_dimension c) (verts c) facet n, inner (ModelCell.spatial_dimension c) n n = 1 &
    points_outward (ModelCell.spatial_dimension c) (verts c) facet n].
Proof.
move=> Hc Hf. have [H1 H2 H3 H4] := solid_facet Hc Hf.
have := C20_simplex_normal Hsvd Hqr Hpop H1 H3 H4. by rewrite H2.
Qed.

(** intervals: the facets are the end points *)
Lemma vnorm1 (x : R) : vnorm [:: x] = `|x|.
Proof. by rewrite /vnorm /vdot /= big_cons big_nil addr0 -expr2 sqrtr_sqr. Qed.
Lemma line_value c i : line c -> (i < 2)%N -> compute_normal svd qr pop (simplex_of R c) i = Ok [:: if i == 0%N then -1 else 1].
Proof.
have n2 : `|(1 : R) + 1| = 1 + 1 by rewrite ger0_norm // addr_ge0 ?ler01.
have n2' : (1 : R) + 1 != 0 by rewrite (pnatr_eq0 R 2).
move=> Hc. case: i => [|[|//]] _; case: Hc.
- transitivity (Ok [:: ((-1 : R) - 1) / vnorm [:: (-1 : R) - 1]]); first reflexivity. rewrite vnorm1.
  have -> : (-1 : R) - 1 = - (1 + 1) by rewrite opprD. by rewrite normrN n2 mulNr divff.
- transitivity (Ok [:: ((0 : R) - 1) / vnorm [:: (0 : R) - 1]]); first reflexivity. by rewrite vnorm1 sub0r normrN normr1 divr1.
- transitivity (Ok [:: ((1 : R) - -1) / vnorm [:: (1 : R) - -1]]); first reflexivity. by rewrite vnorm1 opprK n2 divff.
- transitivity (Ok [:: ((1 : R) - 0) / vnorm [:: (1 : R) - 0]]); first reflexivity. by rewrite vnorm1 subr0 normr1 divr1.
Qed.
Theorem C20_line_normal c i facet : line c -> facet_is c i facet ->
  exists n, [/\ compute_normal svd qr pop (simplex_of R c) i = Ok n, orthogonal_to 1 (verts c) facet n, inner 1 n n = 1 & points_outward 1 (verts c) facet n].
Proof.
move=> Hc Hf. have Hi : (i < 2)%N by move: Hf; case: Hc; case: i => [|[|i]].
have Ef : facet = [:: i] by move: Hf Hi; case: Hc; case: i => [|[|i]] //; rewrite /facet_is ?[ModelCell.lookup _ _ _]/(Some _) => [] [<-].
exists [:: if i == 0%N then -1 else 1]. rewrite line_value // Ef. split=> //.
- split=> // a b. rewrite !inE => /eqP -> /eqP ->. by rewrite inner_diff subrr.
- rewrite /inner big_ord_recl big_ord0 addr0 /=. by case: ifP; rewrite ?mulrNN mulr1.
- move=> a b. rewrite !inE => /eqP -> Hb Hs. have {}Hs : (b < 2)%N by move: Hs; case: Hc.
  rewrite /inner big_ord_recl big_ord0 addr0 /=.
  have p2 : 0 < (1 : R) + 1 by rewrite addr_gt0 ?ltr01.
  case: i Hi Hb {Hf Ef} => [|[|//]] _; case: b Hs => [|[|//]] //= _ _; clear -Hc p2; case: Hc => /=;
  rewrite ?mulN1r ?opprB ?mul1r ?subr0 ?opprK ?ltr01 //.
Qed.

(** ** the UFC overrides *)
Lemma vnorm_sq d (v : seq R) : size v = d -> vnorm v ^+ 2 = inner d v v.
Proof.
move=> Hv. rewrite /vnorm (vdot_inner Hv Hv) sqr_sqrtr // sumr_ge0 // => j _. rewrite -expr2. exact: sqr_ge0.
Qed.
Lemma inner_div d t (n a : seq R) : inner d [seq x / t | x <- n] a = inner d n a / t.
Proof.
rewrite (eq_map (f2 := fun x => t^-1 * x)); last by move=> x /=; rewrite mulrC. by rewrite inner_scale mulrC.
Qed.
Lemma inner_pos d (v : seq R) : (exists2 j, (j < d)%N & nth 0 v j != 0) -> 0 < inner d v v.
Proof.
move=> [j Hj Hn]. rewrite /inner (bigD1 (Ordinal Hj)) //=. apply: ltr_spaddl.
- by rewrite -expr2 lt_neqAle eq_sym sqrf_eq0 Hn sqr_ge0.
- apply: sumr_ge0 => k _. rewrite -expr2. exact: sqr_ge0.
Qed.

(** [UFCTriangle.compute_normal] as a function of any triangle: the edge vector
    turned clockwise, of length one *)
Theorem C20_ufc_triangle_normal (S : simplex R) i a b : entity S 1 i = Ok [:: a; b] ->
  (a < size (s_verts S))%N -> (b < size (s_verts S))%N -> (forall v, v \in s_verts S -> size v = 2%N) ->
  nth [::] (s_verts S) a != nth [::] (s_verts S) b ->
  exists n, [/\ ufc_triangle_normal S i = Ok n, orthogonal_to 2 (s_verts S) [:: a; b] n, inner 2 n n = 1 &
    let t := diff 2 (nth [::] (s_verts S) b) (nth [::] (s_verts S) a) in 0 < nth 0 n 0 * nth 0 t 1 - nth 0 n 1 * nth 0 t 0].
Proof.
move=> He Ha Hb Hs Hab. rewrite /ufc_triangle_normal /compute_tangents He /= /subcomplex /= Ha Hb /=.
have Ha2 := Hs _ (mem_nth [::] Ha). have Hb2 := Hs _ (mem_nth [::] Hb). rewrite (vminus_diff Hb2 Ha2).
set t := diff 2 _ _. pose n := [:: nth 0 t 1; - nth 0 t 0]. rewrite -/n -[[:: _; _]]/[seq x / vnorm n | x <- n].
have Sn : size n = 2%N by [].
have Ht : 0 < inner 2 n n.
{ apply: inner_pos. have [H0|H0] := eqVneq (nth 0 n 0) 0; last by exists 0%N.
  exists 1%N => //. rewrite /n /= oppr_eq0. apply: contra Hab => /eqP H1. apply/eqP. apply: (@eq_from_nth _ 0); rewrite Ha2 ?Hb2 // => j.
  move: H0 H1. rewrite /n /= => /eqP H0 /eqP H1. rewrite subr_eq0 in H0. rewrite subr_eq0 in H1. case: j => [|[|//]] _; [by rewrite (eqP H1)|by rewrite (eqP H0)]. }
set nn := vnorm n. have Hnn : nn ^+ 2 = inner 2 n n by apply: vnorm_sq.
have nn0 : 0 < nn. { rewrite lt_neqAle sqrtr_ge0 andbT eq_sym -sqrf_eq0. by rewrite Hnn gt_eqF. }
have nt : inner 2 n t = 0. { rewrite /inner !big_ord_recl big_ord0 /=. rewrite addr0 mulNr mulrC subrr //. }
exists [seq x / nn | x <- n]. split=> //.
- split=> // p q. rewrite inner_div inner_diff !inE => /orP [] /eqP -> /orP [] /eqP ->; rewrite ?subrr ?mul0r //.
  + rewrite -opprB -inner_diff nt oppr0 mul0r //.
  + rewrite -inner_diff nt mul0r //.
- rewrite inner_div inner_sym inner_div -mulrA -invfM -expr2 Hnn divff // gt_eqF //.
- rewrite /= (_ : _ - _ = inner 2 n n / nn); first by apply: divr_gt0.
  rewrite /inner !big_ord_recl big_ord0 /=. move: (nth 0 _ 0 - nth 0 _ 0) (nth 0 _ 1 - nth 0 _ 1) => x y. have nz : nn != 0 by rewrite gt_eqF. ffield. repeat split; nz.
Qed.

(** so on facet 1 of the UFC triangle the "UFC consistent normal" points inward *)
Theorem C20_ufc_triangle_outward_refuted : exists n,
  [/\ cell_normal svd qr pop ModelCell.UFCTriangle 1 = Ok n, facet_is ModelCell.UFCTriangle 1 [:: 0%N; 2%N], inner 2 n n = 1 &
   forall a b, a \in [:: 0%N; 2%N] -> b \notin [:: 0%N; 2%N] -> (b < 3)%N ->
     inner 2 n (diff 2 (nth [::] (verts ModelCell.UFCTriangle) a) (nth [::] (verts ModelCell.UFCTriangle) b)) < 0].
Proof.
exists [:: 1; 0]. split=> //.
- transitivity (Ok [seq x / vnorm [:: (1 : R) - 0; - ((0 : R) - 0)] | x <- [:: (1 : R) - 0; - ((0 : R) - 0)]]); first reflexivity.
  have -> : [:: (1 : R) - 0; - ((0 : R) - 0)] = [:: 1; 0] by rewrite !subr0 oppr0.
  rewrite (_ : vnorm [:: 1; 0] = 1); first by rewrite /= divr1 mul0r.
  by rewrite /vnorm /vdot /= !big_cons big_nil /= mulr1 mulr0 !addr0 sqrtr1.
- rewrite /inner !big_ord_recl big_ord0 /= mulr1 mulr0 !addr0 //.
- move=> a b Ha Hb Hb3. have -> : b = 1%N by move: Hb Hb3; rewrite !inE; case: b => [|[|[|]]].
  rewrite inner_diff /inner !big_ord_recl !big_ord0 /= !mul1r !mul0r !addr0.
  move: Ha. rewrite !inE => /orP [] /eqP -> /=; by rewrite sub0r oppr_lt0 ltr01.
Qed.

(** [UFCTetrahedron.compute_normal] as a function of any tetrahedron: the vector
    is orthogonal to the face but has length two *)
Lemma cross_orth0 (a b : seq R) : inner 3 (cross a b) a = 0.
Proof.
rewrite /inner !big_ord_recl big_ord0 /=. rewrite -[bump 0 0]/1%N -[bump 0 1]/2%N.
move: (nth 0 a 0) (nth 0 a 1) (nth 0 a 2) (nth 0 b 0) (nth 0 b 1) (nth 0 b 2) => *. fring.
Qed.
Lemma cross_orth1 (a b : seq R) : inner 3 (cross a b) b = 0.
Proof.
rewrite /inner !big_ord_recl big_ord0 /=. rewrite -[bump 0 0]/1%N -[bump 0 1]/2%N.
move: (nth 0 a 0) (nth 0 a 1) (nth 0 a 2) (nth 0 b 0) (nth 0 b 1) (nth 0 b 2) => *. fring.
Qed.
Lemma lagrange (a b : seq R) : inner 3 (cross a b) (cross a b) = inner 3 a a * inner 3 b b - inner 3 a b * inner 3 b a.
Proof.
rewrite /inner !big_ord_recl !big_ord0 /=. rewrite -[bump 0 0]/1%N -[bump 0 1]/2%N.
move: (nth 0 a 0) (nth 0 a 1) (nth 0 a 2) (nth 0 b 0) (nth 0 b 1) (nth 0 b 2) => *. fring.
Qed.
(** edge vectors of the face with vertices a, b, c *)
Definition face_edges (S : simplex R) (a b c : nat) : seq R * seq R :=
  (diff 3 (nth [::] (s_verts S) b) (nth [::] (s_verts S) a), diff 3 (nth [::] (s_verts S) c) (nth [::] (s_verts S) a)).
Lemma face_tangents (S : simplex R) i a b c : entity S 2 i = Ok [:: a; b; c] ->
  (a < size (s_verts S))%N -> (b < size (s_verts S))%N -> (c < size (s_verts S))%N -> (forall v, v \in s_verts S -> size v = 3%N) ->
  compute_tangents S 2 i = Ok [:: (face_edges S a b c).1; (face_edges S a b c).2].
Proof.
move=> He Ha Hb Hc Hs. rewrite /compute_tangents He /= /subcomplex /= Ha Hb Hc /=.
by rewrite !(@vminus_diff _ 3) ?Hs ?mem_nth.
Qed.
Theorem C20_ufc_tetrahedron_normal (S : simplex R) i a b c : entity S 2 i = Ok [:: a; b; c] ->
  (a < size (s_verts S))%N -> (b < size (s_verts S))%N -> (c < size (s_verts S))%N -> (forall v, v \in s_verts S -> size v = 3%N) ->
  let e := face_edges S a b c in inner 3 e.1 e.1 * inner 3 e.2 e.2 != inner 3 e.1 e.2 ^+ 2 ->
  exists n, [/\ ufc_tetrahedron_normal S i = Ok n, orthogonal_to 3 (s_verts S) [:: a; b; c] n & inner 3 n n = 4%:R].
Proof.
move=> He Ha Hb Hc Hs e Hne. rewrite /ufc_tetrahedron_normal (face_tangents He) // -/e /bind /=.
pose n := cross e.1 e.2. rewrite -/n -[[:: _; _; _]]/[seq - 2%:R * x / vnorm n | x <- n].
have Ht : 0 < inner 3 n n.
{ rewrite lt_neqAle. apply/andP; split; last by apply: sumr_ge0 => j _; rewrite -expr2 sqr_ge0.
  rewrite eq_sym lagrange (inner_sym 3 e.2 e.1) -expr2 subr_eq0 //. }
set nn := vnorm n. have Hnn : nn ^+ 2 = inner 3 n n by apply: vnorm_sq.
have nn0 : nn != 0 by rewrite -sqrf_eq0 Hnn gt_eqF.
have Ein : forall v, inner 3 [seq - 2%:R * x / nn | x <- n] v = - 2%:R / nn * inner 3 n v.
{ move=> v. rewrite -inner_scale. congr (inner _ _ _). apply: eq_map => x. by rewrite mulrAC. }
exists [seq - 2%:R * x / nn | x <- n]. split=> //.
- split=> // p q Hp Hq. rewrite Ein.
  have H1 : inner 3 n (nth [::] (s_verts S) b) = inner 3 n (nth [::] (s_verts S) a).
  { apply/eqP. rewrite -subr_eq0 -inner_diff. apply/eqP. exact: cross_orth0. }
  have H2 : inner 3 n (nth [::] (s_verts S) c) = inner 3 n (nth [::] (s_verts S) a).
  { apply/eqP. rewrite -subr_eq0 -inner_diff. apply/eqP. exact: cross_orth1. }
  have K : forall p, p \in [:: a; b; c] -> inner 3 n (nth [::] (s_verts S) p) = inner 3 n (nth [::] (s_verts S) a).
  { move=> p'. rewrite !inE => /or3P [] /eqP -> //. }
  by rewrite inner_diff !K // subrr mulr0.
- rewrite Ein inner_sym Ein -Hnn mulrA -expr2 exprMn exprVn divfK ?sqrf_eq0 // sqrrN -natrX //.
Qed.

Lemma tet_face c i facet : c = ModelCell.UFCTetrahedron -> facet_is c i facet ->
  exists p q r, [/\ facet = [:: p; q; r], (p < 4)%N, (q < 4)%N, (r < 4)%N &
    let e := face_edges (simplex_of R c) p q r in inner 3 e.1 e.1 * inner 3 e.2 e.2 != inner 3 e.1 e.2 ^+ 2].
Proof.
move=> -> Hf.
have [p [q [r [Hfac Hp Hq Hr chk]]]] : exists p q r, [/\ facet = [:: p; q; r], (p < 4)%N, (q < 4)%N, (r < 4)%N &
  let V := vertsZ ModelCell.UFCTetrahedron in
  let e1 := diffZ 3 (nth [::] V q) (nth [::] V p) in let e2 := diffZ 3 (nth [::] V r) (nth [::] V p) in dotZ 3 e1 e1 * dotZ 3 e2 e2 != dotZ 3 e1 e2 ^+ 2].
{ move: Hf. rewrite /facet_is. case: i => [|[|[|[|i]]]]; rewrite ?[ModelCell.lookup _ _ _]/(Some _) => //; move=> [<-]; do 3 eexists; split; try reflexivity; by vm_compute. }
exists p, q, r. split=> //. rewrite /face_edges /fst /snd; cbv zeta beta iota. rewrite -[s_verts _]/(verts ModelCell.UFCTetrahedron) vertsE //.
have N : forall v, (v < 4)%N -> nth [::] (emb R (vertsZ ModelCell.UFCTetrahedron)) v = [seq z%:~R | z <- nth [::] (vertsZ ModelCell.UFCTetrahedron) v].
{ move=> v Hv. by rewrite (nth_map [::]). }
rewrite !N // !diff_emb !inner_emb -intrM -rmorphX /= eqr_int. exact: chk.
Qed.

(** On every face of the UFC tetrahedron [compute_normal], documented as the unit
    normal, returns a vector of length two. *)
Theorem C20_ufc_tetrahedron_unit_refuted i facet : facet_is ModelCell.UFCTetrahedron i facet ->
  exists n, [/\ cell_normal svd qr pop ModelCell.UFCTetrahedron i = Ok n, orthogonal_to 3 (verts ModelCell.UFCTetrahedron) facet n,
    inner 3 n n = 2%:R ^+ 2 & inner 3 n n != 1].
Proof.
move=> Hf. have [p [q [r [Ef Hp Hq Hr Hne]]]] := tet_face erefl Hf.
have He : entity (simplex_of R ModelCell.UFCTetrahedron) 2 i = Ok [:: p; q; r] by rewrite /entity Hf Ef.
have Hs : forall v, v \in s_verts (simplex_of R ModelCell.UFCTetrahedron) -> size v = 3%N.
{ move=> v. rewrite /= !inE => /or4P [] /eqP -> //. }
have [n [H1 H2 H3]] := C20_ufc_tetrahedron_normal He Hp Hq Hr Hs Hne. exists n. rewrite Ef H3. split=> //; first by rewrite -natrX.
by rewrite (eqr_nat R 4 1).
Qed.

(** [compute_scaled_normal]: for the classes other than the UFC tetrahedron, the
    unit normal of [compute_normal] times the volume of the facet *)
Lemma ufc_tri_normal i facet : facet_is ModelCell.UFCTriangle i facet ->
  exists n, [/\ cell_normal svd qr pop ModelCell.UFCTriangle i = Ok n, orthogonal_to 2 (verts ModelCell.UFCTriangle) facet n & inner 2 n n = 1].
Proof.
move=> Hf. have [a [b [Ef Ha Hb Hab]]] : exists a b, [/\ facet = [:: a; b], (a < 3)%N, (b < 3)%N &
  nth [::] (vertsZ ModelCell.UFCTriangle) a != nth [::] (vertsZ ModelCell.UFCTriangle) b].
{ move: Hf. rewrite /facet_is. case: i => [|[|[|i]]]; rewrite ?[ModelCell.lookup _ _ _]/(Some _) => //; move=> [<-]; do 2 eexists; split; try reflexivity; by vm_compute. }
have He : entity (simplex_of R ModelCell.UFCTriangle) 1 i = Ok [:: a; b] by rewrite /entity Hf Ef.
have Hs : forall v, v \in s_verts (simplex_of R ModelCell.UFCTriangle) -> size v = 2%N.
{ move=> v. rewrite /= !inE => /or3P [] /eqP -> //. }
have [|n [H1 H2 H3 _]] := C20_ufc_triangle_normal He Ha Hb Hs; last by exists n; rewrite Ef.
rewrite -[s_verts _]/(verts ModelCell.UFCTriangle) vertsE // /emb !(nth_map [::]) //.
apply: contra Hab => /eqP/(inj_map (@intr_inj R)) ->. exact: eqxx.
Qed.
Theorem C20_scaled_normal c i facet : solid c -> c <> ModelCell.UFCTetrahedron -> facet_is c i facet ->
  let d := ModelCell.spatial_dimension c in
  let E := mx (d - 1) d (edges_from_first d [seq nth [::] (verts c) v | v <- facet]) in
  exists v n, [/\ scaled_normal svd qr pop c i = Ok [seq x * v | x <- n], cell_normal svd qr pop c i = Ok n,
    orthogonal_to d (verts c) facet n /\ inner d n n = 1 & 0 < v /\ ((d - 1)`!%:R * v) ^+ 2 = \det (E *m E^T)].
Proof.
move=> Hc Hnt Hf d E. have [[[Hl Hd2 Hsh Hent _] [Hu Hsz Hall]] Hd Hw1 Hw2] := solid_facet Hc Hf.
rewrite Hd in Hd2 Hsh Hent Hsz Hall Hw1 Hw2. rewrite -/d in Hd Hd2 Hsh Hent Hsz Hall Hw1 Hw2.
pose F := [seq nth [::] (verts c) v | v <- facet].
have d1 : (0 < d - 1)%N by rewrite subn_gt0.
have d3 : (d - 1 <= 3)%N by rewrite /d; case: Hc.
have HF : has_shape (d - 1).+1 d F.
{ split; first by rewrite size_map Hsz subn1 prednK // ltnW. move=> r /mapP [v Hv ->]. apply: (proj2 Hsh). apply: mem_nth. rewrite (proj1 Hsh). exact: (allP Hall). }
have [v [Hvol Hv0 Hv2]] := C41_volume Hsvd d1 d3 (leq_subr 1 d) HF Hw2.
have Hn : exists n, [/\ cell_normal svd qr pop c i = Ok n, orthogonal_to d (verts c) facet n & inner d n n = 1].
{ have [Etri|Hother] : c = ModelCell.UFCTriangle \/ cell_normal svd qr pop c i = compute_normal svd qr pop (simplex_of R c) i.
  { clear -Hc Hnt. by case: Hc Hnt => Hnt; try (by right); try (by left). }
  - move: Hf. rewrite /d Etri. exact: ufc_tri_normal.
  - have [n [H1 H2 H3 _]] := C20_builtin_normal Hc Hf. exists n. by rewrite Hother. }
have [n [Hn1 Hn2 Hn3]] := Hn. exists v, n. split=> //.
rewrite /scaled_normal /volume_of_subcomplex Hd -/d Hent /= /subcomplex -[s_verts _]/(verts c) (proj1 Hsh) Hall /= -/F Hvol /= Hn1 //.
Qed.

Lemma det2 (A : 'M[R]_2) : \det A = A 0 0 * A 1 1 - A 0 1 * A 1 0.
Proof.
rewrite (expand_det_row _ 0) !big_ord_recl big_ord0 addr0 /cofactor !det_mx11 !mxE /= expr0 expr1 mul1r mulN1r mulrN.
congr (_ * _ - _ * _); congr (A _ _); exact: val_inj.
Qed.
(** for the UFC tetrahedron the two factors of two cancel: minus the cross product
    of the first two edge vectors of the face, twice as long as the face's area *)
Theorem C20_ufc_tetrahedron_scaled_normal i facet p q r : facet_is ModelCell.UFCTetrahedron i facet -> facet = [:: p; q; r] ->
  let e := face_edges (simplex_of R ModelCell.UFCTetrahedron) p q r in
  scaled_normal svd qr pop ModelCell.UFCTetrahedron i = Ok [seq - x | x <- cross e.1 e.2].
Proof.
move=> Hf Ef e. have [p' [q' [r' [Ef' Hp Hq Hr Hne]]]] := tet_face erefl Hf.
have Epqr : [:: p; q; r] = [:: p'; q'; r'] by rewrite -Ef. case: Epqr => ? ? ?; subst p' q' r'. rewrite -/e in Hne.
have [[[Hl Hd2 Hsh Hent _] [Hu Hsz Hall]] Hd Hw1 Hw2] := solid_facet so5 Hf.
rewrite Hd in Hd2 Hsh Hent Hsz Hall Hw1 Hw2. rewrite -[ModelCell.spatial_dimension _]/3%N in Hd Hd2 Hsh Hent Hsz Hall Hw1 Hw2.
pose F := [seq nth [::] (verts ModelCell.UFCTetrahedron) v | v <- facet].
have HF : has_shape 3 3 F.
{ split; first by rewrite size_map Hsz. move=> x /mapP [v Hv ->]. apply: (proj2 Hsh). apply: mem_nth. rewrite (proj1 Hsh). exact: (allP Hall). }
have [v [Hvol Hv0 Hv2]] := @C41_volume R svd Hsvd 2 3 F isT isT isT HF Hw2.
have He : entity (simplex_of R ModelCell.UFCTetrahedron) 2 i = Ok [:: p; q; r] by rewrite /entity Hf Ef.
have Hs : forall v, v \in s_verts (simplex_of R ModelCell.UFCTetrahedron) -> size v = 3%N.
{ move=> x. rewrite /= !inE => /or4P [] /eqP -> //. }
rewrite /scaled_normal /volume_of_subcomplex Hd -[(3 - 1)%N]/2%N Hent /= /subcomplex -[s_verts _]/(verts ModelCell.UFCTetrahedron) (proj1 Hsh) Hall -/F /bind Hvol.
rewrite /cell_normal /ufc_tetrahedron_normal (face_tangents He Hp Hq Hr Hs) -/e /bind.
set n := cross e.1 e.2. set nn := vnorm n. rewrite -map_comp. congr (Ok _). apply: eq_map => x /=.
have Hnn : nn ^+ 2 = inner 3 n n by apply: vnorm_sq.
have Ht : 0 < inner 3 n n.
{ rewrite lt_neqAle. apply/andP; split; last by apply: sumr_ge0 => j _; rewrite -expr2 sqr_ge0.
  rewrite eq_sym lagrange (inner_sym 3 e.2 e.1) -expr2 subr_eq0 //. }
have nn0 : nn != 0 by rewrite -sqrf_eq0 Hnn gt_eqF.
have E2 : 2%:R * v = nn.
{ apply/eqP. rewrite -(@eqr_expn2 _ 2) ?mulr_ge0 ?ler0n ?sqrtr_ge0 ?ltW //. apply/eqP. rewrite [LHS]Hv2 Hnn lagrange.
  rewrite det2.
  have EE : forall a b : 'I_2, (mx 2 3 (edges_from_first 3 F) *m (mx 2 3 (edges_from_first 3 F))^T) a b = inner 3 (nth [::] (edges_from_first 3 F) a) (nth [::] (edges_from_first 3 F) b).
  { move=> a b. rewrite mxE. apply: eq_bigr => k _. by rewrite !mxE. }
  rewrite !EE /F Ef /=. by []. }
by rewrite !mulNr (mulrAC 2%:R) -mulrA (mulrC x) mulrA [_ * v]mulrAC E2 -mulrA divff // mulr1 mulrC || (rewrite !mulNr; congr (- _); rewrite -(mulrAC _ v) (mulrAC _ x) E2 mulrAC divff // mul1r).
Qed.

(** Edge tangents: from the first to the second vertex of the edge; the normalized
    tangent has length one and the same direction.  [compute_tangents] lists the
    vectors from the first vertex of the entity to its other vertices. *)
Theorem C20_edge_tangent (S : simplex R) e a b d : entity S 1 e = Ok [:: a; b] ->
  (a < size (s_verts S))%N -> (b < size (s_verts S))%N -> (forall v, v \in s_verts S -> size v = d) ->
  nth [::] (s_verts S) a != nth [::] (s_verts S) b ->
  exists t n l, [/\ compute_edge_tangent S e = Ok t, size t = d,
    forall j, (j < d)%N -> nth 0 (nth [::] (s_verts S) a) j + nth 0 t j = nth 0 (nth [::] (s_verts S) b) j &
    [/\ compute_normalized_edge_tangent S e = Ok n, inner d n n = 1, 0 < l & t = [seq l * x | x <- n]]].
Proof.
move=> He Ha Hb Hs Hab. rewrite /compute_normalized_edge_tangent /compute_edge_tangent He /= /subcomplex /= Ha Hb /=.
have Ha2 := Hs _ (mem_nth [::] Ha). have Hb2 := Hs _ (mem_nth [::] Hb). rewrite (vminus_diff Hb2 Ha2).
set t := diff d _ _. have St : size t = d by rewrite size_mkseq.
have Et j : (j < d)%N -> nth 0 t j = nth 0 (nth [::] (s_verts S) b) j - nth 0 (nth [::] (s_verts S) a) j by move=> Hj; rewrite nth_mkseq.
have Ht : 0 < inner d t t.
{ apply: inner_pos. case: (boolP (all (fun j => nth 0 t j == 0) (iota 0 d))) => [/allP H|/allPn [j]]; last by rewrite mem_iota /= => Hj Hn; exists j.
  case/eqP: Hab. apply: (@eq_from_nth _ 0) => [|j]; rewrite Ha2 ?Hb2 // => Hj. have Hj' : j \in iota 0 d by rewrite mem_iota.
  have := H _ Hj'. rewrite Et // subr_eq0 => /eqP. by move=> ->. }
have Hnn : vnorm t ^+ 2 = inner d t t by apply: vnorm_sq.
have nn0 : 0 < vnorm t. { rewrite lt_neqAle sqrtr_ge0 andbT eq_sym -sqrf_eq0. by rewrite Hnn gt_eqF. }
exists t, [seq x / vnorm t | x <- t], (vnorm t). split=> //.
- move=> j Hj. by rewrite Et // addrC subrK.
- split=> //.
  + rewrite inner_div inner_sym inner_div -mulrA -invfM -expr2 Hnn divff // gt_eqF //.
  + rewrite -map_comp -[LHS]map_id. apply: eq_map => x /=. by rewrite mulrC divfK // gt_eqF.
Qed.
Theorem C20_tangents (S : simplex R) dim i a l d : entity S dim i = Ok (a :: l) ->
  all (fun v => v < size (s_verts S))%N (a :: l) -> (forall v, v \in s_verts S -> size v = d) ->
  exists ts, [/\ compute_tangents S dim i = Ok ts, size ts = size l & forall k j, (k < size l)%N -> (j < d)%N ->
    nth 0 (nth [::] (s_verts S) a) j + nth 0 (nth [::] ts k) j = nth 0 (nth [::] (s_verts S) (nth 0%N l k)) j].
Proof.
move=> He Hl Hs. rewrite /compute_tangents He /= /subcomplex Hl /=. eexists. split; first by []; first by rewrite !size_map.
case/andP: Hl => Ha /allP Hl. have Ha2 := Hs _ (mem_nth [::] Ha).
move=> k j Hk Hj. rewrite (nth_map [::]) ?size_map // (nth_map 0%N) // (vminus_diff _ Ha2); last by apply: Hs; apply: mem_nth; apply: Hl; exact: mem_nth.
by rewrite nth_mkseq // addrC subrK.
Qed.
(** every edge of the built-in triangles and tetrahedra meets the hypotheses *)
Example C20_edge_tangent_cells c e l : c = ModelCell.UFCTriangle \/ c = ModelCell.UFCTetrahedron ->
  entity (simplex_of R c) 1 e = Ok l -> exists a b, [/\ l = [:: a; b], (a < size (verts c))%N, (b < size (verts c))%N & nth [::] (verts c) a != nth [::] (verts c) b].
Proof.
case=> ->.
- case: e => [|[|[|e]]]; rewrite /entity /= => -[] // <-; do 2 eexists; split; try reflexivity; apply/eqP => -[]; by [move/eqP; rewrite ?oner_eq0 1?eq_sym ?oner_eq0|move=> _ /eqP; rewrite ?oner_eq0 1?eq_sym ?oner_eq0].
- case: e => [|[|[|[|[|[|e]]]]]]; rewrite /entity /= => -[] // <-; do 2 eexists; split; try reflexivity; apply/eqP => -[].
  all: try (by move/eqP; rewrite ?oner_eq0 1?eq_sym ?oner_eq0).
  all: try (by move=> _ /eqP; rewrite ?oner_eq0 1?eq_sym ?oner_eq0).
  all: try (by move=> _ _ /eqP; rewrite ?oner_eq0 1?eq_sym ?oner_eq0).
Qed.
End C20.
