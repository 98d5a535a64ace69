(** C20, reference normals: unit in the infinity norm, orthogonal to the facet and
    outward, on simplices, products and cubes. *)
Set Warnings "-notation-overridden,-ambiguous-paths".
From mathcomp Require Import all_ssreflect all_algebra.
From Verif Require Base ModelCell.
From Verif Require Import SpecNormal ModelAffine ProofsSerPlace ModelNormal ProofsNormal PropsNormal ProofsSvd ProofsNormalCells PropsVolume PropsNormalCells.
Set Implicit Arguments. Unset Strict Implicit. Unset Printing Implicit Defensive.
Import Order.TTheory GRing.Theory Num.Theory.
Local Open Scope ring_scope.

Section Ref.
Variable R : rcfType.
Notation arr := (seq (seq R)).
Notation verts c := (ModelCell.vertices (mcF R) c).
(** the largest absolute value of a coordinate is one *)
Definition inf_unit (n : seq R) : Prop := (forall x, x \in n -> `|x| <= 1) /\ exists2 x, x \in n & `|x| = 1.

Lemma norm_inf_ge (n : seq R) x : x \in n -> `|x| <= norm_inf n.
Proof.
rewrite /norm_inf. elim: n => //= y n IH. rewrite inE big_cons le_maxr => /orP [/eqP ->|/IH ->]; by rewrite ?lexx ?orbT.
Qed.
Lemma norm_inf_in (n : seq R) : norm_inf n = 0 \/ exists2 x, x \in n & `|x| = norm_inf n.
Proof.
rewrite /norm_inf. elim: n => [|y n IH]; first by left; rewrite big_nil. rewrite big_cons.
case: (leP `|y| (\big[Num.max/0]_(x <- n) `|x|)) => H.
- case: IH => [|[x Hx Ex]]; [by left|right; exists x => //]. by rewrite inE Hx orbT.
- right. exists y => //. exact: mem_head.
Qed.
Lemma normalize_inf d (n : seq R) : size n = d -> inner d n n = 1 -> 0 < norm_inf n /\ inf_unit [seq x / norm_inf n | x <- n].
Proof.
move=> Hs Hn. have H0 : 0 < norm_inf n.
{ rewrite lt_neqAle. apply/andP; split.
  - apply/negP => /eqP H0. have : inner d n n = 0.
    { rewrite /inner big1 // => j _. have := norm_inf_ge (mem_nth 0 (_ : (j < size n)%N)). rewrite Hs => /(_ (ltn_ord j)). rewrite -H0 normr_le0 => /eqP ->. by rewrite mul0r. }
    rewrite Hn => /eqP. by rewrite oner_eq0.
  - rewrite /norm_inf. elim: (n) => [|y l IH]; rewrite ?big_nil ?big_cons // le_maxr IH orbT //. }
split=> //. have Hne : norm_inf n != 0 by rewrite gt_eqF. split.
- move=> y /mapP [x Hx ->]. rewrite normrM normfV [X in _ / X]gtr0_norm // ler_pdivr_mulr // mul1r. exact: norm_inf_ge.
- have [E|[x Hx Ex]] := norm_inf_in n; first by rewrite E ltxx in H0.
  exists (x / norm_inf n); first by apply: map_f. by rewrite normrM normfV [X in _ / X]gtr0_norm // Ex divff.
Qed.

Variables (svd : arr -> arr * seq R * arr) (qr : arr -> arr * arr) (pop : seq nat -> nat).
Hypotheses (Hsvd : svd_correct svd) (Hqr : qr_correct qr) (Hpop : pop_correct pop).

Lemma scale_pos c facet n t (d : nat) : 0 < t -> orthogonal_to d (verts c) facet n -> points_outward d (verts c) facet n ->
  orthogonal_to d (verts c) facet [seq x / t | x <- n] /\ points_outward d (verts c) facet [seq x / t | x <- n].
Proof.
move=> Ht [H1 H2] H3. split.
- split; first by rewrite size_map. move=> a b Ha Hb. by rewrite inner_div H2 // mul0r.
- move=> a b Ha Hb Hs. rewrite inner_div. apply: divr_gt0 => //. exact: H3.
Qed.
(** the overrides of the UFC cells are skipped, so also the UFC tetrahedron has
    outward reference normals *)
Theorem C20_simplex_reference_normal c i facet : solid c \/ line c -> facet_is c i facet ->
  let d := ModelCell.spatial_dimension c in
  exists n, [/\ reference_normal svd qr pop c (d - 1) i = Ok n, orthogonal_to d (verts c) facet n, inf_unit n & points_outward d (verts c) facet n].
Proof.
move=> Hc Hf d. have Hd0 : (0 < d)%N by rewrite /d; case: Hc => [] [].
have [n [H1 H2 H3 H4]] : exists n, [/\ compute_normal svd qr pop (simplex_of R c) i = Ok n, orthogonal_to d (verts c) facet n, inner d n n = 1 & points_outward d (verts c) facet n].
{ case: Hc => Hc; first exact: C20_builtin_normal. have := C20_line_normal svd qr pop Hc Hf. by rewrite /d; case: Hc. }
have [Hn0 Hn1] := normalize_inf (proj1 H2) H3. have [H5 H6] := scale_pos Hn0 H2 H4.
exists [seq x / norm_inf n | x <- n]. split=> //.
have -> : reference_normal svd qr pop c (d - 1) i = simplex_reference_normal svd qr pop c (d - 1) i by clear -Hc; case: Hc => [] [].
rewrite /simplex_reference_normal (_ : s_dim (simplex_of R c) = d); last by rewrite /d; case: Hc => [] [].
by rewrite subn1 prednK // eqxx H1.
Qed.
Theorem C20_reference_normal_dim_refused c fd i : solid c \/ line c -> fd.+1 <> ModelCell.spatial_dimension c ->
  reference_normal svd qr pop c fd i = Err Base.AssertionError.
Proof.
move=> Hc Hd. have -> : reference_normal svd qr pop c fd i = simplex_reference_normal svd qr pop c fd i by clear -Hc; case: Hc => [] [].
rewrite /simplex_reference_normal (_ : s_dim (simplex_of R c) = ModelCell.spatial_dimension c); last by clear -Hc; case: Hc => [] [].
by move/eqP: Hd => ->.
Qed.

(** the quadrilateral and the hexahedron: the signed coordinate directions *)
Lemma interval_reference i : (i < 2)%N -> simplex_reference_normal svd qr pop ModelCell.UFCInterval 0 i = Ok [:: if i == 0%N then -1 else 1].
Proof.
move=> Hi. rewrite /simplex_reference_normal -[_ != _]/false (line_value svd qr pop li2 Hi) /= /norm_inf big_cons big_nil.
by case: ifP => _; rewrite ?normrN normr1 (max_idPl _) ?ler01 // divr1.
Qed.
Inductive cube : ModelCell.cell -> Prop := cu2 : cube ModelCell.UFCQuadrilateral | cu3 : cube ModelCell.UFCHexahedron.
Definition cubeZ (c : ModelCell.cell) : seq (seq int) :=
  match c with
  | ModelCell.UFCQuadrilateral => [:: [:: 0; 0]; [:: 0; 1]; [:: 1; 0]; [:: 1; 1]]
  | _ => [:: [:: 0; 0; 0]; [:: 0; 0; 1]; [:: 0; 1; 0]; [:: 0; 1; 1]; [:: 1; 0; 0]; [:: 1; 0; 1]; [:: 1; 1; 0]; [:: 1; 1; 1]]
  end.
(** entry [i] is the normal of facet [i] *)
Definition cube_normalsZ (c : ModelCell.cell) : seq (seq int) :=
  match c with
  | ModelCell.UFCQuadrilateral => [:: [:: -1; 0]; [:: 1; 0]; [:: 0; -1]; [:: 0; 1]]
  | _ => [:: [:: -1; 0; 0]; [:: 1; 0; 0]; [:: 0; -1; 0]; [:: 0; 1; 0]; [:: 0; 0; -1]; [:: 0; 0; 1]]
  end.
Lemma cube_value c i facet : cube c -> facet_is c i facet ->
  reference_normal svd qr pop c (ModelCell.spatial_dimension c - 1) i = Ok [seq z%:~R | z <- nth [::] (cube_normalsZ c) i].
Proof.
move=> Hc Hf.
have Hi : (i < size (cube_normalsZ c))%N.
{ move: Hf. rewrite /facet_is. by case: Hc; case: i => [|[|[|[|[|[|i]]]]]]. }
have E0 : simplex_reference_normal svd qr pop ModelCell.UFCInterval 0 0 = Ok [:: -1] by rewrite interval_reference.
have E1 : simplex_reference_normal svd qr pop ModelCell.UFCInterval 0 1 = Ok [:: 1] by rewrite interval_reference.
have Eb : reference_normal svd qr pop c (ModelCell.spatial_dimension c - 1) i = cube_reference_normal svd qr pop (ModelCell.spatial_dimension c) (ModelCell.spatial_dimension c - 1) i by clear -Hc; case: Hc.
rewrite Eb /cube_reference_normal. clear Eb Hf. move: (simplex_reference_normal svd qr pop) E0 E1 => ref E0 E1.
case: Hc Hi.
- move=> Hi. set mp := ModelCell.compute_unflattening_map _.
  have Hu : forall k, (k < 4)%N -> ModelCell.ulookup mp 1 k =
    Some (nth (ModelCell.DI 0, 0%N) [:: (ModelCell.DT [:: ModelCell.DI 0; ModelCell.DI 1], 0%N); (ModelCell.DT [:: ModelCell.DI 0; ModelCell.DI 1], 1%N);
      (ModelCell.DT [:: ModelCell.DI 1; ModelCell.DI 0], 0%N); (ModelCell.DT [:: ModelCell.DI 1; ModelCell.DI 0], 1%N)] k).
  { by case=> [|[|[|[|]]]]. }
  rewrite [_ != _]/= (Hu _ Hi). clear Hu mp.
  by case: i Hi => [|[|[|[|]]]] //= _; rewrite /product_reference_normal /= ?E0 ?E1.
- move=> Hi. set mp := ModelCell.compute_unflattening_map _.
  pose D := [:: [:: ModelCell.DI 0; ModelCell.DI 1; ModelCell.DI 1]; [:: ModelCell.DI 1; ModelCell.DI 0; ModelCell.DI 1]; [:: ModelCell.DI 1; ModelCell.DI 1; ModelCell.DI 0]].
  have Hu : forall k, (k < 6)%N -> ModelCell.ulookup mp 2 k = Some (ModelCell.DT (nth [::] D k./2), nat_of_bool (odd k)).
  { by case=> [|[|[|[|[|[|]]]]]]. }
  rewrite [_ != _]/= (Hu _ Hi). clear Hu mp.
  by case: i Hi => [|[|[|[|[|[|]]]]]] //= _; rewrite /product_reference_normal /= ?E0 ?E1.
Qed.
Lemma cubeE c : cube c -> verts c = emb R (cubeZ c).
Proof. by case. Qed.
Theorem C20_cube_reference_normal c i facet : cube c -> facet_is c i facet ->
  let d := ModelCell.spatial_dimension c in
  exists n, [/\ reference_normal svd qr pop c (d - 1) i = Ok n, orthogonal_to d (verts c) facet n, inf_unit n & points_outward d (verts c) facet n].
Proof.
move=> Hc Hf d.
have chk : [&& (i < size (cube_normalsZ c))%N, all (fun v => v < size (cubeZ c))%N facet, size (nth [::] (cube_normalsZ c) i) == d,
    all (fun a => all (fun b => dotZ d (nth [::] (cube_normalsZ c) i) (diffZ d (nth [::] (cubeZ c) a) (nth [::] (cubeZ c) b)) == 0) facet) facet &
    [&& all (fun a => all (fun b => (b \in facet) || (0 < dotZ d (nth [::] (cube_normalsZ c) i) (diffZ d (nth [::] (cubeZ c) a) (nth [::] (cubeZ c) b)))) (iota 0 (size (cubeZ c)))) facet,
    all (fun z => `|z| <= 1) (nth [::] (cube_normalsZ c) i) & has (fun z => `|z| == 1) (nth [::] (cube_normalsZ c) i)]].
{ rewrite /d; move: Hf; rewrite /facet_is; case: Hc; case: i => [|[|[|[|[|[|i]]]]]] //; rewrite ?[ModelCell.lookup _ _ _]/(Some _); move=> [<-]; by vm_compute. }
case/and5P: chk => C1 C2 /eqP C3 C4 /and3P [C5 C6 C7].
have N : forall v, (v < size (cubeZ c))%N -> nth [::] (verts c) v = [seq z%:~R | z <- nth [::] (cubeZ c) v] by move=> v Hv; rewrite cubeE // (nth_map [::]).
exists [seq z%:~R | z <- nth [::] (cube_normalsZ c) i]. split; first exact: (cube_value Hc Hf).
- split; first by rewrite size_map. move=> a b Ha Hb. rewrite !N ?(allP C2) // diff_emb inner_emb. have /eqP -> := allP (allP C4 a Ha) b Hb. by [].
- split.
  + move=> x /mapP [z Hz ->]. have := allP C6 z Hz. by rewrite -intr_norm (ler_int R _ 1).
  + case/hasP: C7 => z Hz /eqP Ez. exists z%:~R; first exact: map_f. by rewrite -intr_norm Ez.
- move=> a b Ha Hb Hbs. have Hbs' : (b < size (cubeZ c))%N by move: Hbs; rewrite cubeE // size_map.
  rewrite (N _ Hbs') (N a (allP C2 a Ha)) diff_emb inner_emb. have := allP (allP C5 a Ha) b. rewrite mem_iota /= add0n => /(_ Hbs'). by rewrite (negbTE Hb) /= ltr0z.
Qed.
(** ** products: [TensorProductCell.compute_reference_normal] *)
Variable ref_normal : ModelCell.cell -> nat -> nat -> result (seq R).
Notation dim := ModelCell.spatial_dimension.
(** the first coordinate that belongs to factor [j] *)
Definition block_start (cs : seq ModelCell.cell) (j : nat) : nat := sumn [seq dim c | c <- take j cs].
Theorem C20_product_reference_normal (cs : seq ModelCell.cell) (fd : seq nat) facet j n : size fd = size cs -> (j < size cs)%N ->
  nth 0%N fd j <> dim (nth ModelCell.Point cs j) ->
  (forall k, (k < size cs)%N -> k <> j -> nth 0%N fd k = dim (nth ModelCell.Point cs k)) ->
  ref_normal (nth ModelCell.Point cs j) (nth 0%N fd j) facet = Ok n -> size n = dim (nth ModelCell.Point cs j) ->
  exists m, [/\ product_reference_normal ref_normal cs fd facet = Ok m, size m = sumn [seq dim c | c <- cs],
    forall k, (k < size n)%N -> nth 0 m (block_start cs j + k) = nth 0 n k &
    forall l, (l < block_start cs j)%N || (block_start cs j + size n <= l)%N -> nth 0 m l = 0].
Proof.
move=> Hs Hj Hne Heq Hn Hsn. rewrite /product_reference_normal Hs eqxx /=.
set dims := [seq dim c | c <- cs].
have Nd : forall k, (k < size cs)%N -> nth 0%N dims k = dim (nth ModelCell.Point cs k) by move=> k Hk; rewrite (nth_map ModelCell.Point).
have -> : [seq i <- iota 0 (size cs) | nth 0%N dims i != nth 0%N fd i] = [:: j].
{ have := filter_pred1_uniq (iota_uniq 0 (size cs)) (_ : j \in iota 0 (size cs)). rewrite mem_iota /= add0n => /(_ Hj) <-.
  apply: eq_in_filter => k. rewrite mem_iota /= add0n => Hk /=. rewrite Nd //. have [->|Hkj] := eqVneq k j.
  - by apply/eqP => H; apply: Hne.
  - by rewrite Heq ?eqxx //; apply/eqP. }
rewrite Hn /=. set B := [seq _ | i <- iota 0 (size cs)].
exists (flatten B). have SB : shape B = dims.
{ apply: (@eq_from_nth _ 0%N); first by rewrite !size_map size_iota. move=> k. rewrite !size_map size_iota => Hk.
  rewrite (nth_map [::]) ?size_map ?size_iota // (nth_map 0%N) ?size_iota // nth_iota // add0n. case: eqP => [<-|_].
  - by rewrite Nd // Hsn. - by rewrite size_nseq. }
have SzB : size B = size cs by rewrite size_map size_iota.
have EB : B = take j B ++ n :: drop j.+1 B.
{ rewrite -[LHS](cat_take_drop j). congr (_ ++ _). rewrite (drop_nth [::]) ?SzB //. congr (_ :: _).
  by rewrite (nth_map 0%N) ?size_iota // nth_iota // add0n eqxx. }
have Zt : forall k, (k < size cs)%N -> k != j -> nth [::] B k = nseq (nth 0%N dims k) 0.
{ move=> k Hk Hkj. rewrite (nth_map 0%N) ?size_iota // nth_iota // add0n eq_sym (negbTE Hkj) //. }
have Hst : size (flatten (take j B)) = block_start cs j.
{ rewrite size_flatten /shape map_take -/(shape B) SB /block_start map_take //. }
have zero : forall L : seq (seq R), (forall r, r \in L -> forall x, x \in r -> x = 0) -> forall l, nth 0 (flatten L) l = 0.
{ move=> L HL l. case: (ltnP l (size (flatten L))) => H; last by rewrite nth_default.
  have /flattenP [r Hr Hx] := mem_nth 0 H. exact: (HL r Hr). }
have Z1 : forall r, r \in take j B -> forall x, x \in r -> x = 0.
{ move=> r /(nthP [::]) [k Hk <-]. rewrite size_take SzB Hj in Hk. rewrite nth_take // Zt ?(ltn_trans Hk Hj) //; last by rewrite ltn_eqF.
  by move=> x /nseqP []. }
have Z2 : forall r, r \in drop j.+1 B -> forall x, x \in r -> x = 0.
{ move=> r /(nthP [::]) [k Hk <-]. rewrite size_drop SzB in Hk. rewrite nth_drop Zt; first by move=> x /nseqP [].
  - by rewrite -ltn_subRL. - by rewrite gtn_eqF // ltn_addr. }
split=> //.
- by rewrite size_flatten SB.
- move=> k Hk. rewrite EB flatten_cat /= nth_cat Hst ltnNge leq_addr /= addKn nth_cat Hk //.
- move=> l. rewrite EB flatten_cat /= nth_cat Hst. case: ltnP => Hl; first by move=> _; apply: zero.
  rewrite /= => Hl2. rewrite nth_cat ltnNge leq_subRL // Hl2 /=. exact: zero.
Qed.
Theorem C20_product_reference_normal_refused (cs : seq ModelCell.cell) (fd : seq nat) facet :
  (size fd <> size cs -> product_reference_normal ref_normal cs fd facet = Err Base.AssertionError) /\
  (size fd = size cs -> (forall j, (j < size cs)%N -> nth 0%N fd j = dim (nth ModelCell.Point cs j)) ->
     product_reference_normal ref_normal cs fd facet = Err Base.ValueError) /\
  (size fd = size cs -> forall i j, (i < j)%N -> (j < size cs)%N -> nth 0%N fd i <> dim (nth ModelCell.Point cs i) ->
     nth 0%N fd j <> dim (nth ModelCell.Point cs j) -> product_reference_normal ref_normal cs fd facet = Err Base.ValueError).
Proof.
rewrite /product_reference_normal. split; first by move/eqP => ->. split=> [Hs H|Hs i j Hij Hj Hi Hj']; rewrite Hs eqxx /=.
- have -> : [seq i <- iota 0 (size cs) | nth 0%N [seq dim c | c <- cs] i != nth 0%N fd i] = [::]; last by [].
  rewrite -(filter_pred0 (iota 0 (size cs))). apply: eq_in_filter => k. rewrite mem_iota /= add0n => Hk. by rewrite (nth_map ModelCell.Point) // H // eqxx.
- set L := [seq i <- iota 0 (size cs) | _]. have Hii : i \in L.
  { rewrite mem_filter mem_iota /= add0n (ltn_trans Hij Hj) andbT (nth_map ModelCell.Point) ?(ltn_trans Hij Hj) //. apply/eqP => E. by apply: Hi. }
  have Hjj : j \in L. { rewrite mem_filter mem_iota /= add0n Hj andbT (nth_map ModelCell.Point) //. apply/eqP => E. by apply: Hj'. }
  case: L Hii Hjj => [//|a [|b L]] //. rewrite !inE => /eqP Ea /eqP E. by rewrite Ea E ltnn in Hij.
Qed.
End Ref.

(** the hypotheses about numpy's decompositions can be met over every real closed
    field *)
Theorem C20_decompositions_exist (R : rcfType) : exists svd qr pop, [/\ @svd_correct R svd, @qr_correct R qr & pop_correct pop].
Proof. exists (@svd0 R), (@qr0 R), (head 0%N). split; [exact: svd0_correct|exact: qr0_correct|exact: head_pop_correct]. Qed.
