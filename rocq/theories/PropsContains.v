(** C21: [contains_point]. *)
Set Warnings "-notation-overridden,-ambiguous-paths".
From mathcomp Require Import all_ssreflect all_algebra zify.
From Verif Require Base ModelCell ModelGeom ProofsTopo ProofsCart ProofsFactory.
From Verif Require Import FieldTac SpecHull.
Set Implicit Arguments. Unset Strict Implicit. Unset Printing Implicit Defensive.
Import Order.TTheory GRing.Theory Num.Theory.
Local Open Scope ring_scope.
Import ModelCell.

Section Hulls.
Variable F : realFieldType.
Notation K := (ordF F).
Notation contains c p eps := (@ModelGeom.contains_point K (@le_dec F) c p eps).
Lemma fsumE (l : seq F) : Base.fsum (K := K) l = \sum_(x <- l) x.
Proof. elim: l => [|x l IH]; rewrite ?big_nil // big_cons -IH. by []. Qed.
Lemma simplexE (p : seq F) (eps : F) : ModelGeom.simplex_contains (K := K) (@le_dec F) p eps = (\sum_(x <- p) x - eps <= 1) && all (fun c => 0 <= c + eps) p.
Proof. rewrite /ModelGeom.simplex_contains fsumE /le_dec. by []. Qed.
Lemma sum_nth (p : seq F) : \sum_(x <- p) x = \sum_(k < size p) nth 0 p k.
Proof. by rewrite (big_nth 0) big_mkord. Qed.

(** unit simplices *)
Definition unit_verts (d : nat) : seq (seq F) := nseq d 0 :: [seq mkseq (fun k => (k == i)%:R) d | i <- iota 0 d].
Lemma hull_unit d p : size p = d -> in_hull (unit_verts d) p <-> (\sum_(x <- p) x <= 1) && all (fun c => 0 <= c) p.
Proof.
move=> Hp. split.
- case=> L [HL H1 Hk]. have Hv a : a \in L -> (forall k, 0 <= nth 0 a.2 k) /\ \sum_(k < d) nth 0 a.2 k <= 1.
  { case/HL => _. rewrite inE => /orP [/eqP ->|/mapP [i]].
    - split=> [k|]; first by rewrite nth_nseq if_same. rewrite big1 ?ler01 // => k _. by rewrite nth_nseq if_same.
    - rewrite mem_iota add0n => /andP [_ Hi] ->. split=> [k|].
      + case: (ltnP k d) => Hkd; first by rewrite nth_mkseq // ler0n. by rewrite nth_default ?size_mkseq.
      + rewrite (bigD1 (Ordinal Hi)) //= nth_mkseq // eqxx big1 ?addr0 // => k Hki. rewrite nth_mkseq //. by move: Hki; rewrite -val_eqE /= => /negbTE ->. }
  apply/andP; split.
  + rewrite sum_nth Hp. rewrite (eq_bigr (fun k : 'I_d => \sum_(a <- L) a.1 * nth 0 a.2 k)); last by move=> k _; rewrite Hk // Hp.
    rewrite exchange_big /= -H1. rewrite big_seq [X in _ <= X]big_seq. apply: ler_sum => a Ha. rewrite -mulr_sumr -[X in _ <= X]mulr1.
    apply: ler_wpmul2l; [exact: (HL _ Ha).1|exact: (Hv _ Ha).2].
  + apply/(all_nthP 0) => k Hkp. rewrite Hk // big_seq. apply: sumr_ge0 => a Ha. apply: mulr_ge0; [exact: (HL _ Ha).1|exact: (Hv _ Ha).1].
- case/andP=> H1 /(all_nthP 0) H0. exists ((1 - \sum_(x <- p) x, nseq d 0) :: [seq (nth 0 p i, mkseq (fun k => (k == i)%:R) d) | i <- iota 0 d]). split.
  + move=> a. rewrite inE => /orP [/eqP ->|/mapP [i]]; first by rewrite /= subr_ge0 inE eqxx.
    rewrite mem_iota add0n => /andP [_ Hi] -> /=. split; first by apply: H0; rewrite Hp. rewrite inE. apply/orP; right. apply/mapP. exists i => //. by rewrite mem_iota.
  + rewrite big_cons big_map /= sum_nth Hp. rewrite -(big_mkord xpredT (fun i => nth 0 p i)) /index_iota subn0. by rewrite subrK.
  + move=> k Hk. rewrite big_cons /= nth_nseq if_same mulr0 add0r big_map /=.
    rewrite (bigD1_seq k) ?iota_uniq ?mem_iota //=; last by rewrite -Hp.
    rewrite nth_mkseq -?Hp // eqxx mulr1 big_seq_cond big1 ?addr0 // => i /andP [_ Hi]. rewrite nth_mkseq // eq_sym (negbTE Hi) mulr0 //.
Qed.
(** products *)
Lemma hull_prod n1 (vs1 vs2 : seq (seq F)) (p1 p2 : seq F) : (forall v, v \in vs1 -> size v = n1) -> size p1 = n1 ->
  in_hull [seq x ++ y | x <- vs1, y <- vs2] (p1 ++ p2) <-> in_hull vs1 p1 /\ in_hull vs2 p2.
Proof.
move=> H1 Hp. split.
- case=> L [HL S1 Hk]. split.
  + exists [seq (a.1, take n1 a.2) | a <- L]. split.
    * move=> a /mapP [b /HL [A /allpairsP [[x y] [/= Hx Hy E]]] ->] /=. split=> //. rewrite E take_size_cat //. exact: H1.
    * by rewrite big_map.
    * move=> k Hkp. rewrite big_map /=. have := Hk k. rewrite size_cat nth_cat Hkp ltn_addr // => ->//. apply: eq_bigr => a _. by rewrite nth_take // -Hp.
  + exists [seq (a.1, drop n1 a.2) | a <- L]. split.
    * move=> a /mapP [b /HL [A /allpairsP [[x y] [/= Hx Hy E]]] ->] /=. split=> //. rewrite E drop_size_cat //. exact: H1.
    * by rewrite big_map.
    * move=> k Hkp. rewrite big_map /=. have := Hk (size p1 + k)%N. rewrite size_cat ltn_add2l nth_cat [(_ + _ < _)%N]ltnNge leq_addr /= addKn => ->//. apply: eq_bigr => a _. by rewrite nth_drop Hp.
- case=> [[L1 [HL1 S1 K1]] [L2 [HL2 S2 K2]]]. exists [seq (a.1 * b.1, a.2 ++ b.2) | a <- L1, b <- L2]. split.
  + move=> c /allpairsP [[a b] [/= /HL1 [A1 A2] /HL2 [B1 B2] ->]] /=. split; first exact: mulr_ge0. apply/allpairsP. by exists (a.2, b.2).
  + rewrite big_allpairs_dep /= -S1. apply: eq_bigr => a _. by rewrite -mulr_sumr S2 mulr1.
  + move=> k. rewrite size_cat => Hk. rewrite big_allpairs_dep /= nth_cat. case: ltnP => Hk1.
    * rewrite K1 // big_seq [RHS]big_seq. apply: eq_bigr => a Ha. rewrite (eq_bigr (fun b : F * seq F => a.1 * nth 0 a.2 k * b.1)).
      { by rewrite -mulr_sumr S2 mulr1. }
      move=> b _. rewrite nth_cat (H1 a.2) ?(HL1 _ Ha).2 // -Hp Hk1 mulrAC //.
    * rewrite K2; last by rewrite ltn_subLR. rewrite -[LHS]mul1r -S1 mulr_suml. rewrite big_seq [RHS]big_seq. apply: eq_bigr => a Ha.
      rewrite mulr_sumr. apply: eq_bigr => b _. by rewrite nth_cat (H1 a.2) ?(HL1 _ Ha).2 // -Hp ltnNge Hk1 /= mulrA.
Qed.
Lemma in_hull_eqmem vs vs' p : vs =i vs' -> in_hull vs p -> in_hull (F := F) vs' p.
Proof. move=> E [L [HL S1 Hk]]. exists L. split=> // a /HL [A B]. by rewrite -E. Qed.
Lemma tp_vertices_cons vs vss : @tp_vertices F (vs :: vss) =i [seq x ++ y | x <- vs, y <- @tp_vertices F vss].
Proof.
move=> p. apply/idP/idP.
- rewrite /tp_vertices /=. move=> /mapP [c]. elim: vs => //= x vs IH. rewrite mem_cat => /orP [/mapP [d Hd ->] ->|/IH H /H {IH H}].
  + rewrite mem_cat. apply/orP; left. apply/mapP. exists (List.concat d) => //. apply/mapP. by exists d.
  + rewrite mem_cat => ->. by rewrite orbT.
- case/allpairsP => [[x y] [/= Hx /mapP [d Hd ->] ->]]. apply/mapP. exists (x :: d) => //.
  elim: vs Hx => //= z vs IH. rewrite inE mem_cat => /orP [/eqP ->|/IH ->]; last by rewrite orbT. rewrite map_f //. Qed.
Lemma hull_nil : in_hull (@tp_vertices F [::]) [::].
Proof. exists [:: (1, [::])]. split=> [a||//]; last by rewrite big_seq1. rewrite inE => /eqP -> /=. by rewrite ler01 inE. Qed.
Lemma fst_tp_dim vs n : List.Forall (fun v : seq F => List.length v = n) vs -> forall v, v \in vs -> size v = n.
Proof. elim=> // x l Hx _ IH v. rewrite inE => /orP [/eqP ->//|]. exact: IH. Qed.
Definition answers c p := exists b, contains c p 0 = Base.Ok b /\ (b <-> in_hull (vertices K c) p).
Lemma firstnE (n : nat) (l : seq F) : List.firstn n l = take n l.
Proof. by elim: n l => [|n IH] [|x l] //=; rewrite IH. Qed.
Lemma skipnE (n : nat) (l : seq F) : List.skipn n l = drop n l.
Proof. by elim: n l => [|n IH] [|x l] //=; rewrite IH. Qed.
Lemma factors_hull (cp : cell -> seq F -> F -> Base.result bool) (dim : cell -> nat) (vf : cell -> seq (seq F)) cs :
  (forall c, List.In c cs -> (forall v, v \in vf c -> size v = dim c) /\
     forall p, size p = dim c -> exists b, cp c p 0 = Base.Ok b /\ (b <-> in_hull (vf c) p)) ->
  (forall c, List.In c cs -> dim c = spatial_dimension c) ->
  forall p, size p = Base.nsum (map dim cs) ->
  exists b, ModelGeom.factors_contain (K := K) cp cs p 0 = Base.Ok b /\ (b <-> in_hull (@tp_vertices F (map vf cs)) p).
Proof.
elim: cs => [|c cs IH] Hc Hd p.
- move=> /size0nil ->. exists true. split=> //. split=> // _. exact: hull_nil.
- rewrite [Base.nsum _]/= => Hp. have [Hv Hcp] := Hc c (or_introl erefl). have Ed : dim c = spatial_dimension c := Hd c (or_introl erefl).
  have Ht : size (take (dim c) p) = dim c. { rewrite size_takel // Hp. exact: leq_addr. }
  have Hs : size (drop (dim c) p) = Base.nsum (map dim cs). { rewrite size_drop Hp. rewrite plusE. by rewrite addKn. }
  have [b [E Eb]] := Hcp _ Ht. have [b' [E' Eb']] := IH (fun c' H => Hc c' (or_intror H)) (fun c' H => Hd c' (or_intror H)) _ Hs.
  exists (b && b'). split.
  { rewrite [ModelGeom.factors_contain _ _ _ _]/= firstnE skipnE -Ed. rewrite E. by rewrite E'. }
  have Q := @hull_prod (dim c) (vf c) (@tp_vertices F (map vf cs)) _ (drop (dim c) p) Hv Ht. rewrite cat_take_drop in Q. split.
  + case/andP => /Eb H1 /Eb' H2. apply: (in_hull_eqmem (vs := [seq x ++ y | x <- vf c, y <- @tp_vertices F (map vf cs)])); last by apply/Q.
    move=> v. by rewrite [map vf (c :: cs)]/= tp_vertices_cons.
  + move=> H. have [|H1 H2] := Q.1; last by rewrite (Eb.2 H1) (Eb'.2 H2). apply: in_hull_eqmem H => v. by rewrite [map vf (c :: cs)]/= tp_vertices_cons.
Qed.

Lemma simplex0E (p : seq F) d : size p = d -> ModelGeom.simplex_contains (K := K) (@le_dec F) p 0 <-> in_hull (unit_verts d) p.
Proof.
move=> Hp. rewrite simplexE subr0 (eq_all (a2 := fun c => 0 <= c)) => [|x]; last by rewrite addr0. split; by move/(hull_unit Hp). Qed.
Lemma unit1 : vertices K UFCInterval = unit_verts 1. Proof. by []. Qed.
Lemma unit2 : vertices K UFCTriangle = unit_verts 2. Proof. by []. Qed.
Lemma unit3 : vertices K UFCTetrahedron = unit_verts 3. Proof. by []. Qed.
Lemma vert_size c v : v \in (vertices K c : seq (seq F)) -> size v = spatial_dimension c.
Proof. apply: fst_tp_dim. exact: (ProofsFactory.vertices_dim K c). Qed.

(** *** C21.  On a point with as many coordinates as the cell, [contains_point]
    with tolerance 0 answers whether the point is in the convex hull of the
    cell's vertices: UFC simplices, cubes, and (nested) products of these. *)
Theorem C21_hull (c : cell) (p : seq F) : containable c -> size p = spatial_dimension c ->
  exists b, contains c p 0 = Base.Ok b /\ (b <-> in_hull (vertices K c) p).
Proof.
have Ecube n q : size q = n -> exists b, ModelGeom.tp_contains (K := K) (fun _ p e => Base.Ok (ModelGeom.simplex_contains (@le_dec F) p e)) (nseq n UFCInterval) q 0 = Base.Ok b /\ (b <-> in_hull (@tp_vertices F (nseq n (vertices_line K))) q).
{ move=> Hq. have En : Base.nsum (List.map spatial_dimension (nseq n UFCInterval)) = n. { clear. elim: n => //= n ->. by []. }
  rewrite /ModelGeom.tp_contains En. have -> : Nat.eqb (List.length q) n by apply/PeanoNat.Nat.eqb_eq. 
  have := @factors_hull (fun _ p e => Base.Ok (ModelGeom.simplex_contains (K := K) (@le_dec F) p e)) (fun _ => 1%N) (fun _ => vertices_line K) (nseq n UFCInterval). 
  rewrite [map (fun _ => vertices_line K) _]map_nseq. apply.
  - move=> c' _. split; first exact: (@vert_size UFCInterval). move=> p' Hp'. eexists; split; first by []. rewrite -/(vertices K UFCInterval) unit1. exact: simplex0E.
  - clear. elim: n => //= n IH c [<-//|]. exact: IH.
  - rewrite map_nseq Hq. clear. by elim: n => //= n <-. }
elim/ProofsTopo.cell_ind': c p => [c Hc|cs IH] p.
- case: c Hc => //=; try (by move=> _ _ Hp; eexists; split; [reflexivity|exact (simplex0E Hp)]).
  + by move=> cs Hc; case: (Hc cs).
  + move=> _ _ Hp. exact: (Ecube 2%N).
  + move=> _ _ Hp. exact: (Ecube 3%N).
- move=> Hc Hp. rewrite [vertices _ _]/= [ModelGeom.contains_point _ _ _ _]/= /ModelGeom.tp_contains. 
  have -> : Nat.eqb (List.length p) (Base.nsum (List.map spatial_dimension cs)) by apply/PeanoNat.Nat.eqb_eq.
  apply: (@factors_hull _ spatial_dimension) => //. move=> c Hin. split; first exact: vert_size.
  move=> q Hq. move/List.Forall_forall: IH => /(_ c Hin). apply=> //. move: Hc Hin. rewrite [containable _]/=. clear.
  by elim: cs => //= a cs IH /andP [Ha Hcs] [<-//|]; apply: IH.
Qed.
(** A product contains a point iff every factor contains its slice; the
    slices are consecutive and as long as the factors' dimensions. *)
Theorem C21_product_slices (cs : seq cell) (ps : seq (seq F)) (eps : F) : all containable cs ->
  List.Forall2 (fun c p => size p = spatial_dimension c) cs ps ->
  contains (TensorProductCell cs) (flatten ps) eps = Base.Ok true <->
  List.Forall2 (fun c p => contains c p eps = Base.Ok true) cs ps.
Proof.
move=> Hc H. have Ha c q : containable c -> size q = spatial_dimension c -> exists b, contains c q eps = Base.Ok b.
{ clear. elim/ProofsTopo.cell_ind': c q => [c Hc|cs IH] q.
  - have Hcube n q' : exists b, ModelGeom.factors_contain (K := K) (fun _ p e => Base.Ok (ModelGeom.simplex_contains (@le_dec F) p e)) (nseq n UFCInterval) q' eps = Base.Ok b.
    { elim: n q' => [|n IH] q'; first by exists true. rewrite [nseq _ _]/= [ModelGeom.factors_contain _ _ _ _]/=. have [b ->] := IH (List.skipn 1 q'). by eexists. }
    case: c Hc => //=; try (by move=> *; eexists).
    + by move=> cs Hc; case: (Hc cs).
    + move=> _ _ Hq. rewrite /ModelGeom.tp_contains. have -> : Nat.eqb (List.length q) (Base.nsum (List.map spatial_dimension [:: UFCInterval; UFCInterval])) by apply/PeanoNat.Nat.eqb_eq. exact: (Hcube 2%N).
    + move=> _ _ Hq. rewrite /ModelGeom.tp_contains. have -> : Nat.eqb (List.length q) (Base.nsum (List.map spatial_dimension [:: UFCInterval; UFCInterval; UFCInterval])) by apply/PeanoNat.Nat.eqb_eq. exact: (Hcube 3%N).
  - move=> Hc Hq. rewrite [ModelGeom.contains_point _ _ _ _]/= /ModelGeom.tp_contains. 
    have -> : Nat.eqb (List.length q) (Base.nsum (List.map spatial_dimension cs)) by apply/PeanoNat.Nat.eqb_eq.
    move: Hc Hq. rewrite [containable _]/= [spatial_dimension _]/=. elim: IH q => [|c cs' Hcc _ IHc] q; first by exists true.
    rewrite [all _ _]/= [Base.nsum _]/= => /andP [Hc1 Hc2] Hq. rewrite [ModelGeom.factors_contain _ _ _ _]/= firstnE skipnE.
    have [|b ->] := Hcc (take (spatial_dimension c) q) Hc1. { rewrite size_takel // Hq. exact: leq_addr. }
    have [||b' ->] := IHc (drop (spatial_dimension c) q) => //; last by eexists. rewrite size_drop Hq plusE. by rewrite addKn. }
have Es : Nat.eqb (List.length (flatten ps)) (Base.nsum (List.map spatial_dimension cs)).
{ apply/PeanoNat.Nat.eqb_eq. rewrite -[List.length _]/(size _) size_flatten /shape. elim: H {Hc} => // c p cs' ps' E _ /= ->. by rewrite E. }
rewrite [ModelGeom.contains_point _ _ _ _]/= /ModelGeom.tp_contains Es {Es}.
elim: H Hc => {cs ps} [_|c p cs ps Hp _ IH]; first by split=> // _; constructor.
rewrite [all _ _]/= => /andP [Hc1 Hc2]. rewrite [ModelGeom.factors_contain _ _ _ _]/= firstnE skipnE -Hp take_size_cat // drop_size_cat //.
have [b Eb] := Ha c p Hc1 Hp. rewrite Eb. have {IH} := IH Hc2. case: (ModelGeom.factors_contain _ _ _ _) => [b'|e] IH.
- split.
  + case=> E. have [Hb Hb'] : b = true /\ b' = true by move: E; case: b {Eb}; case: (b'). constructor; first by rewrite Eb Hb. apply/IH. by rewrite Hb'.
  + move=> H. inversion H as [|? ? ? ? H1 H2]; subst. move: H1. rewrite Eb => -[->]. by move/IH: H2 => -[->].
- split=> // H. inversion H as [|? ? ? ? H1 H2]; subst. by move/IH: H2.
Qed.

(** A larger tolerance accepts at least as much, for every cell and point. *)
Theorem C21_monotone (c : cell) (p : seq F) (eps eps' : F) : eps <= eps' ->
  contains c p eps = Base.Ok true -> contains c p eps' = Base.Ok true.
Proof.
move=> He. have Hs q : ModelGeom.simplex_contains (K := K) (@le_dec F) q eps -> ModelGeom.simplex_contains (K := K) (@le_dec F) q eps'.
{ rewrite !simplexE => /andP [A B]. apply/andP; split; first by apply: le_trans A; rewrite ler_add2l ler_opp2. apply: sub_all B => x Hx. apply: le_trans Hx _. by rewrite ler_add2l. }
have Hf cp cs q : (forall c r, List.In c cs -> cp c r eps = Base.Ok true -> cp c r eps' = Base.Ok true) ->
  ModelGeom.tp_contains (K := K) cp cs q eps = Base.Ok true -> ModelGeom.tp_contains (K := K) cp cs q eps' = Base.Ok true.
{ rewrite /ModelGeom.tp_contains. case: Nat.eqb => //. elim: cs q => // a cs IH q Hcp. rewrite [ModelGeom.factors_contain (K := K) _ _ _ eps]/= [ModelGeom.factors_contain (K := K) _ _ _ eps']/=.
  case E: (cp a _ eps) => [b|//]. case E': (ModelGeom.factors_contain (K := K) _ _ _ eps) => [b'|//] [/andP [Hb Hb']]. rewrite (Hcp _ _ (or_introl erefl)); last by rewrite E Hb.
  rewrite IH //; last by rewrite E' Hb'. move=> c' r Hin. apply: Hcp. by right. }
elim/ProofsTopo.cell_ind': c p => [c Hc|cs IH] p.
- case: c Hc => //=; try (by move=> _ [/Hs H]; congr (Base.Ok)).
  + by move=> cs Hc; case: (Hc cs).
  + move=> _. apply: Hf => c r _ [/Hs H]. by congr (Base.Ok).
  + move=> _. apply: Hf => c r _ [/Hs H]. by congr (Base.Ok).
- rewrite [ModelGeom.contains_point (K := K) _ _ _ eps]/= [ModelGeom.contains_point (K := K) _ _ _ eps']/=. apply: Hf => c r Hin. move/List.Forall_forall: IH => /(_ c Hin). by apply.
Qed.

(** With tolerance [eps], a UFC simplex accepts every point whose 1-norm
    distance to a point of the simplex is at most [eps]. *)
Definition dist1 (p q : seq F) : F := \sum_(k < size p) `|nth 0 p k - nth 0 q k|.
Theorem C21_tolerance (c : cell) (p q : seq F) (eps : F) : c = UFCInterval \/ c = UFCTriangle \/ c = UFCTetrahedron ->
  size p = spatial_dimension c -> size q = size p -> contains c p 0 = Base.Ok true -> dist1 p q <= eps -> contains c q eps = Base.Ok true.
Proof.
move=> Hc Sp Sq. have -> : contains c p 0 = Base.Ok (ModelGeom.simplex_contains (K := K) (@le_dec F) p 0) by case: Hc => [->|[->|->]].
have -> : contains c q eps = Base.Ok (ModelGeom.simplex_contains (K := K) (@le_dec F) q eps) by case: Hc => [->|[->|->]].
case. rewrite !simplexE subr0 => /andP [A /(all_nthP 0) B] D. congr (Base.Ok). apply/andP; split.
- rewrite ler_subl_addr. apply: (@le_trans _ _ (\sum_(x <- p) x + dist1 p q)); last by apply: ler_add.
  rewrite !sum_nth Sq /dist1 -big_split /=. apply: ler_sum => k _. rewrite -ler_subl_addl. apply: le_trans (ler_norm _) _. by rewrite distrC.
- apply/(all_nthP 0) => k. rewrite Sq => Hk. have := B k Hk. rewrite addr0 => Hb. apply: (@le_trans _ _ (nth 0 p k + (nth 0 q k - nth 0 p k) + dist1 p q)); last first.
  + by rewrite [nth 0 p k + _]addrC subrK ler_add2l.
  + rewrite -addrA. apply: addr_ge0 => //. rewrite addrC -ler_subl_addr sub0r opprB. apply: (@le_trans _ _ `|nth 0 p k - nth 0 q k|); first exact: ler_norm.
    rewrite /dist1 (bigD1 (Ordinal Hk)) //= ler_addl. apply: sumr_ge0 => i _. exact: normr_ge0.
Qed.

(** Errors, and what is not checked. *)
Theorem C21_errors (eps : F) :
  (forall c p, c \in [:: 0; 1; 2; 3; 4; 5]%N -> 
     contains (nth Point [:: Point; DefaultLine; DefaultTriangle; DefaultTetrahedron; IntrepidTriangle; IntrepidTetrahedron] c) p eps = Base.Err Base.AttributeError) /\
  (forall cs p, size p != spatial_dimension (TensorProductCell cs) -> contains (TensorProductCell cs) p eps = Base.Err Base.AssertionError) /\
  (forall p, size p != 2%N -> contains UFCQuadrilateral p eps = Base.Err Base.AssertionError) /\
  (forall p, size p != 3%N -> contains UFCHexahedron p eps = Base.Err Base.AssertionError).
Proof.
split; [|split; [|split]].
- move=> c p. by rewrite !inE; do ! case/orP; move/eqP=> ->.
- move=> cs p Hp. rewrite [ModelGeom.contains_point _ _ _ _]/= /ModelGeom.tp_contains. case E: Nat.eqb => //. move/PeanoNat.Nat.eqb_eq: E => E. by move/eqP: Hp.
- move=> p Hp. rewrite [ModelGeom.contains_point _ _ _ _]/= /ModelGeom.tp_contains. case E: Nat.eqb => //. move/PeanoNat.Nat.eqb_eq: E => E. by move/eqP: Hp.
- move=> p Hp. rewrite [ModelGeom.contains_point _ _ _ _]/= /ModelGeom.tp_contains. case E: Nat.eqb => //. move/PeanoNat.Nat.eqb_eq: E => E. by move/eqP: Hp.
Qed.
(** A UFC simplex does not look at the number of coordinates, so a point of
    another dimension is accepted: here one coordinate in the triangle. *)
Theorem C21_length_unchecked_refuted : ~ (forall p, contains UFCTriangle p 0 = Base.Ok true -> size p = 2%N).
Proof. move=> H. have := H [:: 0]. rewrite [ModelGeom.contains_point _ _ _ _]/= simplexE subr0 big_seq1 /= addr0 lexx ler01 /= => /(_ erefl). by []. Qed.
Theorem C21_nonvacuous : exists c p, containable c /\ size p = spatial_dimension c /\ contains c p 0 = Base.Ok true /\
  contains c p 1 = Base.Ok true /\ exists q, size q = spatial_dimension c /\ contains c q 0 = Base.Ok false.
Proof.
exists (TensorProductCell [:: UFCTriangle; TensorProductCell [:: UFCInterval]]), [:: 0; 0; 1].
have E p0 p1 p2 e : contains (TensorProductCell [:: UFCTriangle; TensorProductCell [:: UFCInterval]]) [:: p0; p1; p2] e =
  Base.Ok (ModelGeom.simplex_contains (K := K) (@le_dec F) [:: p0; p1] e && ((ModelGeom.simplex_contains (K := K) (@le_dec F) [:: p2] e && true) && true)) by [].
have Z : contains (TensorProductCell [:: UFCTriangle; TensorProductCell [:: UFCInterval]]) [:: 0; 0; 1] 0 = Base.Ok true.
{ rewrite E !simplexE !big_cons !big_nil /= !addr0 !subr0 !lexx !ler01. by []. }
split=> //. split=> //. split=> //. have M := @C21_monotone _ _ 0 1 ler01 Z. split; first exact M.
exists [:: 0; 0; -1]. split=> //. rewrite E !simplexE !big_cons !big_nil /= !addr0. have -> : (0 <= (-1 : F)) = false by rewrite oppr_ge0 ler10. by rewrite !andbF.
Qed.
End Hulls.
