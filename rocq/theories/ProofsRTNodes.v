(** The nodes of the Raviart-Thomas element (point variant) as functionals, and
    the fields they determine. *)
Set Warnings "-notation-overridden,-ambiguous-paths".
From mathcomp Require Import all_ssreflect all_algebra zify.
From Verif Require Base ModelIndex SpecIndex ModelCell ModelFam SpecFam ModelFunctional ProofsEntPts.
From Verif Require Import FieldTac SpecJacobi ModelDual SpecDual ProofsDual ProofsDmatsReg ModelAffine SpecPoly SpecVec ModelSpace ProofsLagLat ProofsSpace ProofsSpaceCell ProofsPolyClo ProofsRTUni ProofsVecElem
  ModelDmats ModelNormal SpecNormal ProofsNormal PropsNormalCells ModelRT ProofsGaussReal.
Set Implicit Arguments. Unset Strict Implicit. Unset Printing Implicit Defensive.
Import Order.TTheory GRing.Theory Num.Theory.
Local Open Scope ring_scope.

Lemma InP (T : eqType) (x : T) (l : seq T) : List.In x l -> x \in l.
Proof. elim: l => [|y l IH] //= [->|/IH H]; by rewrite inE ?eqxx ?H ?orbT. Qed.
Lemma solid_simplex c : solid c -> SpecFam.simplex c /\ (2 <= sdim_of c <= 3)%N.
Proof. by case. Qed.
(** facet [i] is the one opposite to vertex [i] *)
Definition opp (d i : nat) : seq nat := [seq v <- iota 0 d.+1 | v != i].
Lemma solid_opp c i : solid c -> (i <= sdim_of c)%N -> exists e W, [/\ (e < (sdim_of c).+1)%N, facet_is c e W & perm_eq W (opp (sdim_of c) i)].
Proof.
move=> Hc Hi. suff: has (fun e => if ModelCell.lookup (ModelCell.topology c) (ModelCell.DI (sdim_of c - 1)) e is Some W then perm_eq W (opp (sdim_of c) i) else false) (iota 0 (sdim_of c).+1).
- move/hasP => [e]. rewrite mem_iota => He. case E : (ModelCell.lookup _ _ _) => [W|] // HW. by exists e, W.
- move: Hi. case: Hc; case: i => [|[|[|[|i]]]] // _; by vm_compute.
Qed.
Lemma facet_opp c e W : solid c -> facet_is c e W -> exists2 i, (i <= sdim_of c)%N & perm_eq W (opp (sdim_of c) i).
Proof.
move=> Hc Hf. suff: has (fun i => perm_eq W (opp (sdim_of c) i)) (iota 0 (sdim_of c).+1).
- move/hasP => [i]. rewrite mem_iota => Hi. by exists i.
- move: Hf. rewrite /facet_is. by case: Hc; case: e => [|[|[|[|e]]]]; rewrite ?[ModelCell.lookup _ _ _]/(Some _) => //; move=> [<-]; vm_compute.
Qed.
Lemma solid_num c : solid c -> ModelFam.num c (sdim_of c - 1) = (sdim_of c).+1.
Proof. by case. Qed.
Lemma solid_cell c : solid c -> ModelCell.lookup (ModelCell.topology c) (ModelCell.DI (sdim_of c)) 0 = Some (iota 0 (sdim_of c).+1).
Proof. by case. Qed.

Section Nodes.
Variable R : rcfType.
Notation K := (mcF R).
Notation pt := [eqType of seq R].
Notation nil_f := (@mkFunctional R pt [::] [::] [::]).
Let R0 : char_zero R := num_char0 R.
(** lattice points of an entity in coordinates *)
Lemma ent_pt c d e W n (w : nat -> nat) : SpecFam.simplex c -> (0 < d)%N -> ModelCell.lookup (ModelCell.topology c) (ModelCell.DI d) e = Some W ->
  uniq W -> (forall v, v \in W -> (v <= sdim_of c)%N /\ (0 < w v)%N) -> (\sum_(v <- W) w v = n)%N -> (0 < n)%N ->
  exists x : seq R, [/\ List.In x (ModelFam.make_points K c d e n), size x = sdim_of c &
    forall i, (i < sdim_of c)%N -> nth 0 x i = org R c + scl R c * (if i.+1 \in W then w i.+1 else 0%N)%:R / n%:R].
Proof.
move=> Hc d0 HW Uw Hw Hs n0. have [B1 B2] := num_bound Hc HW.
have Hd : (1 <= d)%coq_nat /\ (d <= sdim_of c)%coq_nat by split=> //; lia.
have [||||x [X1 [X2 X3]]] := @ProofsEntPts.entity_point K (char0K R0) c d e W n [seq w v | v <- W] Hc Hd (lookupE HW) B1.
- by rewrite -[LHS]/(size _) size_map.
- move=> z /List.in_map_iff [v [<- /InP Hv]]. have [_] := Hw v Hv. lia.
- by rewrite nsumE Hs.
- lia.
exists x. split=> // i Hi. have := X3 i. rewrite /SpecIndex.coord !Lnth => ->; last by lia. rewrite of_natE.
have E := wsumE w (fun v => vco R c v i) W.
transitivity ((\sum_(v <- W) (w v)%:R * vco R c v i) / n%:R).
- refine (etrans _ (congr1 (fun z : R => z / n%:R) E)).
  refine (congr1 (fun z : seq R => (SpecIndex.wsum (K := K) _ z : R) / n%:R) _).
  apply: eq_map => v. by rewrite /SpecIndex.coord !Lnth.
- have Nn : n%:R != 0 :> R by apply: R0.
  have -> : \sum_(v <- W) (w v)%:R * vco R c v i = org R c * n%:R + scl R c * (if i.+1 \in W then w i.+1 else 0%N)%:R.
  { rewrite (eq_big_seq (fun v => (w v)%:R * org R c + scl R c * ((w v)%:R * (v == i.+1)%:R))).
    - rewrite big_split /= -mulr_suml -natr_sum Hs mulrC -mulr_sumr. congr (_ + _ * _).
      rewrite (eq_bigr (fun v => if v == i.+1 then (w v)%:R else 0)); last by move=> v _; case: eqP => _; rewrite ?mulr1 ?mulr0.
      rewrite -big_mkcond /=. case: ifP => Hin.
      + rewrite -big_filter. have -> : [seq v <- W | v == i.+1] = [:: i.+1]; last by rewrite big_seq1.
        by rewrite filter_pred1_uniq.
      + rewrite big1_seq // => v /andP [/eqP -> Hv]. by rewrite Hv in Hin.
    - move=> v Hv. rewrite vcoE //; last by case: (Hw v Hv). rewrite mulrDr. congr (_ + _). by rewrite mulrCA. }
  by rewrite mulrDl mulfK.
Qed.
(** node coordinates *)
Variables (c : cell) (deg d : nat).
Hypothesis Hc : solid c.
Hypothesis Ed : sdim_of c = d.+1.
Definition gp (j : nat) : R := org R c + scl R c * j.+1%:R / (deg + d.+1)%:R.
Lemma N1 : (deg + d.+1)%:R != 0 :> R. Proof. apply: R0. lia. Qed.
Lemma gp_inj : injective gp.
Proof. move=> i j /addrI/(congr1 ( *%R^~ (deg + d.+1)%:R)). rewrite !divfK ?N1 // => /(mulfI (scl0 R0 c)) E. have := natr_inj R0 E. lia. Qed.
Lemma gp_org j : gp j != org R c.
Proof.
rewrite /gp -subr_eq0 addrAC subrr add0r !mulf_neq0 ?scl0 ?invr_eq0 ?N1 //; exact: R0.
Qed.
Lemma gp_sum idx : size idx = d.+1 -> sumn idx = deg -> \sum_(i < d.+1) (gp (nth 0%N idx i) - org R c) = scl R c.
Proof.
move=> Hs Hm. rewrite (eq_bigr (fun i : 'I_d.+1 => scl R c / (deg + d.+1)%:R * (nth 0%N idx i).+1%:R)); last first.
{ move=> i _. rewrite /gp addrAC subrr add0r mulrAC. by []. }
rewrite -mulr_sumr -natr_sum. have -> : (\sum_(i < d.+1) (nth 0%N idx i).+1 = deg + d.+1)%N.
{ rewrite (eq_bigr (fun i : 'I_d.+1 => nth 0%N idx i + 1)%N); last by move=> i _; rewrite addn1. rewrite big_split /= sum_nat_const card_ord muln1. congr addn.
  by rewrite -Hm sumnE (big_nth 0%N) Hs big_mkord. }
by rewrite divfK ?N1.
Qed.
Let Hsx : SpecFam.simplex c := proj1 (solid_simplex Hc).
Lemma d12 : (1 <= d <= 2)%N. Proof. have [_] := solid_simplex Hc. rewrite Ed. lia. Qed.
Lemma d0 : (0 < d)%N. Proof. have := d12. lia. Qed.
Lemma sumS (f : nat -> nat) W : (\sum_(v <- W) (f v).+1 = \sum_(v <- W) f v + size W)%N.
Proof. rewrite (eq_bigr (fun v => f v + 1)%N); last by move=> i _; rewrite addn1. by rewrite big_split /= sum1_size. Qed.
Lemma slant_pt idx : size idx = d.+1 -> sumn idx = deg -> exists e W, [/\ (e < d.+2)%N, facet_is c e W, perm_eq W (opp d.+1 0) & List.In [seq gp j | j <- idx] (ModelFam.make_points K c d e (deg + d.+1))].
Proof.
move=> Hs Hm. have [e [W [He HfW]]] := solid_opp Hc (leq0n (sdim_of c)). have := HfW. rewrite /facet_is Ed subn1 /= => Hf HP. rewrite Ed in He. exists e, W. split=> //.
have UW : uniq W by rewrite (perm_uniq HP) filter_uniq ?iota_uniq.
pose w v := (nth 0%N idx v.-1).+1.
have Eo : opp d.+1 0 = iota 1 d.+1 by rewrite -[LHS]/[seq v <- iota 1 d.+1 | v != 0%N]; apply/all_filterP/allP => v; rewrite mem_iota; lia.
have Hw v : v \in W -> (v <= sdim_of c)%N /\ (0 < w v)%N by rewrite (perm_mem HP) Eo mem_iota Ed => H; split=> //; lia.
have Hsum : (\sum_(v <- W) w v = deg + d.+1)%N.
{ rewrite (perm_big _ HP) Eo /w sumS size_iota. congr addn. by rewrite (iotaDl 1 0) big_map -Hm sumnE [RHS](big_nth 0%N) Hs /index_iota subn0. }
have [x [X1 X2 X3]] := ent_pt Hsx d0 Hf UW Hw Hsum (ltn_addl _ (ltn0Sn d)).
have -> : [seq gp j | j <- idx] = x; last exact: X1.
apply: (@eq_from_nth _ 0) => [|i]; rewrite size_map Hs; first by rewrite X2 Ed. move=> Hi. rewrite (nth_map 0%N) ?Hs // X3 ?Ed // (perm_mem HP) Eo mem_iota /=.
have -> : (i.+1 < 1 + d.+1)%N by lia. by [].
Qed.
Lemma cell_pt idx : size idx = d.+1 -> (sumn idx < deg)%N -> List.In [seq gp j | j <- idx] (ModelFam.make_points K c d.+1 0 (deg + d.+1)).
Proof.
move=> Hs Hm. have Hf := solid_cell Hc. rewrite Ed in Hf.
pose w v := if v is v'.+1 then (nth 0%N idx v').+1 else (deg - sumn idx)%N.
have Hw v : v \in iota 0 d.+2 -> (v <= sdim_of c)%N /\ (0 < w v)%N by rewrite mem_iota Ed => H; split; [lia|rewrite /w; case: v H => //; lia].
have Hsum : (\sum_(v <- iota 0 d.+2) w v = deg + d.+1)%N.
{ rewrite -[iota 0 d.+2]/(0%N :: iota 1 d.+1) big_cons (iotaDl 1 0) big_map (eq_bigr (fun v => (nth 0%N idx v).+1)) // sumS size_iota.
  have -> : (\sum_(v <- iota 0 d.+1) nth 0%N idx v = sumn idx)%N by rewrite sumnE [RHS](big_nth 0%N) Hs /index_iota subn0. rewrite addnA subnK //. exact: ltnW. }
have [x [X1 X2 X3]] := ent_pt Hsx (ltn0Sn d) Hf (iota_uniq _ _) Hw Hsum (ltn_addl _ (ltn0Sn d)).
have -> : [seq gp j | j <- idx] = x; last exact: X1.
apply: (@eq_from_nth _ 0) => [|i]; rewrite size_map Hs; first by rewrite X2 Ed. move=> Hi. rewrite (nth_map 0%N) ?Hs // X3 ?Ed // mem_iota /=.
have -> : (i.+1 < 0 + d.+2)%N by lia. by [].
Qed.
Lemma facet_pt i idx : (i < d.+1)%N -> size idx = d -> (sumn idx <= deg)%N -> exists e W, [/\ (e < d.+2)%N, facet_is c e W, perm_eq W (opp d.+1 i.+1) & List.In (ins i (org R c) [seq gp j | j <- idx]) (ModelFam.make_points K c d e (deg + d.+1))].
Proof.
move=> Hi Hs Hm. have Hi1 : (i.+1 <= sdim_of c)%N by rewrite Ed. have [e [W [He HfW]]] := solid_opp Hc Hi1. have := HfW. rewrite /facet_is Ed subn1 /= => Hf HP. rewrite Ed in He. exists e, W. split=> //.
have UW : uniq W by rewrite (perm_uniq HP) filter_uniq ?iota_uniq.
pose w v := if v is v'.+1 then (if (v' < i)%N then nth 0%N idx v' else nth 0%N idx v'.-1).+1 else (deg - sumn idx).+1.
have Hw v : v \in W -> (v <= sdim_of c)%N /\ (0 < w v)%N by rewrite (perm_mem HP) mem_filter mem_iota Ed => H; split; [lia|rewrite /w; case: v {H}].
have Eo : opp d.+1 i.+1 = 0%N :: [seq v.+1 | v <- iota 0 i] ++ [seq v.+1 | v <- iota i.+1 (d - i)].
{ have Ei : iota 0 d.+2 = 0%N :: [seq v.+1 | v <- iota 0 i] ++ i.+1 :: [seq v.+1 | v <- iota i.+1 (d - i)].
  { rewrite -[iota 0 d.+2]/(0%N :: iota 1 d.+1) (iotaDl 1 0). have -> : d.+1 = (i + (d - i).+1)%N by lia. by rewrite iotaD map_cat add0n. }
  rewrite /opp Ei -[filter _ (0%N :: _)]/(0%N :: filter (fun v => v != i.+1) _) filter_cat -[filter _ (i.+1 :: _)]/(if i.+1 != i.+1 then _ else _) eqxx.
  congr (_ :: _ ++ _); apply/all_filterP/allP => v /mapP [u]; rewrite mem_iota => Hu ->; lia. }
have Hsum : (\sum_(v <- W) w v = deg + d.+1)%N.
{ rewrite (perm_big _ HP) Eo big_cons big_cat !big_map /w !sumS !size_iota.
  have -> : (\sum_(v <- iota 0 i) (if (v < i)%N then nth 0%N idx v else nth 0%N idx v.-1) = \sum_(0 <= v < i) nth 0%N idx v)%N.
  { rewrite /index_iota subn0. apply: eq_big_seq => v. rewrite mem_iota => /andP [_ H]. by rewrite (_ : (v < i)%N). }
  have -> : (\sum_(v <- iota i.+1 (d - i)) (if (v < i)%N then nth 0%N idx v else nth 0%N idx v.-1) = \sum_(i <= v < d) nth 0%N idx v)%N.
  { rewrite (iotaDl 1 i) big_map /index_iota. apply: eq_big_seq => v. rewrite mem_iota => /andP [H _]. have -> : (1 + v < i)%N = false by apply/negbTE; rewrite -leqNgt; lia. by []. }
  have : sumn idx = (\sum_(0 <= v < i) nth 0%N idx v + \sum_(i <= v < d) nth 0%N idx v)%N.
  { rewrite -big_cat_nat //=. by rewrite sumnE (big_nth 0%N) Hs. }
  move: (\sum_(0 <= v < i) _)%N (\sum_(i <= v < d) _)%N => a b E. rewrite -[LHS]/((deg - sumn idx).+1 + ((a + i) + (b + (d - i))))%N. lia. }
have [x [X1 X2 X3]] := ent_pt Hsx d0 Hf UW Hw Hsum (ltn_addl _ (ltn0Sn d)).
have -> : ins i (org R c) [seq gp j | j <- idx] = x; last exact: X1.
apply: (@eq_from_nth _ 0) => [|j]; rewrite size_ins size_map Hs; first by rewrite X2 Ed. move=> Hj.
rewrite nth_ins ?size_map ?Hs // X3 ?Ed // (perm_mem HP) mem_filter mem_iota /= eqSS.
have -> : (j.+1 < 0 + d.+2)%N by lia. rewrite andbT /gp. case: (ltngtP j i) => Hji /=.
- by rewrite (nth_map 0%N) ?Hs //; lia.
- rewrite (nth_map 0%N) ?Hs //; lia.
- by rewrite mulr0 mul0r addr0.
Qed.
End Nodes.

Section Normals.
Variable R : rcfType.
Add Field FFrtn : (mc_field_theory R).
Notation arr := (seq (seq R)).
Variables (svd : arr -> arr * seq R * arr) (qr : arr -> arr * arr) (pop : seq nat -> nat).
Hypotheses (Hsvd : svd_correct svd) (Hqr : qr_correct qr) (Hpop : pop_correct pop).
Let R0 : char_zero R := num_char0 R.
(** a nonzero vector orthogonal to the facet opposite to vertex [i] *)
Definition facet_dir (i j : nat) : R := if i is i'.+1 then (j == i')%:R else 1.
Lemma orth_dir c W i n : solid c -> (i <= sdim_of c)%N -> perm_eq W (opp (sdim_of c) i) -> orthogonal_to (sdim_of c) (verts R c) W n -> inner (sdim_of c) n n != 0 ->
  exists2 l, l != 0 & forall j, (j < sdim_of c)%N -> nth 0 n j = l * facet_dir i j.
Proof.
move=> Hc Hi HP [Hs HO] H0. have [Hsx Hd] := solid_simplex Hc.
have D a b : a \in W -> b \in W -> (if a is a'.+1 then nth 0 n a' else 0) = (if b is b'.+1 then nth 0 n b' else 0).
{ move=> Ha Hb. have := HO a b Ha Hb. rewrite /inner.
  have Hle v : v \in W -> (v <= sdim_of c)%N by rewrite (perm_mem HP) mem_filter mem_iota => /andP [_]; lia.
  rewrite (eq_bigr (fun j : 'I_(sdim_of c) => scl R c * (nth 0 n j * (a == j.+1)%:R) - scl R c * (nth 0 n j * (b == j.+1)%:R))); last first.
  { move=> j _. rewrite /diff nth_mkseq // -[nth 0 (nth [::] (verts R c) a) j]/(vco R c a j) -[nth 0 (nth [::] (verts R c) b) j]/(vco R c b j).
    rewrite (vcoE R Hsx (Hle _ Ha) (ltn_ord j)) (vcoE R Hsx (Hle _ Hb) (ltn_ord j)). move: (org R c) (scl R c) ((a == j.+1)%:R) ((b == j.+1)%:R) (nth 0 n j) => o s x y z. fring. }
  rewrite sumrB -!mulr_sumr. 
  have S v : v \in W -> \sum_(j < sdim_of c) nth 0 n j * (v == j.+1)%:R = (if v is v'.+1 then nth 0 n v' else 0).
  { move=> Hv. case: v Hv => [|v] Hv; first by rewrite big1 // => j _; rewrite mulr0.
    have Hv' := Hle _ Hv. rewrite (bigD1 (Ordinal Hv')) //= eqxx mulr1 big1 ?addr0 // => j Hj. rewrite eqSS.
    have -> : (v == j) = false by apply/eqP => E; case/eqP: Hj; exact: val_inj. by rewrite mulr0. }
  rewrite !S // => /eqP. rewrite subr_eq0 => /eqP. exact: (mulfI (scl0 R0 c)). }
have M v : (v \in W) = (v != i) && (v < (sdim_of c).+1)%N by rewrite (perm_mem HP) mem_filter mem_iota.
case: i Hi HP M => [|i] Hi HP M.
- exists (nth 0 n 0) => [|j Hj]; last first.
  { rewrite mulr1. apply: (D j.+1 1%N); rewrite M //=. lia. }
  apply/eqP => E. move/eqP: H0; apply. rewrite /inner big1 // => j _. have -> : nth 0 n j = nth 0 n 0 by apply: (D j.+1 1%N); rewrite M //=; [exact: (ltn_ord j)|lia]. by rewrite E mulr0.
- have Z j : (j < sdim_of c)%N -> j != i -> nth 0 n j = 0 by move=> Hj Hji; apply: (D j.+1 0%N); rewrite M //= eqSS Hji.
  exists (nth 0 n i) => [|j Hj]; last first.
  { rewrite /=. case: (j =P i) => [->|/eqP Hne]; first by rewrite mulr1. by rewrite mulr0 Z. }
  apply/eqP => E. move/eqP: H0; apply. rewrite /inner big1 // => j _. case: (eqVneq (val j) i) => [->|Hne]; first by rewrite E mulr0. by rewrite Z // mulr0.
Qed.
Lemma normal_shape c e W i : solid c -> facet_is c e W -> (i <= sdim_of c)%N -> perm_eq W (opp (sdim_of c) i) ->
  exists n, scaled_normal svd qr pop c e = Ok n /\ exists2 l, l != 0 & forall j, (j < sdim_of c)%N -> nth 0 n j = l * facet_dir i j.
Proof.
move=> Hc Hf Hi HP. case: (boolP (if c is ModelCell.UFCTetrahedron then true else false)) => Hct.
- have Ec : c = ModelCell.UFCTetrahedron by case: (c) Hct. subst c. 
  have [p [q [r [Ef EW]]]] : exists p q r, W = [:: p; q; r] /\ W = opp 3 e.
  { move: Hf. rewrite /facet_is. case: (e) => [|[|[|[|e']]]]; rewrite ?[ModelCell.lookup _ _ _]/(Some _) => // -[<-]; by do 3 eexists. }
  have := C20_ufc_tetrahedron_scaled_normal qr pop Hsvd Hf Ef. move=> /= ->.
  eexists. split; first by [].
  have Ei : e = i. { move: HP Hf. rewrite EW /facet_is. clear. by case: e => [|[|[|[|e]]]]; case: i => [|[|[|[|i]]]]. }
  rewrite Ei in EW. move: EW. rewrite Ef. clear -Hi. 
  case: i Hi => [|[|[|[|i]]]] // _ [-> -> ->].
  + exists (-1); first by rewrite oppr_eq0 oner_eq0. case=> [|[|[|]]] // _; rewrite /= /diff /=; fring.
  + exists (-1); first by rewrite oppr_eq0 oner_eq0. case=> [|[|[|]]] // _; rewrite /= /diff /=; fring.
  + exists 1; first by rewrite oner_eq0. case=> [|[|[|]]] // _; rewrite /= /diff /=; fring.
  + exists (-1); first by rewrite oppr_eq0 oner_eq0. case=> [|[|[|]]] // _; rewrite /= /diff /=; fring.
- have Hnt : c <> ModelCell.UFCTetrahedron by move=> Ec; rewrite Ec in Hct.
  have [v [n [H1 _ [H2 H3] [Hv _]]]] := C20_scaled_normal Hsvd Hqr Hpop Hc Hnt Hf. eexists. split; first exact: H1.
  have Hn0 : inner (sdim_of c) n n != 0 by rewrite H3 oner_neq0.
  have [l Hl HE] := orth_dir Hc Hi HP H2 Hn0.
  exists (l * v); first by rewrite mulf_neq0 // gt_eqF.
  move=> j Hj. have Hs : size n = sdim_of c by case: H2. rewrite (nth_map 0) ?Hs // HE //. by rewrite mulrAC.
Qed.
End Normals.

Section Funs.
Variable R : rcfType.
Notation arr := (seq (seq R)).
Notation K := (mcF R).
Notation pt := [eqType of seq R].
Notation fnl := (functional R pt).
Notation nil_f := (@mkFunctional R pt [::] [::] [::]).
Variables (svd : arr -> arr * seq R * arr) (qr : arr -> arr * arr) (pop : seq nat -> nat).
Hypotheses (Hsvd : svd_correct svd) (Hqr : qr_correct qr) (Hpop : pop_correct pop).
Let R0 : char_zero R := num_char0 R.
Variables (c : cell) (deg d : nat).
Hypothesis Hc : solid c.
Hypothesis Ed : sdim_of c = d.+1.
Lemma map_res_all (A : Type) (f : A -> result fnl) (P : fnl -> Prop) l : (forall x, List.In x l -> exists y, f x = Ok y /\ P y) ->
  exists fs, [/\ map_res f l = Ok fs, size fs = size l, forall k, (k < size fs)%N -> P (nth nil_f fs k) &
    forall x, List.In x l -> exists k, (k < size fs)%N /\ f x = Ok (nth nil_f fs k)].
Proof.
elim: l => [|x l IH] H; first by exists [::]. have [y [Hy Py]] := H x (or_introl erefl). have [|fs [H1 H2 H3 H4]] := IH; first by move=> z Hz; apply: H; right.
exists (y :: fs). split; [by rewrite /= Hy H1|by rewrite /= H2| |].
- by case=> // k; exact: H3.
- move=> z /= [<-|Hz]; first by exists 0%N. have [k [Hk E]] := H4 z Hz. by exists k.+1.
Qed.
(** what every node functional is *)
Definition vec_fn (l : fnl) : Prop := [/\ target_shape l = [:: d.+1], deriv_dict l = [::] & forall E : expansion R pt, wf_functional E [:: d.+1] l].
Lemma comp_mem i : (i < d.+1)%N -> [:: i] \in comps [:: d.+1].
Proof. move=> H. apply/comps1P. by exists i. Qed.
Lemma psn_apply n e x (f : func R pt) : apply (ModelFunctional.PointScaledNormalEvaluation (geometry_with c n) e x) f = \sum_(j < d.+1) nth 0 n j * fval f [:: val j] x.
Proof.
rewrite /apply /= big_nil addr0 big_seq1 /= /ModelFunctional.against Ed big_map -(big_mkord xpredT (fun j => nth 0 n j * fval f [:: j] x)) /index_iota subn0.
by [].
Qed.
Lemma psn_fn n e x : vec_fn (ModelFunctional.PointScaledNormalEvaluation (geometry_with c n) e x).
Proof.
split=> [|//|E]; first by rewrite /= Ed. rewrite /wf_functional /= !andbT. apply/allP => wc /mapP [j]. rewrite Ed mem_iota => Hj ->. exact: comp_mem.
Qed.
Lemma cpe_ok j x : (j < d.+1)%N -> exists l, [/\ vec_node svd qr pop c (ModelFam.ComponentPoint K j x) = Ok l, vec_fn l & forall f : func R pt, apply l f = fval f [:: j] x].
Proof.
move=> Hj. rewrite /vec_node /ModelFunctional.ComponentPointEvaluation Ed /=.
have Hf : (Posz d.+1 <= Posz j)%R = false by apply/negbTE; rewrite -ltNge ltz_nat. rewrite /= in Hf. rewrite ?Hf /=. eexists. split; first by [].
- split=> // E. rewrite /wf_functional /= !andbT. exact: comp_mem.
- move=> f. by rewrite /apply /= big_nil addr0 big_seq1 /= big_seq1 mul1r.
Qed.
Lemma psn_ok e W i x : facet_is c e W -> (i <= d.+1)%N -> perm_eq W (opp d.+1 i) ->
  exists l, [/\ vec_node svd qr pop c (ModelFam.PointScaledNormal K e x) = Ok l, vec_fn l &
    exists2 la, la != 0 & forall f : func R pt, apply l f = la * \sum_(j < d.+1) facet_dir R i j * fval f [:: val j] x].
Proof.
move=> Hf Hi HP. rewrite -Ed in Hi HP. have [n [Hn [la Hla HE]]] := normal_shape Hsvd Hqr Hpop Hc Hf Hi HP.
rewrite /vec_node Hn /=. eexists. split; [by []|exact: psn_fn|]. exists la => // f. rewrite psn_apply mulr_sumr. apply: eq_bigr => j _. rewrite HE ?Ed //. by rewrite mulrA.
Qed.
Lemma facet_all e : (e < d.+2)%N -> exists W, facet_is c e W.
Proof.
move=> He. rewrite -Ed in He. suff: isSome (ModelCell.lookup (ModelCell.topology c) (ModelCell.DI (sdim_of c - 1)) e).
- rewrite /facet_is. case: (ModelCell.lookup _ _ _) => // W _. by exists W.
- clear Ed. by case: Hc He; case: (e) => [|[|[|[|e']]]].
Qed.
Lemma rt_fs : exists fs, [/\ map_res (vec_node svd qr pop c) (@ProofsEntPts.rt_point_nodes K c deg) = Ok fs,
    size fs = size (@ProofsEntPts.rt_point_nodes K c deg), forall k, (k < size fs)%N -> vec_fn (nth nil_f fs k) &
    forall l, List.In l (@ProofsEntPts.rt_point_nodes K c deg) -> exists k, (k < size fs)%N /\ vec_node svd qr pop c l = Ok (nth nil_f fs k)].
Proof.
apply: map_res_all => l. rewrite /ProofsEntPts.rt_point_nodes => /List.in_app_iff [].
- move/List.in_flat_map => [e [/Base.in_range [_ He] /List.in_map_iff [x [<- _]]]]. rewrite solid_num // Ed in He.
  have [W HW] : exists W, facet_is c e W by apply: facet_all; lia. have [i Hi HP] := facet_opp Hc HW. rewrite Ed in Hi HP.
  have [l' [H1 H2 _]] := psn_ok x HW Hi HP. by exists l'.
- case: (PeanoNat.Nat.ltb _ _) => // /List.in_flat_map [j [/Base.in_range [_ Hj] /List.in_map_iff [x [<- _]]]].
  have [|l' [H1 H2 _]] := @cpe_ok j x; first by rewrite Ed in Hj; lia. by exists l'.
Qed.
(** the nodes determine a Raviart-Thomas field *)
Lemma rt_det fs (p : nat -> seq nat -> R) (q : seq nat -> R) : map_res (vec_node svd qr pop c) (@ProofsEntPts.rt_point_nodes K c deg) = Ok fs ->
  (forall k, (k < size fs)%N -> apply (nth nil_f fs k) (rt_field d.+1 deg p q) = 0) ->
  forall i x, (i < d.+1)%N -> size x = d.+1 -> pval d.+1 deg.+1 (rt_cf deg p q i) x = 0.
Proof.
move=> Hfs H0. have [fs' [E' _ _ Hin]] := rt_fs. rewrite Hfs in E'. case: E' => E'. rewrite -E' in Hin. clear E' fs'.
have Hd := d12 Hc Ed.
have Hnd l : List.In l (@ProofsEntPts.rt_point_nodes K c deg) -> exists g, vec_node svd qr pop c l = Ok g /\ apply g (rt_field d.+1 deg p q) = 0.
{ move=> Hl. have [k [Hk E]] := Hin l Hl. exists (nth nil_f fs k). split=> //. exact: H0. }
have Hfv i x : (i < d.+1)%N -> fval (rt_field d.+1 deg p q) [:: i] x = pval d.+1 deg (p i) x + nth 0 x i * pval d.+1 deg q x.
{ move=> Hi. by rewrite /= pval_rt. }
move=> i x Hi Hx. rewrite pval_rt //.
have Hface e W i' y : facet_is c e W -> (i' <= d.+1)%N -> perm_eq W (opp d.+1 i') -> (e < d.+2)%N -> List.In y (ModelFam.make_points K c d e (deg + d.+1)) ->
   \sum_(j < d.+1) facet_dir R i' j * fval (rt_field d.+1 deg p q) [:: val j] y = 0.
{ move=> HW Hi' HP He Hy. have [l [L1 _ [la Hla L2]]] := psn_ok y HW Hi' HP.
  have [|g [G1 G2]] := Hnd (ModelFam.PointScaledNormal K e y).
  - apply/List.in_app_iff. left. apply/List.in_flat_map. exists e. split; first by apply/Base.in_range; rewrite solid_num // Ed; lia.
    apply/List.in_map_iff. exists y. split=> //. rewrite Ed. have -> : (d.+1 - 1)%coq_nat = d by lia. have -> : (d.+1 + deg)%coq_nat = (deg + d.+1)%N by lia. exact: Hy.
  - move: G1. rewrite L1 => -[G1]. move: G2. rewrite -G1 L2 => /eqP. by rewrite mulf_eq0 (negbTE Hla) => /eqP. }
refine (@rt_uni R d deg (org R c) (scl R c) (gp R c deg d) (fun i x => pval d.+1 deg (p i) x) (fun x => pval d.+1 deg q x) Hd (gp_inj Ed) (gp_org R deg Ed) (scl0 R0 c) (gp_sum R Ed) _ _ _ _ _ i x Hi Hx).
- move=> i' _. exact: is_poly_pval.
- exact: is_poly_pval.
- move=> i' idx Hi' Hs Hm. have [e [W [He HW HP Hy]]] := facet_pt R Hc Ed Hi' Hs Hm. have := Hface e W i'.+1 _ HW Hi' HP He Hy.
  rewrite (bigD1 (Ordinal Hi')) //= eqxx mul1r big1 ?addr0 => [|j Hj]; first by rewrite pval_rt.
  have -> : (j == i' :> nat) = false by apply/eqP => E; case/eqP: Hj; exact: val_inj. by rewrite mul0r.
- move=> idx Hs Hm. have [e [W [He HW HP Hy]]] := slant_pt R Hc Ed Hs Hm. have := Hface e W 0%N _ HW (leq0n _) HP He Hy.
  move=> E. rewrite -[RHS]E. apply: eq_bigr => j _. rewrite [fval _ _ _]Hfv ?ltn_ord // /facet_dir mul1r. exact: erefl.
- move=> i' idx Hi' Hs Hm. have Hy := cell_pt R Hc Ed Hs Hm. have [l [L1 _ L2]] := cpe_ok [seq gp R c deg d j | j <- idx] Hi'.
  have [|g [G1 G2]] := Hnd (ModelFam.ComponentPoint K i' [seq gp R c deg d j | j <- idx]).
  + apply/List.in_app_iff. right. have -> : PeanoNat.Nat.ltb 0 deg = true by apply/PeanoNat.Nat.ltb_lt; lia.
    apply/List.in_flat_map. exists i'. split; first by apply/Base.in_range; rewrite Ed; lia. apply/List.in_map_iff. eexists. split=> //. rewrite Ed. exact: Hy.
  + move: G1. rewrite L1 => -[G1]. move: G2. by rewrite -G1 L2 Hfv.
Qed.
End Funs.
