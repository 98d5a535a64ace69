(** The normal component of a Raviart-Thomas field on a facet is determined by the
    nodes of that facet. *)
Set Warnings "-notation-overridden,-ambiguous-paths".
From mathcomp Require Import all_ssreflect all_algebra zify.
From Verif Require Base ModelIndex SpecIndex ModelCell ModelFam SpecFam ModelFunctional ProofsEntPts.
From Verif Require Import FieldTac SpecJacobi ModelDual SpecDual ProofsDual ProofsDmatsReg ModelAffine SpecPoly SpecVec SpecRT ModelSpace ProofsLagLat ProofsSpace ProofsSpaceCell ProofsPolyClo ProofsRTUni ProofsVecElem
  ModelDmats ModelNormal SpecNormal ProofsNormal PropsNormalCells ModelRT ProofsGaussReal ProofsRTNodes.
Set Implicit Arguments. Unset Strict Implicit. Unset Printing Implicit Defensive.
Import Order.TTheory GRing.Theory Num.Theory.
Local Open Scope ring_scope.

Lemma opp_mem d i v : (v \in opp d i) = (v != i) && (v < d.+1)%N.
Proof. by rewrite mem_filter mem_iota. Qed.
Lemma facet_uniq c e e' W W' i : solid c -> facet_is c e W -> facet_is c e' W' -> perm_eq W (opp (sdim_of c) i) -> perm_eq W' (opp (sdim_of c) i) -> (i <= sdim_of c)%N -> e = e'.
Proof.
move=> Hc H1 H2 P1 P2 Hi. have P : perm_eq W W' by rewrite (permPl P1) perm_sym.
move: H1 H2 P {P1 P2 Hi}. rewrite /facet_is. by case: Hc; case: e => [|[|[|[|e]]]]; case: e' => [|[|[|[|e']]]] //; rewrite ?[ModelCell.lookup _ _ _]/(Some _) // => -[<-] [<-].
Qed.

Section Conf.
Variable R : rcfType.
Notation arr := (seq (seq R)).
Notation K := (mcF R).
Notation pt := [eqType of seq R].
Variables (svd : arr -> arr * seq R * arr) (qr : arr -> arr * arr) (pop : seq nat -> nat).
Hypotheses (Hsvd : svd_correct svd) (Hqr : qr_correct qr) (Hpop : pop_correct pop).
Let R0 : char_zero R := num_char0 R.
Variables (c : cell) (deg d : nat).
Hypothesis Hc : solid c.
Hypothesis Ed : sdim_of c = d.+1.
Let Hsx : SpecFam.simplex c := proj1 (solid_simplex Hc).
Let Hd := d12 Hc Ed.
Notation gpp := (gp R c deg d).
(** the plane of the facet opposite to vertex i in coordinates *)
Lemma plane_coord W i x : perm_eq W (opp d.+1 i) -> (i <= d.+1)%N -> in_plane d.+1 (verts R c) W x ->
  if i is i'.+1 then nth 0 x i' = org R c else \sum_(j < d.+1) nth 0 x j = d.+1%:R * org R c + scl R c.
Proof.
move=> HP Hi [Hx [l [Hl Hxj]]].
have Hle v : v \in W -> (v <= sdim_of c)%N by rewrite (perm_mem HP) opp_mem Ed => /andP [_]; lia.
have UW : uniq W by rewrite (perm_uniq HP) filter_uniq ?iota_uniq.
have X j : (j < d.+1)%N -> nth 0 x j = org R c + scl R c * (if j.+1 \in W then l j.+1 else 0).
{ move=> Hj. rewrite Hxj // (eq_big_seq (fun v => org R c * l v + scl R c * (l v * (v == j.+1)%:R))).
  - rewrite big_split /= -!mulr_sumr Hl mulr1. congr (_ + _ * _). case: ifP => Hin.
    + rewrite (bigD1_seq j.+1) //= eqxx mulr1 big1 ?addr0 // => v /negbTE ->. by rewrite mulr0.
    + rewrite big1_seq // => v /andP [_ Hv]. case: (v =P j.+1) => [E|_]; last by rewrite mulr0. by rewrite -E Hv in Hin.
  - move=> v Hv. rewrite -[nth 0 (nth [::] (verts R c) v) j]/(vco R c v j) vcoE ?Ed //; last by rewrite -Ed; exact: Hle.
    by rewrite mulrDr [l v * org R c]mulrC mulrCA. }
case: i HP Hi => [|i] HP Hi.
- rewrite (eq_bigr (fun j : 'I_d.+1 => org R c + scl R c * l j.+1)); last first.
  { move=> j _. rewrite X // (perm_mem HP) opp_mem /= ltnS ltn_ord. by []. }
  rewrite big_split /= -mulr_sumr sumr_const card_ord mulr_natl. congr (_ + _). rewrite -[RHS]mulr1. congr (_ * _).
  rewrite -Hl (perm_big _ HP) /=.
  have -> : opp d.+1 0 = iota 1 d.+1 by rewrite -[LHS]/[seq v <- iota 1 d.+1 | v != 0%N]; apply/all_filterP/allP => v; rewrite mem_iota; lia.
  by rewrite (iotaDl 1 0) big_map -(big_mkord xpredT (fun j => l j.+1)) /index_iota subn0.
- rewrite X // (perm_mem HP) opp_mem eqxx /= mulr0 addr0. by [].
Qed.
Lemma trace_zero p q e W n : facet_is c e W -> scaled_normal svd qr pop c e = Ok n ->
  (forall y, List.In y (ModelFam.make_points K c d e (deg + d.+1)) -> \sum_(j < d.+1) nth 0 n j * fval (rt_field d.+1 deg p q) [:: val j] y = 0) ->
  forall x, in_plane d.+1 (verts R c) W x -> \sum_(j < d.+1) nth 0 n j * fval (rt_field d.+1 deg p q) [:: val j] x = 0.
Proof.
move=> HW Hn H0 x Hx. have [i Hi HP] := facet_opp Hc HW. have [n' [Hn' [la Hla HE]]] := normal_shape Hsvd Hqr Hpop Hc HW Hi HP.
move: Hn'. rewrite Hn => -[En]. rewrite -En {n' En} in HE. rewrite Ed in Hi HP HE.
have Hfv j y : (j < d.+1)%N -> fval (rt_field d.+1 deg p q) [:: j] y = pval d.+1 deg (p j) y + nth 0 y j * pval d.+1 deg q y by move=> Hj; rewrite /= pval_rt.
pose tr y := \sum_(j < d.+1) facet_dir R i j * fval (rt_field d.+1 deg p q) [:: val j] y.
have TE y : \sum_(j < d.+1) nth 0 n j * fval (rt_field d.+1 deg p q) [:: val j] y = la * tr y.
{ rewrite mulr_sumr. apply: eq_bigr => j _. by rewrite HE // mulrA. }
have T0 y : List.In y (ModelFam.make_points K c d e (deg + d.+1)) -> tr y = 0.
{ move=> /H0 /eqP. rewrite TE mulf_eq0 (negbTE Hla) => /eqP. by []. }
rewrite TE. suff -> : tr x = 0 by rewrite mulr0.
pose C : R := if i is i'.+1 then org R c else d.+1%:R * org R c + scl R c. have CE : C = (if i is i'.+1 then org R c else d.+1%:R * org R c + scl R c) by [].
pose u y := \sum_(j < d.+1) facet_dir R i j * pval d.+1 deg (p j) y + C * pval d.+1 deg q y.
have Hu : is_poly d.+1 deg u.
{ apply: is_poly_add; last by apply: is_poly_scale; exact: is_poly_pval.
  apply: (@is_poly_sumo R d.+1 deg d.+1 (fun j y => facet_dir R i j * pval d.+1 deg (p j) y)) => j _. apply: is_poly_scale. exact: is_poly_pval. }
have tru y : \sum_(j < d.+1) facet_dir R i j * nth 0 y j = C -> tr y = u y.
{ move=> HC. rewrite /tr /u -HC mulr_suml -big_split /=. apply: eq_bigr => j _. by rewrite pval_rt // mulrDr mulrA. }
have PC := plane_coord HP Hi Hx. have Sx : size x = d.+1 by case: Hx.
have dirS i' y : (i' < d.+1)%N -> \sum_(j < d.+1) facet_dir R i'.+1 j * nth 0 y j = nth 0 y i'.
{ move=> Hi'. rewrite (bigD1 (Ordinal Hi')) //= eqxx mul1r big1 ?addr0 // => j Hj.
  have -> : (j == i' :> nat) = false by apply/eqP => E; case/eqP: Hj; exact: val_inj. by rewrite mul0r. }
clearbody u tr C. case: i Hi HP HE PC tr TE T0 C CE u Hu tru => [|i] Hi HP HE PC tr TE T0 C CE u Hu tru.
- have dir0 y : \sum_(j < d.+1) facet_dir R 0 j * nth 0 y j = \sum_(j < d.+1) nth 0 y j by apply: eq_bigr => j _; rewrite mul1r.
  rewrite tru ?dir0 ?CE //.
  pose h (y : seq R) := rcons y (C - \sum_(j < d) nth 0 y j).
  have Sh y : size y = d -> size (h y) = d.+1 by rewrite size_rcons => ->.
  have hN y j : size y = d -> (j < d.+1)%N -> nth 0 (h y) j = if (j < d)%N then nth 0 y j else C - \sum_(j < d) nth 0 y j.
  { move=> Hy Hj. rewrite nth_rcons Hy. case: ltnP => // H. have -> : (j == d) by lia. by []. }
  have hsum y : size y = d -> \sum_(j < d.+1) nth 0 (h y) j = C.
  { move=> Hy. rewrite big_ord_recr /= (hN y d) // ltnn (eq_bigr (fun j : 'I_d => nth 0 y j)); first by rewrite addrC subrK.
    move=> j _. by rewrite hN // ?ltn_ord // ltnS ltnW. }
  have Huh : is_poly d deg (fun y => u (h y)).
  { apply: (is_poly_comp Hu Sh) => j Hj. case: (ltnP j d) => Hjd.
    - apply: (@is_poly_ext _ _ _ (fun y => nth 0 y j)) => [y Hy|]; first by rewrite hN // Hjd. exact: is_poly_coord.
    - apply: (@is_poly_ext _ _ _ (fun y => C - \sum_(j < d) nth 0 y j)) => [y Hy|]; first by rewrite hN // ltnNge Hjd.
      apply: is_polyB; first exact: is_poly_const. apply: (@is_poly_sumo R d 1 d (fun j y => nth 0 y j)) => j' Hj'. exact: is_poly_coord. }
  have Z y : size y = d -> u (h y) = 0.
  { have d3 : (1 <= d <= 3)%N by lia. apply: (is_poly_grid d3 (gp_inj (R:=R) (deg:=deg) Ed) Huh) => idx Hs Hm.
    have Hs' : size (rcons idx (deg - sumn idx)%N) = d.+1 by rewrite size_rcons Hs.
    have Hm' : sumn (rcons idx (deg - sumn idx)%N) = deg by rewrite -cats1 sumn_cat /= addn0; lia.
    have Eh : h [seq gpp i | i <- idx] = [seq gpp i | i <- rcons idx (deg - sumn idx)%N].
    { rewrite map_rcons /h. congr rcons. have := gp_sum R Ed Hs' Hm'.
      rewrite sumrB sumr_const card_ord big_ord_recr /= nth_rcons Hs ltnn eqxx CE mulr_natl => E.
      have -> : \sum_(j < d) nth 0 [seq gpp i | i <- idx] j = \sum_(j < d) gpp (nth 0%N (rcons idx (deg - sumn idx)%N) j).
      { apply: eq_bigr => j _. by rewrite (nth_map 0%N) ?Hs // nth_rcons Hs ltn_ord. }
      move: E. move: (\sum_(j < d) _) (gpp _) => a b <-. by rewrite [X in X - a]addrC subrK addrAC subrr add0r. }
    rewrite Eh. have [e' [W' [_ HW' HP' Hy]]] := slant_pt R Hc Ed Hs' Hm'.
    have Ee : e = e'. { apply: (facet_uniq (i := 0%N) Hc HW HW'); by rewrite ?Ed. } rewrite -Ee in Hy.
    rewrite -tru; first exact: T0. rewrite dir0 -Eh. apply: hsum. by rewrite size_map. }
  have St : size (take d x) = d by rewrite size_takel // Sx.
  have -> : x = h (take d x); last exact: Z.
  apply: (@eq_from_nth _ 0) => [|j]; first by rewrite (Sh _ St). rewrite Sx => Hj. rewrite hN //. case: ltnP => Hjd; first by rewrite nth_take.
  have -> : j = d by lia. rewrite CE -PC [in RHS]big_ord_recr /=.
  have -> : \sum_(j0 < d) nth 0 (take d x) j0 = \sum_(j0 < d) nth 0 x j0 by apply: eq_bigr => k _; rewrite nth_take.
  by rewrite addrAC subrr add0r.
- rewrite tru ?dirS ?CE //. have d3 : (1 <= d <= 3)%N by lia.
  apply: (face_zero d3 (_ : (i <= d)%N) (gp_inj (R:=R) (deg:=deg) Ed) Hu _ Sx PC); first by rewrite -ltnS. move=> idx Hs Hm.
  have [e' [W' [_ HW' HP' Hy]]] := facet_pt R Hc Ed Hi Hs Hm.
  have Ee : e = e'. { apply: (facet_uniq (i := i.+1) Hc HW HW'); by rewrite ?Ed. } rewrite -Ee in Hy.
  rewrite -tru; first exact: T0. by rewrite dirS // nth_ins ?size_map ?Hs // ltnn eqxx CE.
Qed.
End Conf.
