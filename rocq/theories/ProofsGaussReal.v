(** Reality, location and existence of the roots of P_n^(a,0); positivity of
    the Gauss-Jacobi weights. *)
Set Warnings "-notation-overridden,-ambiguous-paths".
From mathcomp Require Import all_ssreflect all_algebra all_field zify complex.
From Verif Require Import FieldTac ModelJacobi SpecJacobi ProofsJacobi ProofsOrtho ProofsOrthopoly ProofsGauss ProofsGaussRoots.
From Verif Require Base.
From Verif Require Import ModelQuad ProofsQuad SpecQuad.
Set Implicit Arguments. Unset Strict Implicit. Unset Printing Implicit Defensive.
Import Order.TTheory GRing.Theory Num.Theory.
Local Open Scope ring_scope.

Lemma num_char0 (F : numFieldType) : char_zero F.
Proof. move=> m Hm. by rewrite pnatr_eq0 -lt0n. Qed.

Lemma jacobi_poly_map (F G : fieldType) (f : {rmorphism F -> G}) (a n : nat) :
  map_poly f (jacobi_poly a%:R 0 n) = jacobi_poly a%:R 0 n.
Proof.
have Hp (c : F) m : f (poch c m) = poch (f c) m.
{ rewrite /poch rmorph_prod. apply: eq_bigr => i _. by rewrite rmorphD rmorph_nat. }
rewrite /jacobi_poly rmorph_sum. apply: eq_bigr => j _. etransitivity; first exact: (map_polyZ f).
have -> : map_poly f ((2%:R^-1 *: ('X - 1)) ^+ j) = (2%:R^-1 *: ('X - 1)) ^+ j.
{ rewrite rmorphX. congr (_ ^+ j). rewrite /= (map_polyZ f) rmorphB /= map_polyX rmorph1 fmorphV rmorph_nat. by []. }
congr (_ *: _). rewrite /jacobi_coeff !(rmorphM, fmorphV, Hp, rmorphD, rmorph_nat, rmorph1, rmorph0) //.
Qed.

Section Pos.
Variable F : realFieldType.
Let F0 : char_zero F := @num_char0 F.
Variable a : nat.
Notation P n := (jacobi_poly (a%:R : F) 0 n).
Lemma kern_pos n (x : F) : 0 < \sum_(k < n.+1) (P k).[x] * (P k).[x] / hn F a k.
Proof.
have Hh k : 0 < hn F a k by rewrite (hnE F0) divr_gt0 ?exprn_gt0 ?ltr0n.
rewrite big_ord_recl. apply: ltr_paddr.
- apply: sumr_ge0 => k _. apply: divr_ge0; last exact: ltW. by rewrite -expr2 sqr_ge0.
- by rewrite jacobi_poly0 hornerC mulr1 divr_gt0 ?ltr01.
Qed.
Lemma root_loc n (xs : seq F) x : size xs = n.+1 -> uniq xs -> all (root (P n.+1)) xs -> x \in xs ->
  -1 < x < 1 /\ 0 < gj_weight a 0 n.+1 x.
Proof.
move=> Sx Ux Rx Hx. have K := lam_kern F0 Sx Ux Rx Hx. have KP := kern_pos n x.
have LP : 0 < lam a n x by rewrite -(pmulr_lgt0 _ KP) K ltr01.
have [D0 [X0 E]] := lam_formula F0 Sx Ux Rx Hx.
rewrite (gj_weightE F0 Sx Ux Rx Hx). 
have X1 : 0 < 1 - x ^+ 2.
{ move: LP. rewrite E -mulrA -invfM pmulr_rgt0 ?exprn_gt0 ?ltr0n // invr_gt0 pmulr_lgt0 //. by rewrite exprn_even_gt0 //= D0. }
split.
- move: X1. rewrite subr_gt0 -ltr_norml => X1. rewrite -(@ltr_pexpn2r _ 2) ?nnegrE ?normr_ge0 ?ler01 //. by rewrite expr1n real_normK ?num_real.
- exact: LP.
Qed.
End Pos.

Section Exist.
Variable C : numClosedFieldType.
Let F0 : char_zero C := @num_char0 C.
Variable a : nat.
Notation P n := (jacobi_poly (a%:R : C) 0 n).
Lemma roots_exist n : exists xs : seq C, [/\ size xs = n, uniq xs & all (root (P n)) xs].
Proof.
case: n => [|n]; first by exists [::].
have [xs E] := closed_field_poly_normal (P n.+1). have L0 := lcP0 F0 a n.+1. exists xs. split.
- have := sizeP F0 a n.+1. by rewrite E size_scale ?size_prod_XsubC // => -[].
- rewrite -separable_prod_XsubC /separable_poly. 
  apply: Pdiv.ClosedField.root_coprimep => x Hx. have := @simple_root _ F0 a n x.
  rewrite E derivZ rootZ // hornerZ => /(_ Hx). apply: contraNN => /eqP ->. by rewrite mulr0.
- apply/allP => x Hx. rewrite E rootZ //. by rewrite root_prod_XsubC.
Qed.
Lemma root_real n x : root (P n) x -> x \is Num.real.
Proof.
case: n => [|n]; first by rewrite jacobi_poly0 rootE hornerC oner_eq0.
move=> R. have J k : (P k).[x^*] = ((P k).[x])^* by rewrite -horner_map jacobi_poly_map.
have := christoffel F0 a n x x^*. rewrite !J (rootP R) rmorph0 mul0r mulr0 subrr mulr0 => /eqP. rewrite mulf_eq0 => /orP [|].
- by rewrite subr_eq0 eq_sym CrealE.
- have Hh k : 0 < hn C a k by rewrite (hnE F0) divr_gt0 ?exprn_gt0 ?ltr0n.
  rewrite big_ord_recl !J jacobi_poly0 hornerC rmorph1 mulr1 => /eqP E. exfalso.
  have : 0 < 1 / hn C a 0 + \sum_(i < n) (P (lift ord0 i)).[x] * (P (lift ord0 i)).[x^*] / hn C a (lift ord0 i).
  { apply: ltr_paddr; last by rewrite divr_gt0 ?ltr01. apply: sumr_ge0 => k _. apply: divr_ge0; last exact: ltW. by rewrite J mul_conjC_ge0. }
  by rewrite E ltxx.
Qed.
End Exist.

Lemma real_roots (R : rcfType) a n : exists xs : seq R, [/\ size xs = n, uniq xs & all (root (jacobi_poly a%:R 0 n)) xs].
Proof.
have [xs [S U A]] := @roots_exist [numClosedFieldType of R[i]] a n. 
have E : map (real_complex R) (map (@complex.Re R) xs) = xs.
{ rewrite -map_comp -[RHS]map_id. apply/eq_in_map => x Hx /=. apply: RRe_real. exact: (root_real (allP A _ Hx)). }
exists (map (@complex.Re R) xs). split; first by rewrite size_map.
- by have := U; rewrite -{1}E map_inj_uniq //; exact: fmorph_inj.
- apply/allP => x Hx. have := allP A ((x%:C)%C). rewrite -{1}E map_f // => /(_ isT). 
  rewrite -(jacobi_poly_map [rmorphism of real_complex R]) fmorph_root. by [].
Qed.
