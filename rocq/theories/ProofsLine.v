(** Mapping a rule on [-1,1] to an interval; the Gauss-Lobatto-Legendre nodes. *)
Set Warnings "-notation-overridden,-ambiguous-paths".
From mathcomp Require Import all_ssreflect all_algebra zify.
From Verif Require Base.
From Verif Require Import FieldTac RingTac ModelJacobi SpecJacobi ProofsJacobi ProofsOrtho ModelOrthopoly ProofsOrthopoly ProofsGauss ProofsGaussReal SpecExpansion ProofsExpOrtho ModelQuad SpecQuad ProofsQuad ProofsQuadMap PropsQuad ModelGauss SpecGauss ProofsGW ProofsGaussRule PropsGauss ProofsLobatto PropsLobatto.
Set Implicit Arguments. Unset Strict Implicit. Unset Printing Implicit Defensive.
Import Order.TTheory GRing.Theory Num.Theory.
Local Open Scope ring_scope.

Lemma zip_map2 (A B C D : Type) (f : A -> C) (g : B -> D) xs ws :
  zip (map f xs) (map g ws) = map (fun p => (f p.1, g p.2)) (zip xs ws).
Proof. elim: xs ws => [|x xs IH] [|w ws] //=. by rewrite IH. Qed.
Section Map.
Variable F : fieldType.
Hypothesis F0 : char_zero F.
Let T := two_neq0 F0.
Add Field FFm : (mc_field_theory F).
Lemma map_line_ok (c : qcell F) verts xs ws d : simplex_verts 1 verts -> size xs = size ws ->
  precision (integral (-1) 1) xs ws d ->
  exists r, [/\ map_line_rule c verts (xs, ws) = Base.Ok r, q_cell r = c,
    q_pts r = [seq [:: vtx verts 0 0 + (vtx verts 1 0 - vtx verts 0 0) * (2%:R^-1 * (1 + x))] | x <- xs],
    q_wts r = [seq 2%:R^-1 * (vtx verts 1 0 - vtx verts 0 0) * w | w <- ws] &
    forall P : {poly F}, (size P <= d.+1)%N -> integrate r (fun x => P.[nth 0 x 0]) = int_interval verts P].
Proof.
move=> Sv Ss Pr. have [A [b [E D M]]] := map1 T Sv.
rewrite /map_line_rule E /= D /=. rewrite (eq_map (fun x => M x)) /quadrature_rule !size_map Ss eqxx /=.
eexists; split; [by []|by []|by []|by []|]. move=> P SP.
rewrite /integrate /= zip_map2 big_map /int_interval. set v0 := vtx verts 0 0. set dv := vtx verts 1 0 - v0.
have -> : vtx verts 1 0 = v0 + dv by rewrite /dv addrC subrK.
have hh : 2%:R^-1 + 2%:R^-1 = 1 :> F by rewrite -mulr2n -(mulr_natr (2%:R^-1)) mulVf.
set h : F := 2%:R^-1 * dv.
have Ed : dv = h + h by rewrite -mulrDl hh mul1r.
have -> : integral v0 (v0 + dv) P = integ [rmorphism of @idfun F] (v0 + h - h) (v0 + h + h) P.
{ rewrite addrK -addrA -Ed. by rewrite -{1}(deriv_antid [rmorphism of @idfun F] F0 P) integral_deriv. }
rewrite integ_change //.
have -> : integ [rmorphism of @idfun F] (-1) 1 (P \Po ((v0 + h)%:P + h *: 'X)) = integral (-1) 1 (P \Po ((v0 + h)%:P + h *: 'X)).
{ by rewrite -{2}(deriv_antid [rmorphism of @idfun F] F0 (P \Po _)) integral_deriv. }
rewrite -(Pr _ (leq_trans (size_comp_aff P (v0 + h) h) SP)) mulr_sumr. apply: eq_bigr => x _ /=.
rewrite [RHS]mulrA; congr (_ * _). rewrite horner_comp hornerD hornerC hornerZ hornerX /=. congr (horner _ _).
rewrite mulrA [dv * _]mulrC -/h mulrDr mulr1 addrA //.
Qed.
End Map.

Section Leg.
Variable F : rcfType.
Let F0 : char_zero F := @num_char0 F.
Add Field FFn : (mc_field_theory F).
Notation L := (integral (-1) (1 : F)).
Lemma jw0 (p : {poly F}) : jweight 0 p = L p. Proof. by rewrite /jweight expr0 mul1r. Qed.
Lemma leg_pos (q : {poly F}) : q != 0 -> 0 < L ((1 - 'X ^+ 2) * (q * q)).
Proof.
move=> q0. pose n := size q. have [xs [Sx Ux Rx]] := real_roots F 0 n.+1.
have Sz : (size ((1 - 'X ^+ 2) * (q * q))%R <= n.+1.*2)%N.
{ have S1 : (size ((1 : {poly F}) - 'X ^+ 2)%R <= 3)%N.
  { apply: (leq_trans (size_add _ _)). by rewrite size_opp size_polyXn size_poly1. }
  have S2 : (size (q * q)%R <= n + n.-1)%N by apply: (leq_trans (size_mul_leq _ _)); rewrite /n; case: (size q) => // k; rewrite addnS.
  apply: (leq_trans (size_mul_leq _ _)). have : (0 < n)%N by rewrite /n lt0n size_poly_eq0.
  move: (size _) (size _) S1 S2 => a b. clearbody n. clear. lia. }
rewrite -jw0 (rule_exact F0 Sx Ux Rx Sz).
have lp x : x \in xs -> 0 < lam 0 n x /\ 0 < 1 - x ^+ 2.
{ move=> Hx. have [/andP [H1 H2] H] := root_loc Sx Ux Rx Hx. rewrite -(gj_weightE F0 Sx Ux Rx Hx). split=> //.
  have -> : 1 - x ^+ 2 = (1 - x) * (x - -1) by fring. by rewrite mulr_gt0 // subr_gt0. }
have [x Hx qx] : exists2 x, x \in xs & q.[x] != 0.
{ have : ~~ all (root q) xs by apply/negP => H; have := max_poly_roots q0 H Ux; rewrite Sx -/n ltnNge leqnSn.
  case/allPn => x Hx Hq. by exists x. }
have E y : ((1 - 'X ^+ 2) * (q * q)).[y] = (1 - y ^+ 2) * (q.[y] * q.[y]) by rewrite !hornerM hornerD hornerN hornerXn hornerC.
rewrite (big_rem x) //=. apply: ltr_paddr.
- rewrite big_seq. apply: sumr_ge0 => y Hy. have [A B] := lp y (mem_rem Hy). rewrite E.
  apply: mulr_ge0; first exact: ltW. apply: mulr_ge0; first exact: ltW. by rewrite -expr2 sqr_ge0.
- have [A B] := lp x Hx. rewrite E. apply: mulr_gt0 => //. apply: mulr_gt0 => //. by rewrite -expr2 exprn_even_gt0.
Qed.
Notation p k := (monic_p (ralpha 0 0) (rbeta (0 : F) 0 2%:R) k).
Lemma lc_pos k : 0 < lc (0 : F) 0 k.
Proof.
elim/ltn_ind: k => -[|[|k]] IH; rewrite ?ltr01 //=; first by rewrite !add0r divff ?ltr01 // pnatr_eq0.
apply: mulr_gt0; first exact: (IH k.+1).
rewrite /jac_a3 /jac_a1 !addr0.
have X1 : 0 < k.+2%:R :> F by rewrite ltr0n.
have X2 : 0 < 2%:R * k.+2%:R - 2%:R :> F by rewrite subr_gt0 -natrM ltr_nat; lia.
have X3 : 0 < 2%:R * k.+2%:R - 1 :> F by rewrite subr_gt0 -natrM ltr1n; lia.
have X4 : 0 < 2%:R * k.+2%:R :> F by rewrite -natrM ltr0n.
apply: divr_gt0; repeat apply: mulr_gt0 => //.
Qed.
Lemma leg_at1 k : 0 < (p k).[1].
Proof.
have R := @rega F F0 0 k. have := jacobi_at1 (0 : F) 0 k. rewrite (jacobi_monic F0 2%:R R (leqnn k)) hornerZ add0r poch1.
rewrite divff ?(fact_neq0 F0) // => E.
rewrite -(pmulr_rgt0 _ (lc_pos k)) E. exact: ltr01.
Qed.
Lemma ralpha0 k : ralpha (0 : F) 0 k = 0.
Proof. case: k => [|k]; by rewrite /ralpha ?subrr ?mul0r. Qed.
Lemma leg_par k x : (p k).[- x] = (-1) ^+ k * (p k).[x].
Proof.
elim/ltn_ind: k => -[|[|k]] IH.
- by rewrite /monic_p /= !hornerC mulr1.
- have -> : p 1 = 'X - (ralpha 0 0 0)%:P by []. rewrite ralpha0 subr0 !hornerX expr1. by rewrite mulN1r.
- rewrite mon_rec !(hornerD, hornerM, hornerN, hornerX, hornerC, hornerZ) ralpha0 !subr0 (IH k.+1) // (IH k) //.
  rewrite !exprS. move: ((-1) ^+ k) (rbeta _ _ _ _) (horner _ _) (horner _ _) => e b u v. rewrite !mulN1r. fring.
Qed.
Lemma leg_atm1 k : 0 < (-1) ^+ k * (p k).[-1].
Proof. rewrite leg_par mulrA -exprMn mulrNN mulr1 expr1n mul1r. exact: leg_at1. Qed.

Lemma zip_sum (xs ws : seq F) (f : F -> F) : size ws = size xs ->
  \sum_(xw <- zip xs ws) xw.2 * f xw.1 = \sum_(i < size xs) nth 0 ws i * f (nth 0 xs i).
Proof.
move=> S. rewrite (big_nth (0, 0)) size_zip S minnn big_mkord. apply: eq_bigr => i _. by rewrite nth_zip.
Qed.
Lemma loc_in xs ws y d : uniq xs -> size ws = size xs -> all (fun w => 0 < w) ws -> precision L xs ws d ->
  (size xs + size xs <= d.+4)%N -> -1 \in xs -> 1 \in xs -> y \in xs -> y != -1 -> y != 1 -> -1 < y < 1.
Proof.
move=> Ux Sw Pw Pr Sd M1 P1 Hy y1 y2.
pose rs := [seq z <- xs | z \notin [:: y; 1; -1]]. pose q : {poly F} := \prod_(z <- rs) ('X - z%:P).
have q0 : q != 0 by apply: monic_neq0; exact: monic_prod_XsubC.
have one : 1 != -1 :> F by rewrite -subr_eq0 opprK -mulr2n pnatr_eq0.
have Srs : (size rs + 3 = size xs)%N.
{ rewrite -(count_predC (fun z => z \notin [:: y; 1; -1]) xs) size_filter. congr (_ + _)%N.
  have -> : count (predC (fun z => z \notin [:: y; 1; -1])) xs = size [:: y; 1; -1]; last by [].
  rewrite (@eq_count _ _ (mem [:: y; 1; -1])); last by move=> z /=; rewrite negbK.
  rewrite -size_filter. apply: perm_size. apply: uniq_perm.
  - exact: filter_uniq.
  - by rewrite /= !inE negb_or y2 y1 one.
  - move=> z. rewrite mem_filter !inE. case: (z =P y) => [->|_] /=; first by rewrite Hy.
    case: (z =P 1) => [->|_] /=; first by rewrite P1. case: (z =P -1) => [->|_] /=; by rewrite ?M1. }
have Sq : size q = (size rs).+1 by rewrite size_prod_XsubC.
have Sz : (size ((1 - 'X ^+ 2) * (q * q))%R <= d.+1)%N.
{ have S1 : (size ((1 : {poly F}) - 'X ^+ 2)%R <= 3)%N.
  { apply: (leq_trans (size_add _ _)). by rewrite size_opp size_polyXn size_poly1. }
  have S2 : (size (q * q)%R <= (size rs) + (size rs).+1)%N by apply: (leq_trans (size_mul_leq _ _)); rewrite Sq addSn.
  apply: (leq_trans (size_mul_leq _ _)). have {}S1 : (size ((1 : {poly F}) - 'X ^+ 2)%R + size (q * q)%R <= 3 + (size rs + (size rs).+1))%N by exact: leq_add.
  move: S1 Srs Sd. move: (size _ + size (q * q)%R)%N. clear. move: (size rs) (size xs) => a b u. lia. }
have E z : ((1 - 'X ^+ 2) * (q * q)).[z] = (1 - z ^+ 2) * (q.[z] * q.[z]) by rewrite !hornerM hornerD hornerN hornerXn hornerC.
have Z z : z \in xs -> z != y -> (1 - z ^+ 2) * (q.[z] * q.[z]) = 0.
{ move=> Hz zy. have [->|z1] := eqVneq z 1; first by rewrite expr1n subrr mul0r.
  have [->|z2] := eqVneq z (-1); first by rewrite sqrrN expr1n subrr mul0r.
  have /eqP -> : root q z; last by rewrite !mulr0. rewrite root_prod_XsubC mem_filter Hz !inE !negb_or zy z1 z2. by []. }
have := leg_pos q0. rewrite -(Pr _ Sz) (@zip_sum _ _ (fun x => ((1 - 'X ^+ 2) * (q * q)).[x])) //.
have Hi : (index y xs < size xs)%N by rewrite index_mem.
rewrite (bigD1 (Ordinal Hi)) //= big1 ?addr0; last first.
{ move=> i Ne. rewrite E Z ?mulr0 ?mem_nth //. apply: contra Ne => /eqP Ne. rewrite -val_eqE /=. by rewrite -Ne index_uniq. }
rewrite nth_index // E.
have w0 : 0 < nth 0 ws (index y xs) by move/allP: Pw; apply; rewrite mem_nth // Sw.
rewrite pmulr_rgt0 // => H. have qq : 0 <= q.[y] * q.[y] by rewrite -expr2 sqr_ge0.
have : 0 < 1 - y ^+ 2.
{ rewrite ltNge. apply/negP => H2. move: H. rewrite ltNge => /negP; apply. exact: mulr_le0_ge0. }
move=> X1. move: X1. rewrite subr_gt0 -ltr_norml => X1. rewrite -(@ltr_pexpn2r _ 2) ?nnegrE ?normr_ge0 ?ler01 //. by rewrite expr1n real_normK ?num_real.
Qed.
End Leg.
