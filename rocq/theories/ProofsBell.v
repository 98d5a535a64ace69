(** Lemmas for the Bell element. *)
Set Warnings "-notation-overridden,-ambiguous-paths".
From Coq Require Import ZArith String.
From mathcomp Require Import all_ssreflect all_algebra zify.
From Verif Require Base SpecGeom ProofsGeom ModelIndex ModelCell SpecCell SpecFam ModelFam PropsFam ModelFunctional ModelGeom ModelQuad ModelScheme ModelJacobi PropsFunctional.
From Verif Require Import FieldTac SpecJacobi SpecQuad PropsQuad ProofsTaylor ProofsJacobi ProofsOrtho ProofsDmatsReg PropsSimplexTopo PropsExpansion ModelDual SpecDual SpecPoly ModelSpace SpecRT SpecJet.
From Verif Require Import ModelExpansion ModelDmats ModelAffine ProofsLagLat ProofsSpace ProofsSpaceCell ProofsPolyClo ProofsElem PropsConform ProofsRestr ProofsJet
  ModelNormal SpecNormal PropsNormalCells ProofsGaussReal ProofsRTNodes ModelC1 SpecC1 ProofsC1Uni ProofsC1Edge ProofsC1 ModelBell SpecBell.
Set Implicit Arguments. Unset Strict Implicit. Unset Printing Implicit Defensive.
Import Order.TTheory GRing.Theory Num.Theory.
Local Open Scope ring_scope.

Section Alg.
Variable F : fieldType.
Add Field FFbl0 : (mc_field_theory F).
Lemma leg_alg (y : F) : 2%:R != 0 :> F -> 3%:R != 0 :> F -> 4%:R != 0 :> F ->
  7%:R / 4%:R * (2%:R * y - 1) * (5%:R / 3%:R * (2%:R * y - 1) * (3%:R / 2%:R * (2%:R * y - 1) * (2%:R^-1 * (2%:R * (2%:R * y - 1))) - 1 / 2%:R * 1) - 2%:R / 3%:R * (2%:R^-1 * (2%:R * (2%:R * y - 1)))) -
  3%:R / 4%:R * (3%:R / 2%:R * (2%:R * y - 1) * (2%:R^-1 * (2%:R * (2%:R * y - 1))) - 1 / 2%:R * 1) =
  70%:R * y ^+ 4 - 140%:R * y ^+ 3 + 90%:R * y ^+ 2 - 20%:R * y + 1.
Proof.
move=> T2 T3 T4.
have -> : 70%:R = 2%:R * 5%:R * 7%:R :> F by rewrite -!natrM. have -> : 140%:R = 2%:R * 2%:R * 5%:R * 7%:R :> F by rewrite -!natrM.
have -> : 90%:R = 2%:R * 3%:R * 3%:R * 5%:R :> F by rewrite -!natrM. have -> : 20%:R = 2%:R * 2%:R * 5%:R :> F by rewrite -!natrM.
have E n : n.+1%:R = n%:R + 1 :> F by rewrite -addn1 natrD.
rewrite ![7%:R](E 6%N) ![6%:R](E 5%N) ![5%:R](E 4%N) ![4%:R](E 3%N) ![3%:R](E 2%N) ![2%:R](E 1%N) in T2 T3 T4 *.
ffield. repeat split; nz.
Qed.
End Alg.
Section Leg.
Variable R : rcfType.
Let R0 : char_zero R := num_char0 R.
Add Field FFbl : (mc_field_theory R).
Notation leg := (leg4 R).
Lemma leg_val (y : R) : leg.[y] = 70%:R * y ^+ 4 - 140%:R * y ^+ 3 + 90%:R * y ^+ 2 - 20%:R * y + 1.
Proof. by rewrite /leg4 !(hornerD, hornerN, hornerZ, hornerXn, hornerX, hornerC). Qed.
Lemma size_leg : (size leg <= 5)%N.
Proof.
have Sz c k : (k < 5)%N -> (size (c *: 'X^k : {poly R}) <= 5)%N by move=> Hk; apply: (leq_trans (size_scale_leq _ _)); rewrite size_polyXn.
have -> : leg = 70%:R *: 'X^4 - 140%:R *: 'X^3 + 90%:R *: 'X^2 - 20%:R *: 'X^1 + 1 *: 'X^0 by rewrite expr1 expr0 scale1r.
by do 4 (apply: (leq_trans (size_add _ _)); rewrite geq_max ?size_opp Sz // ?andbT); rewrite Sz.
Qed.
(** the Legendre moment of a quartic sees the leading coefficient only *)
Lemma leg_mono k : integral 0 1 (leg * 'X^k : {poly R}) = 70%:R / (k + 5)%:R - 140%:R / (k + 4)%:R + 90%:R / (k + 3)%:R - 20%:R / (k + 2)%:R + 1 / (k + 1)%:R.
Proof.
have M j : integral 0 1 ('X^j * 'X^k : {poly R}) = 1 / (k + j.+1)%:R.
{ rewrite -exprD integral_Xn; last exact: R0. rewrite expr1n expr0n subr0. by have -> : (k + j.+1)%N = (j + k).+1 by rewrite addnS addnC. }
have -> : leg * 'X^k = 70%:R *: ('X^4 * 'X^k) - 140%:R *: ('X^3 * 'X^k) + 90%:R *: ('X^2 * 'X^k) - 20%:R *: ('X^1 * 'X^k) + 1 *: ('X^0 * 'X^k).
{ by rewrite /leg4 !(mulrDl, mulNr) -!scalerAl expr1 expr0 scale1r. }
by rewrite !integralD !integralN !integralZ !M !mulrA !mulr1.
Qed.
Lemma nz_nat n : (0 < n)%N -> n%:R != 0 :> R. Proof. by case: n => // n _; exact: R0. Qed.
Lemma frac_eq (a b c d e : nat) (x y z w v : nat) (p q : nat) : (0 < x)%N -> (0 < y)%N -> (0 < z)%N -> (0 < w)%N -> (0 < v)%N -> (0 < q)%N ->
  ((a * (y * z * w * v) + c * (x * y * w * v) + e * (x * y * z * w)) * q)%N = (p * (x * y * z * w * v) + (b * (x * z * w * v) + d * (x * y * z * v)) * q)%N ->
  a%:R / x%:R - b%:R / y%:R + c%:R / z%:R - d%:R / w%:R + e%:R / v%:R = p%:R / q%:R :> R.
Proof.
move=> Hx Hy Hz Hw Hv Hq /(congr1 (fun n => n%:R : R)). rewrite !(natrD, natrM).
move: (nz_nat Hx) (nz_nat Hy) (nz_nat Hz) (nz_nat Hw) (nz_nat Hv) (nz_nat Hq).
move: (a%:R : R) (b%:R : R) (c%:R : R) (d%:R : R) (e%:R : R) (x%:R : R) (y%:R : R) (z%:R : R) (w%:R : R) (v%:R : R) (p%:R : R) (q%:R : R) => {a b c d e x y z w v p q Hx Hy Hz Hw Hv Hq} a b c d e x y z w v p q Hx Hy Hz Hw Hv Hq E.
have P : x * y * z * w * v * q != 0 by do 5 (apply: mulf_neq0 => //). apply: (mulIf P).
have -> : (a / x - b / y + c / z - d / w + e / v) * (x * y * z * w * v * q) = (a * (y * z * w * v) + c * (x * y * w * v) + e * (x * y * z * w)) * q - (b * (x * z * w * v) + d * (x * y * z * v)) * q by ffield; repeat split; nz.
rewrite E addrK. ffield. repeat split; nz.
Qed.
Lemma leg_moment (N : {poly R}) : (size N <= 5)%N -> integral 0 1 (leg * N) = N`_4 / 630%:R.
Proof.
move=> SN. have E : N = \sum_(i < 5) N`_i *: 'X^i.
{ apply/polyP => j. rewrite coef_sum. case: (ltnP j 5) => Hj.
  - rewrite (bigD1 (Ordinal Hj)) //= coefZ coefXn eqxx mulr1 big1 ?addr0 // => i Hi. rewrite coefZ coefXn. case: eqP => [E|]; last by rewrite mulr0. by move: Hi; rewrite -val_eqE /= E eqxx.
  - rewrite (nth_default _ (leq_trans SN Hj)) big1 // => i _. rewrite coefZ coefXn. case: eqP => [E|]; last by rewrite mulr0. by move: Hj; rewrite E leqNgt ltn_ord. }
rewrite {1}E mulr_sumr integral_sum. under eq_bigr do rewrite -scalerAr integralZ leg_mono.
rewrite !big_ord_recr big_ord0 /= add0r.
have -> : 70%:R / (0 + 5)%:R - 140%:R / (0 + 4)%:R + 90%:R / (0 + 3)%:R - 20%:R / (0 + 2)%:R + 1 / (0 + 1)%:R = 0%:R / 1%:R :> R by apply: (@frac_eq 70 140 90 20 1); [by []|by []|by []|by []|by []|by []|lia].
have -> : 70%:R / (1 + 5)%:R - 140%:R / (1 + 4)%:R + 90%:R / (1 + 3)%:R - 20%:R / (1 + 2)%:R + 1 / (1 + 1)%:R = 0%:R / 1%:R :> R by apply: (@frac_eq 70 140 90 20 1); [by []|by []|by []|by []|by []|by []|lia].
have -> : 70%:R / (2 + 5)%:R - 140%:R / (2 + 4)%:R + 90%:R / (2 + 3)%:R - 20%:R / (2 + 2)%:R + 1 / (2 + 1)%:R = 0%:R / 1%:R :> R by apply: (@frac_eq 70 140 90 20 1); [by []|by []|by []|by []|by []|by []|lia].
have -> : 70%:R / (3 + 5)%:R - 140%:R / (3 + 4)%:R + 90%:R / (3 + 3)%:R - 20%:R / (3 + 2)%:R + 1 / (3 + 1)%:R = 0%:R / 1%:R :> R by apply: (@frac_eq 70 140 90 20 1); [by []|by []|by []|by []|by []|by []|lia].
have -> : 70%:R / (4 + 5)%:R - 140%:R / (4 + 4)%:R + 90%:R / (4 + 3)%:R - 20%:R / (4 + 2)%:R + 1 / (4 + 1)%:R = 1%:R / 630%:R :> R by apply: (@frac_eq 70 140 90 20 1); [by []|by []|by []|by []|by []|by []|lia].
by rewrite !mul0r !mulr0 !add0r mul1r.
Qed.
(** jacobi.py gives this polynomial *)
Lemma jac_k n (x : R) st : ModelJacobi.jac_step 0 0 x st n.+2 =
  (st.1.2, ((2 * n + 3)%:R / n.+2%:R * x) * st.1.2 - n.+1%:R / n.+2%:R * st.1.1, ((2 * n + 3)%:R / n.+2%:R * x) * st.1.2 - n.+1%:R / n.+2%:R * st.1.1).
Proof.
case: st => [[p2 p1] p0]. have T2 : n.+2%:R != 0 :> R by exact: R0. have T1 : n.+1%:R != 0 :> R by exact: R0. have T : 2%:R != 0 :> R by exact: R0.
have E k a b : ModelJacobi.jac_step 0 0 x (p2, p1, p0) k = (p1, a, a) -> a = b -> ModelJacobi.jac_step 0 0 x (p2, p1, p0) k = (p1, b, b) by move=> -> ->.
apply: E; first by reflexivity. rewrite /ModelJacobi.jac_a1 /ModelJacobi.jac_a2 /ModelJacobi.jac_a3 /ModelJacobi.jac_a4 /=.
have E2 : n.+2%:R = n.+1%:R + 1 :> R by rewrite -addn1 natrD. have -> : (2 * n + 3)%:R = 2%:R * n.+1%:R + 1 :> R by rewrite -natrM -[1]/(1%:R) -natrD; congr _%:R; lia.
move: T2. rewrite !E2 !addr0 ?subr0 -[2%:R]/(1 + 1 : R) in T *. move: T1 T. move: (n.+1%:R : R) => m T1 T T2. 
have -> : (1 + 1) * (m + 1) - (1 + 1) = (1 + 1) * m :> R by fring.
ffield. repeat split; nz.
Qed.
Lemma leg_jacobi (y : R) : ModelJacobi.eval_jacobi 0 0 4 (2%:R * y - 1) = leg.[y].
Proof.
have Fo x st : foldl (ModelJacobi.jac_step 0 0 x) st [:: 2; 3; 4]%N = ModelJacobi.jac_step 0 0 x (ModelJacobi.jac_step 0 0 x (ModelJacobi.jac_step 0 0 x st 2) 3) 4 by [].
rewrite leg_val /ModelJacobi.eval_jacobi [iota _ _]/= Fo !jac_k. set x := 2%:R * y - 1. cbn [fst snd]. rewrite /x {x}.
have T2 : 2%:R != 0 :> R by exact: R0. have T3 : 3%:R != 0 :> R by exact: R0. have T4 : 4%:R != 0 :> R by exact: R0.
have F3 : (2 * 0 + 3)%:R = 3%:R :> R by []. have F5 : (2 * 1 + 3)%:R = 5%:R :> R by []. have F7 : (2 * 2 + 3)%:R = 7%:R :> R by [].
rewrite ?F3 ?F5 ?F7 ?subrr ?addr0 ?add0r. exact: leg_alg.
Qed.
End Leg.

Section Bell.
Variable R : rcfType.
Notation K := (mcF R).
Notation arr := (seq (seq R)).
Notation V c v := (nth [::] (ModelCell.vertices K c : seq (seq R)) v).
Notation vts c := (ModelCell.vertices K c : seq (seq R)).
Let R0 : char_zero R := num_char0 R.
Notation D al cf y := (pder 2 5 cf al y).
Add Field FFbl2 : (mc_field_theory R).

(** a quintic whose second-order jets at the ends of an edge and whose Legendre
    moment of the normal derivative vanish *)
Lemma moment_low (x z n : seq R) cf : integral 0 1 (leg4 R * N0 5 cf x z n) = 0 -> (size (N0 5 cf x z n) <= 4)%N.
Proof.
have S5 : (size (N0 5 cf x z n) <= 5)%N.
{ rewrite /N0. apply: (leq_trans (size_add _ _)). rewrite geq_max. apply/andP; split; apply: (leq_trans (size_scale_leq _ _)); apply: (leq_trans (lpoly_size _ _ _ _ _ _)); by rewrite !big_ord_recl big_ord0. }
rewrite leg_moment // => /eqP. rewrite mulf_eq0 invr_eq0. case/orP => [/eqP H|/eqP H]; last by have := R0 (isT : (0 < 630)%N); rewrite H eqxx.
case: (ltnP 4 (size (N0 5 cf x z n))) => // H5. have E : size (N0 5 cf x z n) = 5%N by apply/eqP; rewrite eqn_leq S5.
have := lead_coef_eq0 (N0 5 cf x z n). rewrite /lead_coef E /= H eqxx => /esym/eqP H0. by rewrite H0 size_poly0 in E.
Qed.
Lemma bell_flat (x z n : seq R) cf : size x = 2%N -> size z = 2%N -> nth 0 n 0 * nth 0 (ed x z) 1 - nth 0 n 1 * nth 0 (ed x z) 0 != 0 ->
  jet0 5 cf x -> jet0 5 cf z -> integral 0 1 (leg4 R * N0 5 cf x z n) = 0 ->
  forall t, pval 2 5 cf (along 2 x (ed x z) t) = 0 /\ grad0 5 cf (along 2 x (ed x z) t).
Proof.
move=> Sx Sz Hdet Jx Jz Hm.
have J0 : jet0 5 cf (along 2 x (ed x z) 0) by rewrite on0. have J1 : jet0 5 cf (along 2 x (ed x z) 1) by rewrite on1.
have T2 t : jet0 5 cf (along 2 x (ed x z) t) -> ('X - t%:P) ^+ 2 %| N0 5 cf x z n.
{ move=> [_ [H1 H2] [H3 H4 H5]]. apply: dvd_double; first by rewrite N0ev H1 H2 !mulr0 addr0.
  by rewrite /N0 derivD !derivZ !der2 !(hornerD, hornerZ) !ev H3 H4 H5 !(mulr0, addr0). }
have EN : N0 5 cf x z n = 0.
{ apply: (@zeros_count _ _ (zs R 2 1)); first by exact: (zs_uniq R0 Sx Sz 2 (m := 1) isT).
  - apply: (zs_in Sx Sz); [by have := T2 0 J0; rewrite subr0|exact: T2|by case].
  - rewrite zs_sum. exact: (moment_low Hm). }
apply: (edge_flat R0 Sx Sz Hdet) => //; first by case.
move=> k Hk. by rewrite -N0ev EN horner0.
Qed.
Lemma edge_pointE c a b t : edge_point c a b t = along 2 (V c a) (ed (V c a) (V c b)) t.
Proof. by apply: (@eq_from_nth _ 0); rewrite ?size_mkseq // => i Hi; rewrite !nth_mkseq //; case: i Hi => [|[|i]]. Qed.
Lemma trace_N0 c a b n cf (N : {poly R}) : normal_trace c a b n (pder 2 5 cf) N -> N = N0 5 cf (V c a) (V c b) n.
Proof.
move=> H. apply/eqP. rewrite -subr_eq0. apply/eqP. apply: (poly_all0 R0) => t. by rewrite hornerD hornerN H edge_pointE N0ev subrr.
Qed.
(** the map of an edge of the UFC triangle *)
Notation tri := ModelCell.UFCTriangle.
Lemma tri_map e a b : facet_is tri e [:: a; b] -> exists T, @ModelGeom.get_entity_transform K tri (ModelCell.DI (sdim_of tri - 1)) e = Base.Ok T /\
  forall t, T [:: t] = Base.Ok (edge_point tri a b t).
Proof.
move=> Hf. exists (ModelGeom.affine_transform (K := K) 2 1 (ProofsGeom.ufc_verts (K := K) 1) [:: V tri a; V tri b]).
have Hin : (a, b, e) \in [:: (1, 2, 0); (0, 2, 1); (0, 1, 2)]%N by move: Hf; case: e => [|[|[|e]]] //; rewrite /facet_is ?[ModelCell.lookup _ _ _]/(Some _) => -[<- <-].
split; first by move: Hin; rewrite !inE => /or3P [] /eqP [-> -> ->]; reflexivity.
move=> t. have Hab : (a <= 2)%N /\ (b <= 2)%N by move: Hin; rewrite !inE => /or3P [] /eqP [-> -> _].
have L v : (v <= 2)%N -> Datatypes.length (V tri v) = 2%N by case: v => [|[|[|v]]].
rewrite (ProofsGeom.affine_closed (K := K)); [|lia|by []|by repeat constructor; apply: L; case: Hab|by []].
congr Base.Ok. rewrite /SpecGeom.comb /SpecGeom.bary [List.seq _ _]/= [List.combine _ _]/= [List.map _ _]/=.
have Z (u v : R) : addF (mulF (subF (oneF R) (addF t (zeroF R))) u) (addF (mulF t v) (zeroF R)) = u + (t : R) * (v - u).
{ rewrite /addF /mulF /subF /oneF /zeroF. fring. }
by rewrite /edge_point /mkseq /= !Z !Lnth.
Qed.
Definition bell_dnode (c : cell) (a b : nat) (n : seq R) (Q : ModelQuad.rule R) : dnode R :=
  flatten [seq [seq ((ModelQuad.q_wts Q)`_j * n`_i * (bell_weights Q)`_j, edge_point c a b (nth 0 (nth [::] (ModelQuad.q_pts Q) j) 0), ModelFunctional.e_ 2 i) | i <- iota 0 2] | j <- iota 0 (size (ModelQuad.q_pts Q))].
Variables (svd : arr -> arr * seq R * arr) (qr : arr -> arr * arr) (pop : seq nat -> nat).
Hypotheses (Hsvd : svd_correct svd) (Hqr : qr_correct qr) (Hpop : pop_correct pop).
Variable gjp : nat -> nat -> nat -> seq R.
Hypothesis G : gauss_points gjp 5.
Lemma edge_inj e a b : facet_is tri e [:: a; b] -> injective (@edge_point R tri a b).
Proof.
move=> Hf s t E. have [N1 N2 N3] := nrm_ok Hsvd Hqr Hpop (c := tri) erefl Hf. have Hdet := ProofsC1.edge_det (c := tri) erefl Hf N2 N3.
have E0 := congr1 (fun x => nth 0 x 0) E. have E1 := congr1 (fun x => nth 0 x 1) E. rewrite !edge_pointE !nth_mkseq //= in E0 E1.
move/addrI in E0. move/addrI in E1. case: (eqVneq s t) => // Hst. exfalso. move/eqP: Hdet. apply.
have D u : s * u = t * u -> u = 0 by move/eqP; rewrite -subr_eq0 -mulrBl mulf_eq0 subr_eq0 (negbTE Hst) => /eqP.
have -> : nth 0 (ed (V tri a) (V tri b)) 0 = 0 := D _ E0. have -> : nth 0 (ed (V tri a) (V tri b)) 1 = 0 := D _ E1. by rewrite !mulr0 subrr.
Qed.
Lemma bell_moment_ok e a b m k : facet_is tri e [:: a; b] ->
  exists f nd, [/\ bell_node svd qr pop gjp tri (ModelFam.Moment K ModelFam.MNormalDerivative m e k) = Ok f, realizes 2 f nd &
    forall g fd (N : {poly R}), (size N <= 6)%N -> normal_trace tri a b (nrm svd qr pop tri e) fd N -> dval nd g fd = integral 0 1 (leg4 R * N)].
Proof.
move=> Hf. have [T [T1 T2]] := tri_map Hf. have [N1 _ _] := nrm_ok Hsvd Hqr Hpop (c := tri) erefl Hf.
have Sv : simplex_verts 1 [:: [:: 0 : R]; [:: 1]] by split=> // v; rewrite !inE => /orP [] /eqP ->.
have [Q [Q1 Q2 Q3 Q4 Q5]] := C28_interval (F := R) true R0 (isT : (0 < 5)%N) G Sv.
have LS := line_shape true R0 (isT : (0 < 5)%N) G Sv. rewrite Q1 in LS. case: LS => LS.
have BR : bell_rule gjp = Base.Ok Q by rewrite -Q1.
have P1 p : p \in ModelQuad.q_pts Q -> p = [:: nth 0 p 0] by rewrite LS /= => /mapP [x _ ->].
have U : uniq (ModelQuad.q_pts Q).
{ rewrite LS /= map_inj_in_uniq; first by case: (G (isT : (0 <= 2)%N)).
  move=> x y _ _ []. rewrite /SpecQuad.vtx /= subr0 !mulr1 !add0r. rewrite /ht => /(mulfI _) H. apply: (addrI 1). apply: H. by rewrite invr_eq0 R0. }
rewrite /bell_node BR N1 T1 [bind _ _]/=.
set f := ModelFunctional.IntegralMomentOfNormalDerivative _ _ _ _. exists f, (bell_dnode tri a b (nrm svd qr pop tri e) Q).
pose items : seq (seq R * seq (R * seq nat * seq nat)) := [seq (edge_point tri a b (nth 0 (nth [::] (ModelQuad.q_pts Q) j) 0),
   [seq ((ModelQuad.q_wts Q)`_j * (nrm svd qr pop tri e)`_i * (bell_weights Q)`_j, ModelFunctional.e_ 2 i, [::]) | i <- iota 0 2]) | j <- iota 0 (size (ModelQuad.q_pts Q))].
have Ui : uniq [seq kv.1 | kv <- items].
{ rewrite -map_comp. rewrite (_ : map _ _ = [seq edge_point tri a b (nth 0 x 0) | x <- ModelQuad.q_pts Q]); last first.
  { rewrite -[in RHS](mkseq_nth [::] (ModelQuad.q_pts Q)) /mkseq -map_comp. exact: eq_map. }
  rewrite map_inj_in_uniq // => x y /P1 Hx /P1 Hy /(edge_inj Hf) Exy. by rewrite Hx Hy Exy. }
have Ef : f = mkFunctional [::] [::] items.
{ rewrite /f /ModelFunctional.IntegralMomentOfNormalDerivative. congr mkFunctional. rewrite -[RHS](PropsFunctional.build_uniq Ui). congr ModelFunctional.build.
  apply/eq_in_map => j. rewrite mem_iota => Hj. have /P1 Ej : nth [::] (ModelQuad.q_pts Q) j \in ModelQuad.q_pts Q by apply: mem_nth.
  congr (_, _). rewrite /geometry_map [ModelFunctional.transform _]/= [ModelFunctional.qpts _]/= [in LHS]Ej T2. by []. }
have Dv f0 fd : dval (bell_dnode tri a b (nrm svd qr pop tri e) Q) f0 fd = \sum_(j <- iota 0 (size (ModelQuad.q_pts Q)))
  (ModelQuad.q_wts Q)`_j * ((bell_weights Q)`_j * (nth 0 (nrm svd qr pop tri e) 0 * fd [:: 1; 0]%N (edge_point tri a b (nth 0 (nth [::] (ModelQuad.q_pts Q) j) 0)) +
     nth 0 (nrm svd qr pop tri e) 1 * fd [:: 0; 1]%N (edge_point tri a b (nth 0 (nth [::] (ModelQuad.q_pts Q) j) 0)))).
{ rewrite /dval /bell_dnode big_flatten /= big_map. apply: eq_bigr => j _. rewrite !big_cons big_nil /= addr0. rewrite -[ModelFunctional.e_ 2 0]/[:: 1; 0]%N -[ModelFunctional.e_ 2 1]/[:: 0; 1]%N. fring. }
split=> //.
- rewrite Ef. split=> //.
  + move=> E HE. rewrite /wf_functional /= Ui HE /= /items all_map. by apply/allP.
  + move=> _. rewrite /max_deriv_order /= /items Q3 /= !big_cons /=. by rewrite leq_max leq_max.
  + move=> h. rewrite Dv /apply /= big_nil add0r /items big_map. apply: eq_bigr => j _. rewrite /= !big_cons !big_nil /= addr0. set z := edge_point _ _ _ _. rewrite -[ModelFunctional.e_ 2 0]/[:: 1; 0]%N -[ModelFunctional.e_ 2 1]/[:: 0; 1]%N. fring.
- move=> g fd N SN HN.
  have SP : (size (leg4 R * N)%R <= 5.*2)%N by apply: (leq_trans (size_mul_leq _ _)); have := size_leg R; move: SN; lia.
  rewrite Dv. rewrite [RHS](_ : _ = int_interval [:: [:: 0]; [:: 1]] (leg4 R * N)) // -Q5 // /ModelQuad.integrate.
  have Sz : size (ModelQuad.q_pts Q) = size (ModelQuad.q_wts Q) by rewrite Q3 Q4.
  rewrite (big_nth ([::], 0)) size_zip -Sz minnn /index_iota subn0. apply: eq_big_seq => j. rewrite mem_iota => Hj. rewrite nth_zip //=. congr (_ * _). rewrite hornerM. congr (_ * _); last by rewrite HN.
  by rewrite /bell_weights (nth_map [::]) // leg_jacobi.
Qed.

(** the node list *)
Definition bell_list : seq (ModelFam.node K) :=
  (ModelFam.jet2 K tri 0 ++ ModelFam.jet2 K tri 1 ++ ModelFam.jet2 K tri 2 ++ [seq ModelFam.Moment K ModelFam.MNormalDerivative 1 e 0 | e <- [:: 0; 1; 2]%N])%SEQ.
Lemma bell_el : exists el, [/\ ModelFam.Bell K tri = Base.Ok el, ModelFam.el_nodes K el = bell_list &
  ModelFam.el_ids K el = [:: (ModelCell.DI 0, [seq (v, iota (6 * v) 6) | v <- [:: 0; 1; 2]%N]); (ModelCell.DI 1, [seq (e, [:: 18 + e]%N) | e <- [:: 0; 1; 2]%N]); (ModelCell.DI 2, [:: (0%N, [::])])]].
Proof. eexists. split; reflexivity. Qed.
Definition node_is (l : ModelFam.node K) (nd : dnode R) : Prop :=
  match l with
  | ModelFam.PointEvaluation x => nd = at_pt (x : seq R)
  | ModelFam.PointDerivative x a => nd = der_at (x : seq R) a
  | ModelFam.Moment ModelFam.MNormalDerivative _ e _ => forall a b f fd (N : {poly R}), facet_is tri e [:: a; b] -> (size N <= 6)%N ->
      normal_trace tri a b (nrm svd qr pop tri e) fd N -> dval nd f fd = integral 0 1 (leg4 R * N)
  | _ => False
  end.
Definition node_good (l : ModelFam.node K) : Prop :=
  match l with
  | ModelFam.PointEvaluation x => True
  | ModelFam.PointDerivative x a => size a = 2%N /\ (0 < sumn a)%N
  | ModelFam.Moment ModelFam.MNormalDerivative _ e _ => (e < 3)%N
  | _ => False
  end.
Lemma one_node l : node_good l -> exists f nd, [/\ bell_node svd qr pop gjp tri l = Ok f, realizes 2 f nd & node_is l nd].
Proof.
case: l => //= [x _|x a [H1 H2]|[] // m e k He].
- exists (point_eval (x : seq R)), (at_pt (x : seq R)). split=> //. exact: realizes_pe.
- exists (point_deriv (x : seq R) a), (der_at (x : seq R) a). split=> //. exact: realizes_pd.
- have [a [b HW]] : exists a b, facet_is tri e [:: a; b] by clear -He; case: e He => [|[|[|e]]] // _; eexists; eexists; reflexivity.
  have [f [nd [E1 E2 E3]]] := bell_moment_ok m k HW. exists f, nd. split=> // a' b' g fd N HW'. move: (HW'). rewrite /facet_is. move: HW. rewrite /facet_is => -> -[<- <-]. exact: E3.
Qed.
Notation nil_f := (@mkFunctional R [eqType of seq R] [::] [::] [::]).
Lemma all_nodes (L : seq (ModelFam.node K)) : (forall l, List.In l L -> node_good l) ->
  exists fs nds, [/\ map_res (bell_node svd qr pop gjp tri) L = Ok fs, size fs = size L, size nds = size L,
    forall i, (i < size L)%N -> realizes 2 (nth nil_f fs i) (nth [::] nds i) & forall i l, List.nth_error L i = Some l -> node_is l (nth [::] nds i)].
Proof.
elim: L => [|l L IH] H; first by exists [::], [::]; split=> //; case.
have [|fs [nds [E1 E2 E3 E4 E5]]] := IH; first by move=> l' Hl; apply: H; right.
have [f [nd [F1 F2 F3]]] := one_node (H l (or_introl erefl)).
exists (f :: fs), (nd :: nds). rewrite /= F1 /= E1 /= E2 E3. split=> // [[|i]|[|i] l'] //=; [exact: E4|by case=> <-|exact: E5].
Qed.
Lemma bell_list_good l : List.In l bell_list -> node_good l.
Proof. by rewrite /bell_list /ModelFam.jet2 /ModelFam.jet1 /=; repeat (move=> [<-|]; first by []). Qed.
Lemma bell_spec_ok nds : size nds = size bell_list -> (forall i l, List.nth_error bell_list i = Some l -> node_is l (nth [::] nds i)) -> bell_spec tri (nrm svd qr pop tri) nds.
Proof.
move=> S H. split=> // [v Hv|e a b f fd N Hf SN HN].
- have Vv : ModelFam.vertex K tri v = V tri v by rewrite /ModelFam.vertex Lnth.
  have Gk k : (k <= 5)%N -> List.nth_error bell_list (6 * v + k) = List.nth_error (ModelFam.jet2 K tri v) k.
  { move=> Hk. clear -Hv Hk. by case: v Hv => [|[|[|v]]] // _; case: k Hk => [|[|[|[|[|[|k]]]]]]. }
  have T : ModelFam.jet2 K tri v = [:: ModelFam.PointEvaluation K (V tri v); ModelFam.PointDerivative K (V tri v) [:: 1; 0]%N; ModelFam.PointDerivative K (V tri v) [:: 0; 1]%N;
     ModelFam.PointDerivative K (V tri v) [:: 2; 0]%N; ModelFam.PointDerivative K (V tri v) [:: 1; 1]%N; ModelFam.PointDerivative K (V tri v) [:: 0; 2]%N] by rewrite /ModelFam.jet2 /ModelFam.jet1 Vv.
  rewrite T in Gk. split; first by have := H _ _ (Gk 0%N isT); rewrite addn0.
  by move=> k Hk; have := Gk k.+1 Hk; case: k Hk => [|[|[|[|[|k]]]]] // _ E; exact: (H _ _ E).
- have He : (e < 3)%N by have [_ [_ [_ _ _ _ He]]] := edge_pair (c := tri) erefl Hf. have := H (18 + e)%N (ModelFam.Moment K ModelFam.MNormalDerivative 1 e 0).
  have -> : List.nth_error bell_list (18 + e) = Some (ModelFam.Moment K ModelFam.MNormalDerivative 1 e 0) by case: e He {Hf HN} => [|[|[|e]]].
  by move=> /(_ erefl) /(_ a b f fd N Hf SN HN).
Qed.
(** an edge whose nodes vanish *)
Lemma bell_edge nds e a b cf : bell_spec tri (nrm svd qr pop tri) nds -> facet_is tri e [:: a; b] ->
  (forall i, (i < 21)%N -> (i < 18)%N && (divn i 6 \in [:: a; b]) || (i == 18 + e)%N -> dval (nth [::] nds i) (pval 2 5 cf) (pder 2 5 cf) = 0) ->
  forall x, in_plane 2 (vts tri) [:: a; b] x -> pval 2 5 cf x = 0 /\ grad0 5 cf x.
Proof.
move=> [S1 S2 S3] Hf H x Hx. have [N1 N2 N3] := nrm_ok Hsvd Hqr Hpop (c := tri) erefl Hf. have Hdet := ProofsC1.edge_det (c := tri) erefl Hf N2 N3.
have [a' [b' [[Ea Eb] Hab Ha Hb He]]] := edge_pair (c := tri) erefl Hf. subst a' b'.
have Sa := size_V R (c := tri) erefl Ha. have Sb := size_V R (c := tri) erefl Hb. have [t ->] := plane_on Hx.
have J v : (v <= 2)%N -> v \in [:: a; b] -> jet0 5 cf (V tri v).
{ move=> Hv Iv. have [M1 M2] := S2 v Hv.
  have D k : (k < 5)%N -> dval (nth [::] nds (6 * v + k.+1)) (pval 2 5 cf) (pder 2 5 cf) = 0.
  { move=> Hk. apply: H; first by lia. have -> : divn (6 * v + k.+1)%N 6 = v by rewrite mulnC divnMDl // divn_small // addn0. rewrite Iv andbT. apply/orP; left. lia. }
  have D0 : pval 2 5 cf (V tri v) = 0.
  { rewrite -(dval_at' (V tri v) _ (pder 2 5 cf)) -M1. apply: H; first by lia. have -> : divn (6 * v)%N 6 = v by rewrite mulKn. rewrite Iv andbT. apply/orP; left. lia. }
  split=> //; [have A0 := D 0%N isT; have A1 := D 1%N isT; rewrite !M2 //= !dval_der' // in A0 A1|].
  have A0 := D 2%N isT; have A1 := D 3%N isT; have A2 := D 4%N isT; rewrite !M2 //= !dval_der' // in A0 A1 A2. }
apply: (bell_flat Sa Sb Hdet); [by apply: J => //; rewrite !inE eqxx|by apply: J => //; rewrite !inE eqxx orbT|].
have SN : (size (N0 5 cf (V tri a) (V tri b) (nrm svd qr pop tri e)) <= 6)%N.
{ rewrite /N0. apply: (leq_trans (size_add _ _)). rewrite geq_max. apply/andP; split; apply: (leq_trans (size_scale_leq _ _)); apply: (leq_trans (lpoly_size _ _ _ _ _ _)); by rewrite !big_ord_recl big_ord0. }
rewrite -(S3 e a b (pval 2 5 cf) (pder 2 5 cf)) //; first by apply: H; [lia|rewrite eqxx orbT].
by move=> s; rewrite edge_pointE N0ev.
Qed.
Lemma bell_det nds cf : bell_spec tri (nrm svd qr pop tri) nds ->
  (forall i, (i < 21)%N -> dval (nth [::] nds i) (pval 2 5 cf) (pder 2 5 cf) = 0) -> forall y, size y = 2%N -> pval 2 5 cf y = 0.
Proof.
move=> HS H. have Hc : ModelFam.is_triangle tri = true by []. have [Hs Hx Hd _] := tri_ok Hc. have s0 := scl0 R0 tri.
have Side i : (i <= 2)%N -> exists W, perm_eq W (opp 2 i) /\ forall x, in_plane 2 (vts tri) W x -> pval 2 5 cf x = 0 /\ grad0 5 cf x.
{ move=> Hi. have Hi' : (i <= sdim_of tri)%N by rewrite Hd. have [e [W [He HW HP]]] := solid_opp Hs Hi'. rewrite Hd in HP. exists W. split=> //.
  have [a [b [EW _ _ _ _]]] := edge_pair Hc HW. subst W. apply: (bell_edge HS HW) => j Hj _. exact: H. }
apply: (flat_zero R0 s0 (o := org R tri) (q := 5)) => //; first exact: is_poly_pval.
- have [W [HP HW]] := Side 1%N isT. apply: (flat_side HW) => t. apply: (side_plane Hc _ HP) => //. rewrite E1at /lam1 /=. by rewrite subrr mul0r.
- have [W [HP HW]] := Side 2%N isT. apply: (flat_side HW) => t. apply: (side_plane Hc _ HP) => //. rewrite E2at /lam2 /=. by rewrite subrr mul0r.
- have [W [HP HW]] := Side 0%N isT. apply: (flat_side HW) => t. apply: (side_plane Hc _ HP) => //.
  have [L1 L2 L3 L4] := good0 R0 (org R tri) s0. have := L2 t 0. by rewrite along0.
- by move=> i j Hij; exfalso; move: Hij; lia.
Qed.
End Bell.
