(** Integrals over the default triangle and tetrahedron by the collapsed
    Gauss-Jacobi rules, and the orthonormality of the expansion functions under
    the quadrature rule of each cell. *)
Set Warnings "-notation-overridden,-ambiguous-paths".
From mathcomp Require Import all_ssreflect all_algebra zify.
From Verif Require Base ModelCell SpecFam.
From Verif Require Import FieldTac RingTac ModelJacobi SpecJacobi ProofsJacobi ProofsOrtho ProofsOrthopoly ProofsGauss PropsJacobi
  ModelAffine ModelExpansion SpecExpansion ProofsExpIdx ProofsExpProg ProofsExpOrtho ProofsExpDeg PropsExpansion ModelQuad SpecQuad ProofsQuad ProofsQuadMap PropsQuad.
From Verif Require Import ModelDmats ProofsDmats ProofsDmatsCell ProofsDmatsReg ModelDual SpecDual SpecPoly ModelSpace ProofsLagLat ProofsSpace ProofsSpaceDer ProofsSpaceCell.
Set Implicit Arguments. Unset Strict Implicit. Unset Printing Implicit Defensive.
Import GRing.Theory.
Local Open Scope ring_scope.

Section Def.
Variable F : fieldType.
Hypothesis F0 : char_zero F.
Notation half := (2%:R^-1 : F).
Variables (M : nat) (xs ys zs : seq F) (wx wy wz : F -> F).
Hypothesis Gx : forall p : {poly F}, (size p <= M)%N -> jweight 0 p = \sum_(x <- xs) wx x * p.[x].
Hypothesis Gy : forall p : {poly F}, (size p <= M)%N -> jweight 1 p = \sum_(x <- ys) wy x * p.[x].
Hypothesis Gz : forall p : {poly F}, (size p <= M)%N -> jweight 2 p = \sum_(x <- zs) wz x * p.[x].
Notation D1 := (lift (@base F)). Notation D2 := (lift D1).
Let hh : half + half = 1.
Proof. by rewrite -mulr2n -(mulr_natr half) mulVf // two_neq0. Qed.
(** one collapsed direction: int_{-1}^{2c-1} in a ring *)
Lemma def_dir (B : comRingType) (emb : {rmorphism F -> B}) (c : B) (P : {poly B}) : (size P <= M)%N ->
  integ emb (-1) (c + c - 1) P = c * \sum_(x <- xs) emb (wx x) * P.[c * (1 + emb x) - 1].
Proof.
move=> SP. have E1 : -1 = (c - 1) - c :> B by rewrite addrAC subrr add0r.
have E2 : c + c - 1 = (c - 1) + c :> B by rewrite addrAC.
rewrite {1}E1 E2 integ_change //; congr (_ * _).
have := gauss_gen emb F0 Gx (leq_trans (size_comp_aff P (c - 1) c) SP). rewrite expr0 mul1r => ->.
apply: eq_bigr => x _. by rewrite horner_comp hornerD hornerC hornerZ hornerX mulrDr mulr1 addrAC.
Qed.
Lemma tri_def (P : {poly {poly F}}) : (0 < M)%N -> deg2_le M.-1 P ->
  int_tri P = half * \sum_(x <- xs) \sum_(y <- ys) wx x * wy y * ev2 P (half * (1 + x) * (1 - y) - 1) y.
Proof.
move=> M0 /D2_deg HP. rewrite /int_tri. pose c : {poly F} := half *: (1 - 'X).
have Ec : - 'X = c + c - 1 :> {poly F}. { rewrite -scalerDl hh scale1r addrAC subrr add0r. by []. }
have SP : (size P <= M)%N by have := lift_size HP; rewrite prednK.
have -> : integ (fun c0 : F => c0%:P) (-1) (- 'X) P = integ (emb1 F) (-1) (c + c - 1) P by rewrite Ec.
rewrite def_dir //. set G := \sum_(x <- xs) _.
have SG : (size G <= M)%N.
{ have := (@D1_size F M.-1). rewrite prednK //. apply. apply: filt_sum => [|x _]; first exact: fD1.
  have := filtM (fD1 F) (_ : D1 0 (emb1 F (wx x))) (lift_horner (fD1 F) HP (_ : D1 1 (c * (1 + emb1 F x) - 1))). rewrite add0n; apply.
  + by apply: size_D1; rewrite /= size_polyC_leq1.
  + apply: size_D1. rewrite -polyC1 -polyCD mulrC mul_polyC. apply: (leq_trans (size_add _ _)). rewrite geq_max. apply/andP; split.
    * apply: (leq_trans (size_scale_leq _ _)). apply: (leq_trans (size_scale_leq _ _)). by rewrite -opprB size_opp size_XsubC.
    * by rewrite size_opp (leq_trans (size_polyC_leq1 _)). }
have -> : c * G = half *: ((1 - 'X) ^+ 1 * G) by rewrite expr1 scalerAl.
have E := gauss_gen [rmorphism of @idfun F] F0 Gy SG.
rewrite -[integ id _ _ _]/(integ [rmorphism of @idfun F] (-1) 1 _) (@integZ F F [rmorphism of @idfun F]) E. congr (_ * _).
rewrite exchange_big /=. apply: eq_bigr => y _. rewrite horner_sum mulr_sumr. apply: eq_bigr => x _.
rewrite hornerM hornerC mulrA [wy y * _]mulrC; congr (_ * _). rewrite ev2_sub /ev2. congr ((P.[_%:P]).[_]).
rewrite hornerD hornerM hornerN !hornerC hornerZ !hornerD hornerN !hornerC hornerX. by rewrite mulrAC.
Qed.
Notation X2 := ('X : {poly {poly F}}).
Notation Z2 := ('X%:P : {poly {poly F}}).
Add Ring RRdq0 : (mc_ring_theory [comRingType of F]).
Ltac cring1 := cring.
Add Ring RRdq : (mc_ring_theory (poly_comRingType (poly_comRingType F))).
Add Ring RRdq3 : (mc_ring_theory (GRing.Field.comRingType F)).
Lemma middle_def (G : {poly {poly F}}) : (size G <= M)%N ->
  let c1 : {poly F} := half *: (1 - 'X) in
  integ (emb1 F) (-1) (- 'X) (- (emb2 F half * (X2 + Z2)) * G) =
  c1 ^+ 2 * (half *: \sum_(y <- ys) emb1 F (wy y) * G.[c1 * (1 + emb1 F y) - 1]).
Proof.
move=> SG c1. have Ec : 1 - 'X = c1 + c1. { by rewrite -scalerDl hh scale1r. }
have EX : 'X = 1 - (c1 + c1) :> {poly F} by rewrite -Ec opprB addrCA subrr addr0.
have E1 : -1 = (c1 - 1) - c1 :> {poly F} by rewrite addrAC subrr add0r.
have E2 : - 'X = (c1 - 1) + c1 :> {poly F} by rewrite EX opprB addrAC.
rewrite {1}E1 {1}E2 integ_change //.
have -> : (- (emb2 F half * (X2 + Z2)) * G) \Po ((c1 - 1)%:P + c1 *: 'X) = half%:P%:P * (c1%:P * (1 - 'X)) * (G \Po ((c1 - 1)%:P + c1 *: 'X)).
{ rewrite comp_polyM; congr (_ * _). rewrite -[comp_poly _ (- _)]/(comp_poly_rmorphism _ _) rmorphN /= comp_polyM comp_polyD !comp_polyC comp_polyX.
  have -> : Z2 = 1 - (c1%:P + c1%:P) :> {poly {poly F}} by rewrite {1}EX polyCB polyCD polyC1.
  rewrite polyCB polyC1 -[c1 *: 'X]mul_polyC. move: (half%:P%:P) (c1%:P) 'X => u v w. cring. }
rewrite mulrA -[half%:P%:P * _]rmorphM /= -mulrA [half%:P * c1]mul_polyC mul_polyC (@integZ F _ (emb1 F)).
have := gauss_gen (emb1 F) F0 Gy (leq_trans (size_comp_aff G (c1 - 1) c1) SG). rewrite expr1 => E.
rewrite [integ _ _ _ _]E -[half *: c1]mul_polyC -[half *: \sum_(y <- _) _]mul_polyC.
have sh (u v w : {poly F}) : u * (v * u * w) = u ^+ 2 * (v * w) by rewrite expr2 [v * u]mulrC !mulrA.
rewrite sh; congr (_ * (_ * _)).
apply: eq_bigr => y _. by rewrite horner_comp hornerD hornerC hornerZ hornerX mulrDr mulr1 addrAC.
Qed.
Lemma tet_def (P : {poly {poly {poly F}}}) : (0 < M)%N -> deg3_le M.-1 P ->
  int_tet P = 8%:R^-1 * \sum_(x <- xs) \sum_(y <- ys) \sum_(z <- zs) wx x * wy y * wz z *
    ev3 P (half * half * (1 + x) * (1 - y) * (1 - z) - 1) (half * (1 + y) * (1 - z) - 1) z.
Proof.
move=> M0 /D3_deg HP. rewrite /int_tet. pose c : {poly {poly F}} := - (emb2 F half * (X2 + Z2)).
have Ec : -1 - X2 - Z2 = c + c - 1.
{ have -> : c + c = - (X2 + Z2) by rewrite /c -opprD -mulrDl -rmorphD hh rmorph1 mul1r. by rewrite opprD -!addrA addrC -!addrA. }
have SP : (size P <= M)%N by have := lift_size HP; rewrite prednK.
have -> : integ (fun c0 : F => c0%:P%:P) (-1) (-1 - 'X - 'X%:P) P = integ (emb2 F) (-1) (c + c - 1) P by rewrite Ec.
rewrite def_dir //. set G := \sum_(x <- xs) _.
have Dc : D2 1 c.
{ apply: (filtN (fD2 F)); first exact: D2N1. refine (@filtM _ _ (fD2 F) 0%N 1%N _ _ (@D2c F half) _). apply: (filtD (fD2 F)); [exact: D2X|exact: D2Y]. }
have Dm1 : D2 1 (-1) by apply: (filtN (fD2 F)); [exact: D2N1|exact: (filtW (fD2 F) (filt1 (fD2 F)))].
have DG : D2 M.-1 G.
{ apply: filt_sum => [|x _]; first exact: fD2. have := filtM (fD2 F) (@D2c F (wx x)) (lift_horner (fD2 F) HP (_ : D2 1 (c * (1 + emb2 F x) - 1))). rewrite add0n; apply.
  apply: (filtD (fD2 F)) => //. refine (@filtM _ _ (fD2 F) 1%N 0%N _ _ Dc _). apply: (filtD (fD2 F)); [exact: (filt1 (fD2 F))|exact: D2c]. }
have SG : (size G <= M)%N by have := lift_size DG; rewrite prednK.
have -> : integ (fun c0 : F => c0%:P) (-1) (- 'X) (c * G) = integ (emb1 F) (-1) (- 'X) (- (emb2 F half * (X2 + Z2)) * G) by [].
rewrite middle_def //. pose c1 : {poly F} := half *: (1 - 'X). rewrite -/c1. set H := \sum_(y <- ys) _.
have Dc1 : D1 1 c1. { apply: size_D1. apply: (leq_trans (size_scale_leq _ _)). by rewrite -opprB size_opp size_XsubC. }
have SH : (size H <= M)%N.
{ have := (@D1_size F M.-1). rewrite prednK //. apply. apply: filt_sum => [|y _]; first exact: fD1.
  have D10 v : D1 0 (emb1 F v) by apply: size_D1; rewrite /= size_polyC_leq1.
  have := filtM (fD1 F) (D10 (wy y)) (lift_horner (fD1 F) DG (_ : D1 1 (c1 * (1 + emb1 F y) - 1))). rewrite add0n; apply.
  apply: (filtD (fD1 F)); last by apply: (filtW (fD1 F)); apply: size_D1; rewrite size_opp size_poly1.
  refine (@filtM _ _ (fD1 F) 1%N 0%N _ _ Dc1 _). apply: (filtD (fD1 F)); [exact: (filt1 (fD1 F))|exact: D10]. }
have -> : c1 ^+ 2 * (half *: H) = (half ^+ 2 * half) *: ((1 - 'X) ^+ 2 * H) by rewrite exprZn -scalerAl -scalerAr scalerA.
have E := gauss_gen [rmorphism of @idfun F] F0 Gz SH.
rewrite -[integ id _ _ _]/(integ [rmorphism of @idfun F] (-1) 1 _) (@integZ F F [rmorphism of @idfun F]) E.
have -> : half ^+ 2 * half = 8%:R^-1 by rewrite expr2 -!invfM -!natrM.
congr (_ * _). rewrite [RHS]exchange_big /=. rewrite [RHS](eq_bigr (fun j => \sum_(z <- zs) \sum_(x <- xs) wx x * wy j * wz z * ev3 P (half * half * (1 + x) * (1 - j) * (1 - z) - 1) (half * (1 + j) * (1 - z) - 1) z)); last by move=> j _; rewrite exchange_big.
rewrite [RHS]exchange_big /=. apply: eq_bigr => z _. rewrite /H horner_sum mulr_sumr. apply: eq_bigr => y _.
rewrite hornerM hornerC /G ev2_sub -[ev2 _ _ _]ev2mE rmorph_sum !mulr_sumr. apply: eq_bigr => x _.
rewrite (_ : ev2m _ _ (_ * _) = wx x * ev2 (P.[c * (1 + emb2 F x) - 1]) ((c1 * (1 + emb1 F y) - 1).[z]) z); last by rewrite rmorphM ev2m_c.
 rewrite ev3_sub !mulrA. have -> : wz z * wy y * wx x = wx x * wy y * wz z by rewrite mulrC [wz z * _]mulrC mulrA.
have Ey : (c1 * (1 + (y%:P : {poly F})) - 1).[z] = half * (1 + y) * (1 - z) - 1.
{ rewrite hornerD hornerN hornerM hornerD !hornerC hornerZ hornerD hornerN !hornerC hornerX. by rewrite mulrAC. }
congr (_ * _). rewrite Ey. congr (ev3 P _ _ _).
rewrite -ev2mE /c rmorphB rmorph1 rmorphM rmorphN rmorphM.
rewrite !rmorphD rmorph1 !ev2m_c ev2m_X ev2m_Y.
congr (_ - 1). clear - hh. move: hh. set u := half => Hu.
have -> : - (u * (u * (1 + y) * (1 - z) - 1 + z)) = u * u * (1 - y) * (1 - z) + u * (u + u - 1) * (z - 1) by cring1.
rewrite Hu subrr mulr0 mul0r addr0. by cring1.
Qed.
End Def.
