(** Integrals of the modes over the default cells. *)
Set Warnings "-notation-overridden,-ambiguous-paths".
From mathcomp Require Import all_ssreflect all_algebra zify.
From Verif Require Import FieldTac RingTac ModelJacobi SpecJacobi ProofsJacobi ProofsOrtho ModelExpansion SpecExpansion ProofsExpIdx ProofsExpProg.
Set Implicit Arguments. Unset Strict Implicit. Unset Printing Implicit Defensive.
Import GRing.Theory.
Local Open Scope ring_scope.

Section Integ.
Variables (F : fieldType) (A : comRingType) (emb : {rmorphism F -> A}).
Hypothesis F0 : char_zero F.
Notation antid := (antid emb).
Notation integ := (integ emb).
Lemma coef_antid P i : (antid P)`_i = if i is j.+1 then emb (i%:R^-1) * P`_j else 0.
Proof.
rewrite coef_poly. case: i => [|i] //=. rewrite ltnS. case: ltnP => // H. by rewrite nth_default // mulr0.
Qed.
Lemma antidD P Q : antid (P + Q) = antid P + antid Q.
Proof. by apply/polyP => -[|i]; rewrite coefD !coef_antid ?addr0 // coefD mulrDr. Qed.
Lemma antidZ c P : antid (c *: P) = c *: antid P.
Proof. by apply/polyP => -[|i]; rewrite coefZ !coef_antid ?mulr0 // coefZ mulrCA. Qed.
Lemma deriv_antid P : (antid P)^`() = P.
Proof.
apply/polyP => i. rewrite coef_deriv coef_antid -(mulr_natl (_ * _)) mulrA -(rmorph_nat emb) -rmorphM divff ?rmorph1 ?mul1r //.
exact: nat_neq0.
Qed.
Lemma antid_deriv P : antid P^`() = P - (P`_0)%:P.
Proof.
apply/polyP => -[|i]; rewrite coefB coefC coef_antid /= ?subrr // subr0 coef_deriv mulrnAr -(mulr_natl (_ * _)) mulrA -(rmorph_nat emb) -rmorphM divff ?rmorph1 ?mul1r //.
exact: nat_neq0.
Qed.
Lemma integD lo hi P Q : integ lo hi (P + Q) = integ lo hi P + integ lo hi Q.
Proof. by rewrite /integ antidD !hornerD opprD addrACA. Qed.
Lemma integZ lo hi c P : integ lo hi (c *: P) = c * integ lo hi P.
Proof. by rewrite /integ antidZ !hornerZ mulrBr. Qed.
Lemma integ0 lo hi : integ lo hi 0 = 0.
Proof. by rewrite -(scale0r 0) integZ mul0r. Qed.
Lemma integ_deriv lo hi P : integ lo hi P^`() = P.[hi] - P.[lo].
Proof. by rewrite /integ antid_deriv !hornerD !hornerN !hornerC opprD addrACA subrr addr0. Qed.
Lemma integ_change (m c : A) P :
  integ (m - c) (m + c) P = c * integ (-1) 1 (P \Po (m%:P + c *: 'X)).
Proof.
rewrite -{1}(deriv_antid P) integ_deriv -integZ.
have -> : c *: (P \Po (m%:P + c *: 'X)) = (antid P \Po (m%:P + c *: 'X))^`().
{ rewrite deriv_comp deriv_antid derivD derivC derivZ derivX add0r -scalerAr mulr1. by []. }
by rewrite integ_deriv !horner_comp !hornerD !hornerC !hornerZ !hornerX mulr1 mulrN1.
Qed.
Lemma integ_map (p : {poly F}) : integ (-1) 1 (map_poly emb p) = emb (integral (-1) 1 p).
Proof.
rewrite -{1}(deriv_antideriv F0 p) -deriv_map integ_deriv -[1](rmorph1 emb) -(rmorphN emb) !horner_map -rmorphB. by [].
Qed.
End Integ.
Lemma integ_id (F : fieldType) (p : {poly F}) : char_zero F -> integ id (-1) 1 p = integral (-1) 1 p.
Proof. move=> F0. have := integ_map [rmorphism of @idfun F] F0 p. by rewrite map_poly_id. Qed.

(** morphisms commute with the modes *)
Lemma hom_morph (F : fieldType) (A B : comRingType) (e : F -> A) (e' : F -> B) (g : {rmorphism A -> B}) n p u w :
  (forall c, g (e c) = e' c) -> g (\sum_(j < n.+1) e p`_j * u ^+ j * w ^+ (n - j)) = \sum_(j < n.+1) e' p`_j * g u ^+ j * g w ^+ (n - j).
Proof. move=> H. rewrite rmorph_sum. apply: eq_bigr => j _. by rewrite !rmorphM !rmorphX H. Qed.
Lemma hjac_morph (F : fieldType) (A B : comRingType) (e : {rmorphism F -> A}) (e' : {rmorphism F -> B}) (g : {rmorphism A -> B}) a n u w :
  (forall c, g (e c) = e' c) -> g (hjac e a n u w) = hjac e' a n (g u) (g w).
Proof. move=> H. exact: hom_morph. Qed.

Section Shuffle.
Variable A : comRingType.
Add Ring RA : (mc_ring_theory A).
Lemma shuffle (u v w t S P Q : A) : u * S * (v * P * (w * Q)) * t = u * v * w * t * (S * (P * Q)).
Proof. cring. Qed.
Variable h : A. Hypothesis H : h * 2%:R = 1.
Lemma tri_f1_gen y e : let c := h * (1 - y) in (1 + 2%:R * (c - 1 + c * e) + y) * h = c * e.
Proof.
move=> c. transitivity (h * 2%:R * c + h * 2%:R * (c * e) - h * (1 - y)); first by move: c => c; cring.
rewrite H !mul1r /c. cring.
Qed.
Lemma tri_hi_gen y : let c := h * (1 - y) in c - 1 + c = - y.
Proof. move=> c. transitivity (h * 2%:R * (1 - y) - 1); first by rewrite /c; cring. rewrite H. cring. Qed.
Lemma tri_lo_gen c : c - 1 - c = -1 :> A.
Proof. cring. Qed.
Lemma tet_f1_gen y z e : let c := - (h * (y + z)) in h * (2%:R + 2%:R * (c - 1 + c * e) + y + z) = c * e.
Proof.
move=> c. transitivity (h * 2%:R * c + h * 2%:R * (c * e) + h * (y + z)); first by move: c => c; cring.
rewrite H !mul1r /c. cring.
Qed.
Lemma tet_hi_gen y z : let c := - (h * (y + z)) in c - 1 + c = -1 - y - z.
Proof. move=> c. transitivity (- (h * 2%:R * (y + z)) - 1); first by rewrite /c; cring. rewrite H. cring. Qed.
(** c = -(y+z)/2 at y = c'-1+c' e *)
Lemma tet_w_gen z e : let c := h * (1 - z) in - (h * (c - 1 + c * e + z)) = c * (h * (1 - e)).
Proof.
move=> c. transitivity (1 * c - h * c - h * c * e); first by rewrite /c; cring.
rewrite -{1}H. move: c => c. cring.
Qed.
Lemma tet_f3_gen z e : let c := h * (1 - z) in h * (1 + 2%:R * (c - 1 + c * e) + z) = c * e.
Proof. move=> c. by rewrite mulrC tri_f1_gen. Qed.
End Shuffle.

Section Collapse.
Variables (F : fieldType) (B : comRingType) (emb : {rmorphism F -> B}).
Hypothesis F0 : char_zero F.
Add Field FF : (mc_field_theory F).
Add Ring RR : (mc_ring_theory B).
Notation half := (2%:R^-1 : F).
Notation embP := [rmorphism of polyC \o emb].
Definition jw (a p q : nat) : F := if p == q then 2%:R / (p.*2 + a).+1%:R else 0.
Lemma jwE a p q : integral (-1) 1 ((half *: (1 - 'X)) ^+ a * (jacobi_poly a%:R 0 p * jacobi_poly a%:R 0 q)) = jw a p q.
Proof.
rewrite exprZn -scalerAl integralZ -/(jweight a _) /jw. case: eqP => [->|/eqP H]; last by rewrite jacobi_orth // mulr0.
rewrite jacobi_norm // exprS exprVn.
have H2 : (2%:R : F) ^+ a != 0 by rewrite expf_neq0 // two_neq0.
by rewrite mulrA [2%:R * _]mulrC mulKf.
Qed.
Lemma hom_map n (p : {poly F}) (w : B) : (size p <= n.+1)%N ->
  hom embP n p (w *: 'X) w%:P = w ^+ n *: map_poly emb p.
Proof.
move=> H. rewrite -mul_polyC hom_scale // -mul_polyC rmorphX. congr (_ * _).
by rewrite -(comp_polyXr (map_poly emb p)) /comp_poly -map_poly_comp.
Qed.
Lemma collapse a p q (m c k : B) (U W : {poly B}) :
  U \Po (m%:P + c *: 'X) = c *: 'X -> W \Po (m%:P + c *: 'X) = c *: (emb half *: (1 - 'X)) ->
  integ emb (m - c) (m + c) (W ^+ a * (hjac embP a p U c%:P * hjac embP a q U c%:P) * k%:P) =
  emb (jw a p q) * c ^+ (a + p + q).+1 * k.
Proof.
move=> HU HW. rewrite integ_change // !rmorphM rmorphX /= HW.
have G n : hjac embP a n U c%:P \Po (m%:P + c *: 'X) = c ^+ n *: map_poly emb (jacobi_poly a%:R 0 n).
{ rewrite (@hjac_morph F _ _ embP embP [rmorphism of comp_poly (m%:P + c *: 'X)]) /=.
  - rewrite HU comp_polyC. apply: hom_map. exact: size_jacobi.
  - move=> d. by rewrite comp_polyC. }
rewrite !G comp_polyC exprZn.
set S := (emb half *: _) ^+ a. set P' := map_poly _ _. set Q' := map_poly _ _.
have -> : c ^+ a *: S * (c ^+ p *: P' * (c ^+ q *: Q')) * k%:P = (c ^+ (a + p + q) * k) *: (S * (P' * Q')).
{ rewrite -!mul_polyC !exprD !rmorphM. exact: shuffle. }
rewrite integZ /S /P' /Q'.
have -> : (emb half *: (1 - 'X)) ^+ a * (map_poly emb (jacobi_poly a%:R 0 p) * map_poly emb (jacobi_poly a%:R 0 q))
   = map_poly emb ((half *: (1 - 'X)) ^+ a * (jacobi_poly a%:R 0 p * jacobi_poly a%:R 0 q)).
{ by rewrite !rmorphM rmorphX /= map_polyZ rmorphB rmorph1 /= map_polyX. }
rewrite integ_map // jwE exprS. move: (emb _) (_ ^+ _) => u v. cring.
Qed.
End Collapse.

Section Cells.
Variables (F : fieldType) (sqrt : F -> F).
Hypothesis F0 : char_zero F.
Add Field FF3 : (mc_field_theory F).
Notation half := (2%:R^-1 : F).
Notation poly2 := {poly {poly F}}.
Notation poly3 := {poly {poly {poly F}}}.
Definition emb1 : {rmorphism F -> {poly F}} := [rmorphism of @polyC F].
Definition emb2 : {rmorphism F -> poly2} := [rmorphism of polyC \o emb1].
Definition emb3 : {rmorphism F -> poly3} := [rmorphism of polyC \o emb2].
Lemma h2 : half * 2%:R = 1. Proof. by rewrite mulVf // two_neq0. Qed.
Lemma hjac_X a n : hjac emb1 a n 'X 1 = jacobi_poly a%:R 0 n.
Proof.
have := @hom_map F F [rmorphism of idfun] n (jacobi_poly a%:R 0 n) 1 (size_jacobi F0 _ _ _).
rewrite expr1n !scale1r polyC1 map_poly_id // => <-.
Qed.
End Cells.

(** *** Triangle *)
Section Triangle.
Variables (F : fieldType) (sqrt : F -> F).
Hypothesis F0 : char_zero F.
Add Field FF4 : (mc_field_theory F).
Notation half := (2%:R^-1 : F).
Notation X2 := ('X : {poly {poly F}}).
Notation Y2 := ('X%:P : {poly {poly F}}).
Definition tri_mode (k : nat * nat) : {poly {poly F}} := triV (emb2 F) X2 Y2 k.
Let c : {poly F} := half *: (1 - 'X).
Lemma tri_f2 : (1 - Y2) * emb2 F half = c%:P.
Proof. by rewrite /c /emb2 /= -[1]polyC1 -polyCB -polyCM mulrC mul_polyC. Qed.
Lemma e2 : emb2 F half * 2%:R = 1.
Proof. by rewrite -(rmorph_nat (emb2 F) 2) -rmorphM /= mulVf ?rmorph1 // two_neq0. Qed.
Lemma cE : c%:P = emb2 F half * (1 - Y2). Proof. by rewrite -tri_f2 mulrC. Qed.
Lemma tri_f1 : ((1 + 2%:R * X2 + Y2) * emb2 F half) \Po ((c - 1)%:P + c *: 'X) = c *: 'X.
Proof.
rewrite comp_polyM !comp_polyD comp_polyM rmorph1 rmorph_nat comp_polyX !comp_polyC.
rewrite -mul_polyC polyCB polyC1 cE. exact: (tri_f1_gen e2).
Qed.
Lemma tri_V_split k : tri_mode k = hjac (emb2 F) 0 k.1 ((1 + 2%:R * X2 + Y2) * emb2 F half) c%:P
  * (jacobi_poly (2 * k.1 + 1)%:R 0 k.2)%:P.
Proof.
rewrite /tri_mode /triV tri_f2. congr (_ * _). rewrite -(hjac_X F0).
rewrite -[RHS]/([rmorphism of polyC] _) (@hjac_morph F _ _ (emb1 F) (emb2 F)) //=.
Qed.
Lemma tri_inner k k' : integ (emb1 F) (-1) (- 'X) (tri_mode k * tri_mode k') =
  (jw F 0 k.1 k'.1)%:P * c ^+ (k.1 + k'.1).+1 * (jacobi_poly (2 * k.1 + 1)%:R 0 k.2 * jacobi_poly (2 * k'.1 + 1)%:R 0 k'.2).
Proof.
rewrite !tri_V_split mulrACA -rmorphM /=.
have H := @collapse F _ (emb1 F) F0 0 k.1 k'.1 (c - 1) c (jacobi_poly (2 * k.1 + 1)%:R 0 k.2 * jacobi_poly (2 * k'.1 + 1)%:R 0 k'.2) _ _ tri_f1.
have E1 : c - 1 + c = - 'X.
{ have E1 : emb1 F half * 2%:R = 1 by rewrite -(rmorph_nat (emb1 F) 2) -rmorphM /= mulVf ?rmorph1 // two_neq0.
  have := tri_hi_gen E1 'X. by rewrite /= mul_polyC. }
rewrite tri_lo_gen E1 in H.
rewrite -(H ((half%:P)%:P * (c%:P - (1 + 2%:R * X2 + Y2) * emb2 F half))); last first.
{ rewrite comp_polyM comp_polyB tri_f1 !comp_polyC /=. rewrite -!mul_polyC [RHS]mulrCA [c%:P * (1 - _)]mulrBr mulr1. by []. }
by rewrite expr0 mul1r.
Qed.
Lemma int_triZ (u : F) (P : {poly {poly F}}) : int_tri (u%:P%:P * P) = u * int_tri P.
Proof.
rewrite /int_tri mul_polyC (@integZ F _ (emb1 F)) mul_polyC. exact: (@integZ F F [rmorphism of idfun]).
Qed.
Lemma tri_gram k k' : int_tri (tri_mode k * tri_mode k') =
  if k == k' then ((k.1%:R + half) * (k.1%:R + k.2%:R + 1))^-1 else 0.
Proof.
rewrite /int_tri (tri_inner k k') /jw. case: k k' => [p q] [p' q'] /=. rewrite xpair_eqE.
case: (p =P p') => [<-|_] /=; last by rewrite polyC0 !mul0r integ_id // integral0.
rewrite -mulrA mul_polyC integ_id // integralZ.
have -> : (p + p).+1 = (2 * p + 1)%N by lia. rewrite jwE // /jw.
case: (q =P q') => [_|_]; last by rewrite mulr0.
have H2 := two_neq0 F0. have Hp := nat_neq0 F0 p.*2. have Hq := nat_neq0 F0 (p + q). have Hr := nat_neq0 F0 (q.*2 + (2 * p + 1)).
rewrite addn0 -!muln2 in Hp Hr *. rewrite ?mulrS ?natrD ?natrM ?mulrS ?mulr0n in H2 Hp Hq Hr *.
have Hp' : p%:R + (1 + (1 + 0))^-1 != 0 :> F.
{ have -> : p%:R + (1 + (1 + 0))^-1 = (1 + p%:R * (1 + (1 + 0))) / (1 + (1 + 0)) :> F.
  { move: (p%:R : F) => u. ffield. nz. }
  by rewrite mulf_neq0 ?invr_eq0. }
move: (p%:R : F) (q%:R : F) H2 Hp Hq Hr Hp' => u v H2 Hp Hq Hr Hp'. ffield. repeat split; nz.
Qed.
End Triangle.

(** *** Tetrahedron *)
Section Tetrahedron.
Variables (F : fieldType).
Hypothesis F0 : char_zero F.
Add Field FF5 : (mc_field_theory F).
Notation half := (2%:R^-1 : F).
Notation X3 := ('X : {poly {poly {poly F}}}).
Notation Y3 := ('X%:P : {poly {poly {poly F}}}).
Notation Z3 := ('X%:P%:P : {poly {poly {poly F}}}).
Notation Y2 := ('X : {poly {poly F}}).
Notation Z2 := ('X%:P : {poly {poly F}}).
Definition tet_mode (k : nat * nat * nat) : {poly {poly {poly F}}} := tetV (emb3 F) X3 Y3 Z3 k.
(** half widths of the collapsed directions *)
Let c : {poly {poly F}} := - (emb2 F half * (Y2 + Z2)).
Let c1 : {poly F} := half *: (1 - 'X).
Let G3 : {poly {poly F}} := emb2 F half * (1 + 2%:R * Y2 + Z2).
Let G4 : {poly {poly F}} := emb2 F half * (1 - Z2).
Lemma e3 : emb3 F half * 2%:R = 1.
Proof. by rewrite -(rmorph_nat (emb3 F) 2) -rmorphM /= mulVf ?rmorph1 // two_neq0. Qed.
Lemma cE3 : c%:P = - (emb3 F half * (Y3 + Z3)). Proof. by rewrite /c polyCN polyCM polyCD. Qed.
Lemma G4E : G4 = c1%:P. Proof. by rewrite /c1 -tri_f2 mulrC. Qed.
Lemma tet_g1 : (emb3 F half * (2%:R + 2%:R * X3 + Y3 + Z3)) \Po ((c - 1)%:P + c *: 'X) = c *: 'X.
Proof.
rewrite comp_polyM !comp_polyD comp_polyM !rmorph_nat comp_polyX !comp_polyC.
rewrite -mul_polyC polyCB polyC1 cE3. exact: (tet_f1_gen e3).
Qed.
Lemma tet_V_split k : tet_mode k = hjac (emb3 F) 0 k.1.1 (emb3 F half * (2%:R + 2%:R * X3 + Y3 + Z3)) c%:P
  * (hjac (emb2 F) (2 * k.1.1 + 1) k.1.2 G3 G4 * (jacobi_poly (2 * k.1.1 + 2 * k.1.2 + 2)%:R 0 k.2)%:P)%:P.
Proof.
rewrite /tet_mode /tetV -cE3 -mulrA polyCM. congr (_ * (_ * _)).
- rewrite -[RHS]/([rmorphism of polyC] _) (@hjac_morph F _ _ (emb2 F) (emb3 F)) //=. 
  by rewrite /G3 /G4 !rmorphM !rmorphD rmorphM rmorph1 rmorphN rmorph_nat.
- rewrite -(hjac_X F0). 
  rewrite -[RHS]/([rmorphism of (polyC \o polyC)] _) (@hjac_morph F _ _ (emb1 F) (emb3 F)) //=.
Qed.
Lemma tet_inner_x k k' : integ (emb2 F) (-1) (-1 - 'X - 'X%:P) (tet_mode k * tet_mode k') =
  emb2 F (jw F 0 k.1.1 k'.1.1) * c ^+ (k.1.1 + k'.1.1).+1 *
  ((hjac (emb2 F) (2 * k.1.1 + 1) k.1.2 G3 G4 * (jacobi_poly (2 * k.1.1 + 2 * k.1.2 + 2)%:R 0 k.2)%:P) *
   (hjac (emb2 F) (2 * k'.1.1 + 1) k'.1.2 G3 G4 * (jacobi_poly (2 * k'.1.1 + 2 * k'.1.2 + 2)%:R 0 k'.2)%:P)).
Proof.
rewrite !tet_V_split.
set K1 := (hjac (emb2 F) _ k.1.2 _ _ * _). set K2 := (hjac (emb2 F) _ k'.1.2 _ _ * _).
rewrite mulrACA -polyCM. set K := K1 * K2.
have H := @collapse F _ (emb2 F) F0 0 k.1.1 k'.1.1 (c - 1) c K _ _ tet_g1.
rewrite tri_lo_gen (tet_hi_gen (e2 F0)) in H.
rewrite -(H ((emb2 F half)%:P * (c%:P - (emb3 F half * (2%:R + 2%:R * X3 + Y3 + Z3))))); last first.
{ rewrite comp_polyM comp_polyB tet_g1 !comp_polyC. rewrite -!mul_polyC [RHS]mulrCA [c%:P * (1 - _)]mulrBr mulr1. by []. }
by rewrite expr0 mul1r.
Qed.
Lemma tet_G3 : G3 \Po ((c1 - 1)%:P + c1 *: 'X) = c1 *: 'X.
Proof.
rewrite /G3 comp_polyM !comp_polyD comp_polyM rmorph1 rmorph_nat comp_polyX !comp_polyC.
rewrite -mul_polyC polyCB polyC1 cE. exact: (tet_f3_gen (e2 F0)).
Qed.
Lemma tet_cW : c \Po ((c1 - 1)%:P + c1 *: 'X) = c1 *: (emb1 F half *: (1 - 'X)).
Proof.
rewrite /c rmorphN rmorphM /= comp_polyD comp_polyX !comp_polyC.
rewrite -!mul_polyC polyCB polyC1 cE. exact: (tet_w_gen (e2 F0)).
Qed.
Lemma tet_inner_y p q q' (r r' : {poly F}) : integ (emb1 F) (-1) (- 'X)
    (c ^+ (2 * p + 1) * ((hjac (emb2 F) (2 * p + 1) q G3 G4 * r%:P) * (hjac (emb2 F) (2 * p + 1) q' G3 G4 * r'%:P))) =
  (jw F (2 * p + 1) q q')%:P * c1 ^+ (2 * p + 1 + q + q').+1 * (r * r').
Proof.
rewrite [X in _ * X]mulrACA. rewrite -polyCM G4E.
have H := @collapse F _ (emb1 F) F0 (2 * p + 1) q q' (c1 - 1) c1 (r * r') _ _ tet_G3 tet_cW.
have E1 : c1 - 1 + c1 = - 'X.
{ have E1 : emb1 F half * 2%:R = 1 by rewrite -(rmorph_nat (emb1 F) 2) -rmorphM /= mulVf ?rmorph1 // two_neq0.
  have := tri_hi_gen E1 'X. by rewrite /= mul_polyC. }
rewrite tri_lo_gen E1 in H. rewrite -mulrA in H. exact: H.
Qed.
Lemma int_tetZ (u : F) (P : {poly {poly {poly F}}}) : int_tet (u%:P%:P%:P * P) = u * int_tet P.
Proof.
rewrite /int_tet mul_polyC (@integZ F _ (emb2 F)) mul_polyC (@integZ F _ (emb1 F)) mul_polyC. exact: (@integZ F F [rmorphism of idfun]).
Qed.
Lemma tet_gram k k' : int_tet (tet_mode k * tet_mode k') =
  if k == k' then ((k.1.1%:R + half) * (k.1.1%:R + k.1.2%:R + 1) * (k.1.1%:R + k.1.2%:R + k.2%:R + (1 + half)))^-1 else 0.
Proof.
rewrite /int_tet (tet_inner_x k k') {1}/jw. case: k k' => [[p q] r] [[p' q'] r'] /=. rewrite !xpair_eqE.
case: (p =P p') => [<-|_] /=; last first.
{ by rewrite rmorph0 !mul0r (@integ0 F _ (emb1 F)) integ_id // integral0. }
rewrite -mulrA mul_polyC (@integZ F _ (emb1 F)). have -> : (p + p).+1 = (2 * p + 1)%N by lia.
rewrite tet_inner_y {1}/jw. case: (q =P q') => [<-|_] /=; last by rewrite !mul0r mulr0 integ_id // integral0.
rewrite -[X in _ * X]mulrA !mul_polyC integ_id // !integralZ.
have -> : (2 * p + 1 + q + q).+1 = (2 * p + 2 * q + 2)%N by lia. rewrite jwE // /jw.
case: (r =P r') => [_|_]; last by rewrite !mulr0.
have H2 := two_neq0 F0. have Hp := nat_neq0 F0 p.*2. have Hq := nat_neq0 F0 (p + q). have Hr := nat_neq0 F0 (q.*2 + (2 * p + 1)).
have Hs := nat_neq0 F0 (r.*2 + (2 * p + 2 * q + 2)).
rewrite addn0 -!muln2 in Hp Hr Hs *. rewrite ?mulrS ?natrD ?natrM ?mulrS ?mulr0n in H2 Hp Hq Hr Hs *.
have Hp' : p%:R + (1 + (1 + 0))^-1 != 0 :> F.
{ have -> : p%:R + (1 + (1 + 0))^-1 = (1 + p%:R * (1 + (1 + 0))) / (1 + (1 + 0)) :> F.
  { move: (p%:R : F) => u. ffield. nz. }
  by rewrite mulf_neq0 ?invr_eq0. }
have Hs' : p%:R + q%:R + r%:R + (1 + (1 + (1 + 0))^-1) != 0 :> F.
{ have -> : p%:R + q%:R + r%:R + (1 + (1 + (1 + 0))^-1) = (1 + (r%:R * (1 + (1 + 0)) + ((1 + (1 + 0)) * p%:R + (1 + (1 + 0)) * q%:R + (1 + (1 + 0))))) / (1 + (1 + 0)) :> F.
  { move: (p%:R : F) (q%:R : F) (r%:R : F) => u v w. ffield. nz. }
  apply: mulf_neq0; last by rewrite invr_eq0. clear Hp Hq Hr Hp'. move: (p%:R : F) (q%:R : F) (r%:R : F) Hs => u v w Hs. nz. }
move: (p%:R : F) (q%:R : F) (r%:R : F) H2 Hp Hq Hr Hs Hp' Hs' => u v w H2 Hp Hq Hr Hs Hp' Hs'. ffield. repeat split; nz.
Qed.
End Tetrahedron.
