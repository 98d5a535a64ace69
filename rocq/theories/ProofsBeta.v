(** Moments of the unit simplices: i! j! / (i+j+2)! and i! j! k! / (i+j+k+3)!. *)
Set Warnings "-notation-overridden,-ambiguous-paths".
From mathcomp Require Import all_ssreflect all_algebra zify.
From Verif Require Import FieldTac RingTac SpecJacobi ProofsJacobi ProofsOrtho ProofsOrthopoly SpecExpansion ProofsExpOrtho SpecQuad ProofsQuad ProofsQuadMap.
Set Implicit Arguments. Unset Strict Implicit. Unset Printing Implicit Defensive.
Import GRing.Theory.
Local Open Scope ring_scope.

Section Beta.
Variables (F : fieldType) (B : comRingType) (emb : {rmorphism F -> B}).
Hypothesis F0 : char_zero F.
Definition beta (p q : nat) : F := (p`! * q`!)%:R / (p + q).+1`!%:R.
Lemma fz n : n`!%:R != 0 :> F. Proof. apply: F0. exact: fact_gt0. Qed.
Lemma beta0 p : beta p 0 = p.+1%:R^-1.
Proof. rewrite /beta addn0 fact0 muln1 factS natrM invfM mulrC -mulrA mulVf ?mulr1 //. exact: fz. Qed.
Lemma betaS p q : p.+1%:R * beta p q.+1 = q.+1%:R * beta p.+1 q.
Proof. rewrite /beta addnS addSn !mulrA -!natrM. congr (_%:R / _). rewrite !factS. lia. Qed.
Lemma integ_Xn lo hi n : integ emb lo hi 'X^n = emb (n.+1%:R^-1) * (hi ^+ n.+1 - lo ^+ n.+1).
Proof.
have -> : 'X^n = ((emb n.+1%:R^-1) *: 'X^(n.+1) : {poly B})^`().
{ rewrite derivZ derivXn /= -scaler_nat scalerA -(rmorph_nat emb) -rmorphM mulVf ?rmorph1 ?scale1r //. exact: nat_neq0. }
by rewrite (integ_deriv emb F0) !hornerZ !hornerXn mulrBr.
Qed.
Lemma integ_beta c p q : integ emb 0 c ('X^p * (c%:P - 'X) ^+ q) = emb (beta p q) * c ^+ (p + q).+1.
Proof.
elim: q p => [|q IH] p; first by rewrite expr0 mulr1 addn0 integ_Xn beta0 (exprS 0) mul0r subr0.
have := integ_deriv emb F0 0 c ('X^(p.+1) * (c%:P - 'X) ^+ q.+1).
rewrite !hornerM !horner_exp !hornerD !hornerN !hornerC !hornerX subrr (exprS 0 p) (exprS 0 q) !mul0r mulr0 subrr.
have -> : ('X^(p.+1) * (c%:P - 'X) ^+ q.+1)^`() = p.+1%:R *: ('X^p * (c%:P - 'X) ^+ q.+1) - q.+1%:R *: ('X^(p.+1) * (c%:P - 'X) ^+ q) :> {poly B}.
{ by rewrite derivM derivXn /= deriv_exp /= derivB derivC derivX sub0r mulN1r mulNrn mulrN mulrnAr mulrnAl -!scaler_nat. }
rewrite integD -scaleNr !integZ IH mulNr => /eqP. rewrite subr_eq0 => /eqP E.
have N0 : p.+1%:R != 0 :> F by exact: nat_neq0.
have H1 : emb (p.+1%:R^-1) * p.+1%:R = 1 by rewrite -(rmorph_nat emb) -rmorphM mulVf ?rmorph1.
rewrite -[LHS]mul1r -H1 -mulrA E mulrA -(rmorph_nat emb q.+1) -rmorphM mulrA -rmorphM addnS addSn. congr (emb _ * _).
have := betaS p q. move: (beta p q.+1) (beta p.+1 q) => u v E'. by rewrite -mulrA -E' mulKf.
Qed.
End Beta.

Section Moments.
Variable F : fieldType.
Hypothesis F0 : char_zero F.
Notation poly2 := {poly {poly F}}.
Notation poly3 := {poly {poly {poly F}}}.
Definition mom2 (i j : nat) : F := (i`! * j`!)%:R / (i + j + 2)`!%:R.
Definition mom3 (i j k : nat) : F := (i`! * j`! * k`!)%:R / (i + j + k + 3)`!%:R.
Let eC : {rmorphism F -> {poly F}} := [rmorphism of polyC].
Let eCC : {rmorphism F -> poly2} := [rmorphism of polyC \o polyC].
Lemma mom_alg (u v w d : F) : u != 0 -> u^-1 * (w * (u * v) / d) = v * w / d.
Proof. move=> u0. by rewrite [w * _]mulrCA -[_ * _ / d]mulrA mulKf // [w * v]mulrC. Qed.
Lemma mom_alg3 (u v w e t d : F) : u != 0 -> e != 0 -> u^-1 * (w * (u * v) / e) * (t * e / d) = v * w * t / d.
Proof. move=> u0 e0. rewrite mom_alg // !mulrA; congr (_ / _). by rewrite mulrAC mulrVK ?unitfE. Qed.
Lemma subE (T : comRingType) : 1 - 'X = (1%:P - 'X : {poly T}). Proof. by []. Qed.
Lemma int_unit2E (P : poly2) : int_unit2 P = \sum_(i < size P) \sum_(j < size P`_i) P`_i`_j * mom2 i j.
Proof.
rewrite /int_unit2 -{1}[P]coefK poly_def (integ_sum eC) (integ_sum [rmorphism of @idfun F]).
apply: eq_bigr => i _. rewrite (integZ eC) (integ_Xn eC F0) (exprS 0) mul0r subr0.
rewrite -{1}[P`_i]coefK poly_def mulr_suml (integ_sum [rmorphism of @idfun F]).
apply: eq_bigr => j _. rewrite -scalerAl (integZ [rmorphism of @idfun F]). congr (_ * _).
rewrite mulrCA [eC _]/= mul_polyC (integZ [rmorphism of @idfun F]) (integ_beta [rmorphism of @idfun F] F0) expr1n mulr1 /= /beta /mom2.
rewrite addnS addn2 [(j + i)%N]addnC factS !natrM. exact: (mom_alg _ _ _ (nat_neq0 F0 i)).
Qed.
Lemma int_unit3E (P : poly3) : int_unit3 P = \sum_(i < size P) \sum_(j < size P`_i) \sum_(k < size P`_i`_j) P`_i`_j`_k * mom3 i j k.
Proof.
rewrite /int_unit3 -{1}[P]coefK poly_def (integ_sum eCC) (integ_sum eC) (integ_sum [rmorphism of @idfun F]).
apply: eq_bigr => i _. rewrite (integZ eCC) (integ_Xn eCC F0) (exprS 0) mul0r subr0.
have -> : 1 - 'X - 'X%:P = (1 - 'X : {poly F})%:P - 'X by rewrite polyCB polyC1 addrAC.
rewrite -{1}[P`_i]coefK poly_def mulr_suml (integ_sum eC) (integ_sum [rmorphism of @idfun F]).
apply: eq_bigr => j _. rewrite -scalerAl (integZ eC) mulrCA [eCC _]/= mul_polyC (integZ eC) (integ_beta eC F0) [eC _]/= .
rewrite [(i.+1%:R^-1)%:P * _]mulrA -polyCM mulrCA mul_polyC (integZ [rmorphism of @idfun F]).
rewrite -{1}[P`_i`_j]coefK poly_def mulr_suml (integ_sum [rmorphism of @idfun F]) mulr_sumr.
apply: eq_bigr => k _. rewrite -scalerAl (integZ [rmorphism of @idfun F]) mulrCA. congr (_ * _).
rewrite (integ_beta [rmorphism of @idfun F] F0) expr1n mulr1 /= /beta /mom3.
have -> : (k + (j + i.+1).+1).+1 = (i + j + k + 3)%N by lia. have -> : (j + i.+1).+1 = (i + j + 2)%N by lia. rewrite factS !natrM.
exact: (mom_alg3 _ _ _ _ (nat_neq0 F0 i) (fz F0 _)).
Qed.
End Moments.
