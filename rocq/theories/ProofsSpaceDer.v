(** Derivatives of monomials. *)
Set Warnings "-notation-overridden,-ambiguous-paths".
From mathcomp Require Import all_ssreflect all_algebra zify.
From Verif Require Base ModelIndex.
From Verif Require Import FieldTac RingTac ModelJacobi SpecJacobi ModelExpansion SpecExpansion ProofsExpIdx ProofsExpOrtho ProofsExpDeg ModelDmats ProofsDmats ProofsDmatsCell ProofsDmatsDer ProofsDmatsLine.
From Verif Require Import ModelDual SpecDual SpecPoly ProofsSpace.
Set Implicit Arguments. Unset Strict Implicit. Unset Printing Implicit Defensive.
Import GRing.Theory.
Local Open Scope ring_scope.

Section Iter.
Variables (F : fieldType) (R : comRingType) (emb : {rmorphism F -> R}) (D : {additive R -> R}) (q : nat -> R).
Hypotheses (DZ : forall c P, D (emb c * P) = emb c * D P) (Dq : forall m, D (q m) = emb m%:R * q m.-1).
Lemma iter_mono a m : iter a D (q m) = emb (m ^_ a)%:R * q (m - a)%N.
Proof.
elim: a => [|a IH]; first by rewrite /= ffactn0 rmorph1 mul1r subn0.
by rewrite iterS IH DZ Dq mulrA -rmorphM -natrM -ffactnSr subnS.
Qed.
End Iter.

Section Mono.
Variable F : fieldType.
Notation poly2 := {poly {poly F}}.
Notation poly3 := {poly {poly {poly F}}}.
Add Field FFsd : (mc_field_theory F).
Definition m2 i j : poly2 := 'X ^+ i * 'X%:P ^+ j.
Definition m3 i j l : poly3 := 'X ^+ i * 'X%:P ^+ j * 'X%:P%:P ^+ l.
Lemma coef_m2 i j a b : (m2 i j)`_a`_b = ((a == i) && (b == j))%:R.
Proof. rewrite /m2 -rmorphX coefMC coefXn. case: (a == i); by rewrite /= ?mul1r ?mul0r ?coef0 // coefXn. Qed.
Lemma coef_m3 i j l a b d : (m3 i j l)`_a`_b`_d = [&& a == i, b == j & d == l]%:R.
Proof.
have -> : m3 i j l = (m2 j l)%:P * 'X ^+ i by rewrite /m3 /m2 rmorphM !rmorphX [RHS]mulrC mulrA.
rewrite coefCM coefXn. case: (a == i); by rewrite ?mulr1 ?mulr0 ?coef0 // coef_m2.
Qed.
Lemma pred_eq (a i : nat) : (0 < i)%N -> (a.+1 == i) = (a == i.-1).
Proof. by case: i. Qed.
Ltac nat0 i Hi := case: (posnP i) => [->|Hi]; first by rewrite rmorph0 mul0r ?coef0.
Lemma step2x i j : d2 F 0 (m2 i j) = emb2 F i%:R * m2 i.-1 j.
Proof.
apply/polyP => a; apply/polyP => b. rewrite [d2 F 0 _]/(dx2 _) coef_dx2 coefCM coefCM !coef_m2.
case: i => [|i]; first by rewrite mul0r mul0rn. rewrite eqSS /=. case: eqP => [->|_] /=; last by rewrite mul0rn mulr0.
by rewrite -mulr_natl ?mulr1.
Qed.
Lemma step2y i j : d2 F 1 (m2 i j) = emb2 F j%:R * m2 i j.-1.
Proof.
apply/polyP => a; apply/polyP => b. rewrite [d2 F 1 _]/(dy2 _) coef_dy2 coefCM coefCM !coef_m2.
case: j => [|j]; first by rewrite andbF mul0r mul0rn. rewrite eqSS /=. case: eqP => [_|_] /=; last by rewrite mul0rn mulr0.
case: eqP => [->|_]; last by rewrite mul0rn mulr0. by rewrite -mulr_natl ?mulr1.
Qed.
Lemma step3x i j l : d3 F 0 (m3 i j l) = emb3 F i%:R * m3 i.-1 j l.
Proof.
apply/polyP => a; apply/polyP => b; apply/polyP => d. rewrite [d3 F 0 _]/(dx3 _) coef_dx3 coefCM coefCM coefCM !coef_m3.
case: i => [|i]; first by rewrite mul0r mul0rn. rewrite eqSS /=. case: eqP => [->|_] /=; last by rewrite mul0rn mulr0.
by rewrite -mulr_natl ?mulr1.
Qed.
Lemma step3y i j l : d3 F 1 (m3 i j l) = emb3 F j%:R * m3 i j.-1 l.
Proof.
apply/polyP => a; apply/polyP => b; apply/polyP => d. rewrite [d3 F 1 _]/(dy3 _) coef_dy3 coefCM coefCM coefCM !coef_m3.
case: j => [|j]; first by rewrite andbF mul0r mul0rn. rewrite eqSS /=. case: eqP => [_|_] /=; last by rewrite mul0rn mulr0.
case: eqP => [->|_]; last by rewrite mul0rn mulr0. by rewrite -mulr_natl ?mulr1.
Qed.
Lemma step3z i j l : d3 F 2 (m3 i j l) = emb3 F l%:R * m3 i j l.-1.
Proof.
apply/polyP => a; apply/polyP => b; apply/polyP => d. rewrite [d3 F 2 _]/(dz3 _) coef_dz3 coefCM coefCM coefCM !coef_m3.
case: l => [|l]; first by rewrite !andbF mul0r mul0rn. rewrite eqSS /=. case: eqP => [_|_] /=; last by rewrite mul0rn mulr0.
case: eqP => [_|_] /=; last by rewrite mul0rn mulr0.
case: eqP => [->|_]; last by rewrite mul0rn mulr0. by rewrite -mulr_natl ?mulr1.
Qed.
Lemma iterZ (R : comRingType) (emb : {rmorphism F -> R}) (D : {additive R -> R}) a c P :
  (forall c P, D (emb c * P) = emb c * D P) -> iter a D (emb c * P) = emb c * iter a D P.
Proof. move=> H. elim: a => [|a IH] //=. by rewrite IH H. Qed.
Lemma ev2mM (x y : F) P Q : ev2m x y (P * Q) = ev2m x y P * ev2m x y Q. Proof. exact: rmorphM. Qed.
Lemma ev3mM (x y z : F) P Q : ev3m x y z (P * Q) = ev3m x y z P * ev3m x y z Q. Proof. exact: rmorphM. Qed.
Lemma ev2m_m2 (x y : F) i j : ev2m x y (m2 i j) = x ^+ i * y ^+ j.
Proof. by rewrite /m2 ev2mM !rmorphX ev2m_X ev2m_Y. Qed.
Lemma ev3m_m3 (x y z : F) i j l : ev3m x y z (m3 i j l) = x ^+ i * y ^+ j * z ^+ l.
Proof. by rewrite /m3 !ev3mM !rmorphX ev3m_X ev3m_Y ev3m_Z. Qed.
Lemma dmono2 a c i j (x : seq F) : ev2m (nth 0 x 0) (nth 0 x 1) (dalpha (d2 F) [:: a; c] (m2 i j)) = dmono [:: a; c] [:: i; j] x.
Proof.
rewrite /dalpha [dalpha_from _ _ _ _]/= (@iter_mono F _ (emb2 F) (d2 F 0) (fun m => m2 m j) (@d2Z F 0) (fun m => step2x m j)).
rewrite (iterZ _ _ _ (@d2Z F 1)) (@iter_mono F _ (emb2 F) (d2 F 1) (fun m => m2 (i - a) m) (@d2Z F 1) (step2y _)).
rewrite ev2mM ev2mM !ev2m_c ev2m_m2 /dmono !big_ord_recl big_ord0 [size _]/= mulr1.
move: (_%:R : F) (_%:R : F) (_ ^+ _) (_ ^+ _) => u v s t. fring.
Qed.
Lemma dmono3 a c e i j l (x : seq F) : ev3m (nth 0 x 0) (nth 0 x 1) (nth 0 x 2) (dalpha (d3 F) [:: a; c; e] (m3 i j l)) =
  dmono [:: a; c; e] [:: i; j; l] x.
Proof.
rewrite /dalpha [dalpha_from _ _ _ _]/= (@iter_mono F _ (emb3 F) (d3 F 0) (fun m => m3 m j l) (@d3Z F 0) (fun m => step3x m j l)).
rewrite (iterZ _ _ _ (@d3Z F 1)) (@iter_mono F _ (emb3 F) (d3 F 1) (fun m => m3 (i - a) m l) (@d3Z F 1) (fun m => step3y _ m l)).
rewrite !(iterZ _ _ _ (@d3Z F 2)) (@iter_mono F _ (emb3 F) (d3 F 2) (fun m => m3 (i - a) (j - c) m) (@d3Z F 2) (step3z _ _)).
rewrite ev3mM ev3mM ev3mM !ev3m_c ev3m_m3 /dmono !big_ord_recl big_ord0 [size _]/= mulr1.
move: (_%:R : F) (_%:R : F) (_%:R : F) (_ ^+ _) (_ ^+ _) (_ ^+ _) => u v w s t r.
fring.
Qed.
Lemma dmono1 a i (x : seq F) : ('X ^+ i : {poly F})^`(a).[nth 0 x 0] = dmono [:: a] [:: i] x.
Proof.
have -> : ('X ^+ i : {poly F})^`(a) = (i ^_ a)%:R%:P * 'X ^+ (i - a).
{ elim: a => [|a IH]; first by rewrite ffactn0 mul1r subn0. rewrite derivnS IH derivM derivC mul0r add0r derivXn ffactnSr natrM polyCM -mulrA.
  congr (_ * _). by rewrite subnS -mulr_natl rmorph_nat. }
by rewrite hornerM hornerC hornerXn /dmono big_ord_recl big_ord0 mulr1.
Qed.
(** derivatives of polynomials *)
Lemma pder1 k al (P : {poly F}) x : (size P <= k.+1)%N -> pder 1 k (cf1 P) [:: al] x = P^`(al).[nth 0 x 0].
Proof.
move=> H. have E : P = \sum_(i < k.+1) P`_i *: 'X ^+ i.
{ rewrite -(poly_def k.+1 (fun i => P`_i)). apply/polyP => i. rewrite coef_poly. case: ltnP => // Hi. by rewrite nth_default // (leq_trans H). }
rewrite [in RHS]E linear_sum horner_sum /pder exps1 big_map -(big_mkord xpredT (fun i => (P`_i *: 'X ^+ i)^`(al).[nth 0 x 0])) /index_iota subn0.
apply: eq_bigr => i _. by rewrite derivnZ hornerZ dmono1.
Qed.
Lemma pder2 k al be (P : poly2) x : deg2_le k P -> pder 2 k (cf2 P) [:: al; be] x = ev2m (nth 0 x 0) (nth 0 x 1) (dalpha (d2 F) [:: al; be] P).
Proof.
move=> H. rewrite {2}(decomp2 H) /dalpha (@dalpha_sum F _ (emb2 F) (d2 F) (@d2Z F)) rmorph_sum.
rewrite /pder (perm_big _ (exps2_perm k)) /= big_map.
rewrite -(big_mkord xpredT (fun m => ev2m (nth 0 x 0) (nth 0 x 1) (emb2 F P`_(tdec k m).1`_(tdec k m).2 * dalpha (d2 F) [:: al; be] (m2 (tdec k m).1 (tdec k m).2)))).
rewrite /index_iota subn0. apply: eq_bigr => m _. by rewrite rmorphM ev2m_c dmono2.
Qed.
Lemma pder3 k al be ga (P : poly3) x : deg3_le k P ->
  pder 3 k (cf3 P) [:: al; be; ga] x = ev3m (nth 0 x 0) (nth 0 x 1) (nth 0 x 2) (dalpha (d3 F) [:: al; be; ga] P).
Proof.
move=> H. rewrite {2}(decomp3 H) /dalpha (@dalpha_sum F _ (emb3 F) (d3 F) (@d3Z F)) rmorph_sum.
rewrite /pder (perm_big _ (exps3_perm k)) /= big_map.
rewrite -(big_mkord xpredT (fun m => ev3m (nth 0 x 0) (nth 0 x 1) (nth 0 x 2) (emb3 F P`_(sdec k m).1.1`_(sdec k m).1.2`_(sdec k m).2 * dalpha (d3 F) [:: al; be; ga] (m3 (sdec k m).1.1 (sdec k m).1.2 (sdec k m).2)))).
rewrite /index_iota subn0. apply: eq_bigr => m _. by rewrite rmorphM ev3m_c dmono3.
Qed.
End Mono.
