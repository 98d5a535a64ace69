(** Gauss-Jacobi sums with polynomial coefficients; the collapsed rules on the
    unit simplices. *)
Set Warnings "-notation-overridden,-ambiguous-paths".
From mathcomp Require Import all_ssreflect all_algebra zify.
From Verif Require Base.
From Verif Require Import FieldTac RingTac ModelJacobi SpecJacobi ProofsJacobi ProofsOrtho ProofsOrthopoly ProofsGauss PropsJacobi
  ModelExpansion SpecExpansion ProofsExpIdx ProofsExpProg ProofsExpOrtho ProofsExpDeg ModelAffine SpecAffine ProofsAffine PropsAffine ModelQuad SpecQuad.
Set Implicit Arguments. Unset Strict Implicit. Unset Printing Implicit Defensive.
Import GRing.Theory.
Local Open Scope ring_scope.

(** *** The weights of compute_gauss_jacobi_rule *)
Section W.
Variable F : fieldType.
Hypothesis F0 : char_zero F.
Variables (a n : nat) (xs : seq F).
Hypotheses (Sx : size xs = n.+1) (Ux : uniq xs) (Rx : all (root (jacobi_poly (a%:R : F) 0 n.+1)) xs).
Lemma gj_weightE x : x \in xs -> gj_weight a 0 n.+1 x = lam a n x.
Proof.
move=> Hx. have [_ [_ ->]] := lam_formula F0 Sx Ux Rx Hx.
rewrite /gj_weight addn0 add0n addn1 [X in _ / X ^+ 2 = _](_ : _ = ((jacobi_poly a%:R 0 n.+1)^`()).[x]).
- congr (_ / _ / _). have H1 := fact_neq0 F0 (a + n.+1). have H2 := fact_neq0 F0 n.+1.
  by rewrite [_ * _ / _]mulrAC mulfK // mulfK.
- rewrite jacobi_deriv // hornerZ /eval_jacobi_deriv eval_jacobi_ok //; last exact: (regular_shift (@rega F F0 a n.+1)).
  congr (_ * _ * _). by rewrite !addr0 [n.+1%:R + _]addrC.
Qed.
Lemma gj_exact (p : {poly F}) : (size p <= n.+1.*2)%N -> jweight a p = \sum_(x <- xs) gj_weight a 0 n.+1 x * p.[x].
Proof.
move=> Hp. rewrite (rule_exact F0 Sx Ux Rx Hp) [in LHS]big_seq [in RHS]big_seq. apply: eq_bigr => x Hx. by rewrite gj_weightE.
Qed.
End W.

(** *** Values in a ring over the scalars *)
Section Gen.
Variables (F : fieldType) (B : comRingType) (emb : {rmorphism F -> B}).
Hypothesis F0 : char_zero F.
Variables (a m : nat) (xs : seq F) (w : F -> F).
Hypothesis HG : forall p : {poly F}, (size p <= m)%N -> jweight a p = \sum_(x <- xs) w x * p.[x].
Lemma integ_sum lo hi I (r : seq I) (f : I -> {poly B}) : integ emb lo hi (\sum_(i <- r) f i) = \sum_(i <- r) integ emb lo hi (f i).
Proof. apply: (big_morph (integ emb lo hi)) => [p q|]; [exact: integD|exact: integ0]. Qed.
Lemma gauss_gen (Q : {poly B}) : (size Q <= m)%N ->
  integ emb (-1) 1 ((1 - 'X) ^+ a * Q) = \sum_(x <- xs) emb (w x) * Q.[emb x].
Proof.
move=> SQ. have -> : Q = \sum_(i < m) Q`_i *: map_poly emb 'X^i.
{ have E : forall k : 'I_m, Q`_k *: map_poly emb 'X^k = Q`_k *: 'X^k by move=> k; rewrite map_polyXn.
  rewrite (eq_bigr _ (fun k _ => E k)) -poly_def. apply/polyP => i. rewrite coef_poly. case: ltnP => // H. by rewrite nth_default // (leq_trans SQ). }
rewrite mulr_sumr integ_sum.
transitivity (\sum_(i < m) Q`_i * emb (jweight a 'X^i)).
{ apply: eq_bigr => i _. rewrite -scalerAr integZ; congr (_ * _).
  rewrite /jweight -(integ_map emb F0) rmorphM rmorphX rmorphB rmorph1 /= map_polyX. by []. }
transitivity (\sum_(i < m) \sum_(x <- xs) Q`_i * (emb (w x) * emb x ^+ i)).
{ apply: eq_bigr => i _. rewrite HG ?size_polyXn // rmorph_sum mulr_sumr. apply: eq_bigr => x _. by rewrite rmorphM hornerXn rmorphX. }
rewrite exchange_big /=. apply: eq_bigr => x _. rewrite horner_sum mulr_sumr. apply: eq_bigr => i _.
by rewrite hornerZ map_polyXn hornerXn mulrCA.
Qed.
End Gen.

(** *** Degrees *)
Section Degs.
Variable F : fieldType.
Notation D1 := (lift (@base F)). Notation D2 := (lift D1). Notation D3 := (lift D2).
Lemma D1_size n (p : {poly F}) : D1 n p -> (size p <= n.+1)%N.
Proof. move=> H. apply/leq_sizeP => j Hj. move: (H j). by rewrite leqNgt Hj. Qed.
Lemma size_D1 n (p : {poly F}) : (size p <= n.+1)%N -> D1 n p.
Proof. move=> H i. case: leqP => // Hi. by rewrite nth_default // (leq_trans H). Qed.
Lemma D2_deg n (P : {poly {poly F}}) : deg2_le n P <-> D2 n P.
Proof.
split=> [H i|]; last exact: lift2E. case: leqP => Hi.
- apply: size_D1. apply/leq_sizeP => j Hj. apply: H. lia.
- apply/polyP => j. rewrite coef0. apply: H. lia.
Qed.
Lemma D3_deg n (P : {poly {poly {poly F}}}) : deg3_le n P <-> D3 n P.
Proof.
split=> [H i|]; last exact: lift3E. case: leqP => Hi.
- apply/D2_deg => j k Hjk. apply: H. lia.
- apply/polyP => j. apply/polyP => k. rewrite !coef0. apply: H. lia.
Qed.
Lemma lift_horner (A : comRingType) (D : nat -> A -> Prop) n P u : filt D -> lift D n P -> D 1%N u -> D n P.[u].
Proof.
move=> H HP Hu. rewrite horner_coef. apply: filt_sum => // i _. move: (HP i). case: leqP => Hi HPi.
- have := filtM H HPi (filt_exp i H Hu). by have -> : (n - i + 1 * i)%N = n by lia.
- rewrite HPi mul0r. exact: filt0.
Qed.
Lemma lift_size (A : comRingType) (D : nat -> A -> Prop) n P : lift D n P -> (size P <= n.+1)%N.
Proof. move=> H. apply/leq_sizeP => j Hj. move: (H j). by rewrite leqNgt Hj. Qed.
Lemma size_comp_aff (A : comRingType) (P : {poly A}) (m c : A) : (size (P \Po (m%:P + c *: 'X)) <= size P)%N.
Proof.
rewrite comp_polyE. apply: (leq_trans (size_sum _ _ _)). apply/bigmax_leqP => i _.
apply: (leq_trans (size_scale_leq _ _)). apply: (leq_trans (size_exp_leq _ _)).
have S : (size (m%:P + c *: 'X)%R <= 2)%N.
{ apply: (leq_trans (size_add _ _)). rewrite geq_max (leq_trans (size_polyC_leq1 _)) //=. apply: (leq_trans (size_scale_leq _ _)). by rewrite size_polyX. }
have := ltn_ord i. move: (size _) S => s. case: s => [|[|[|s]]] //=; rewrite ?mul0n ?mul1n //; lia.
Qed.
End Degs.

(** *** The collapsed rules on the unit simplices *)
Section Unit.
Variable F : fieldType.
Hypothesis F0 : char_zero F.
Notation half := (2%:R^-1 : F).
Variables (M : nat) (xs ys zs : seq F) (wx wy wz : F -> F).
Hypothesis Gx : forall p : {poly F}, (size p <= M)%N -> jweight 0 p = \sum_(x <- xs) wx x * p.[x].
Hypothesis Gy : forall p : {poly F}, (size p <= M)%N -> jweight 1 p = \sum_(x <- ys) wy x * p.[x].
Hypothesis Gz : forall p : {poly F}, (size p <= M)%N -> jweight 2 p = \sum_(x <- zs) wz x * p.[x].
Notation D1 := (lift (@base F)). Notation D2 := (lift D1).
Let hh : half + half = 1.
Proof. by rewrite -mulr2n -(mulr_natr half) mulVf // two_neq0. Qed.

(** one collapsed direction: int_0^(2c) in a ring *)
Lemma unit_dir (B : comRingType) (emb : {rmorphism F -> B}) (c : B) (P : {poly B}) : (size P <= M)%N ->
  integ emb 0 (c + c) P = c * \sum_(x <- xs) emb (wx x) * P.[c * (1 + emb x)].
Proof.
move=> SP. rewrite -{1}(subrr c) integ_change //; congr (_ * _).
have := gauss_gen emb F0 Gx (leq_trans (size_comp_aff P c c) SP). rewrite expr0 mul1r => ->.
apply: eq_bigr => x _. by rewrite horner_comp hornerD hornerC hornerZ hornerX mulrDr mulr1.
Qed.
Lemma one_sub_half : half%:P + half%:P = 1 :> {poly F}. Proof. by rewrite -polyCD hh. Qed.
Lemma outer2 (G : {poly F}) : (size G <= M)%N ->
  integ id 0 1 (half *: (1 - 'X) * G) = 8%:R^-1 * \sum_(y <- ys) wy y * G.[half * (1 + y)].
Proof.
move=> SG. have E : integ id 0 1 (half *: (1 - 'X) * G) = integ [rmorphism of @idfun F] (half - half) (half + half) (half *: (1 - 'X) * G) by rewrite subrr hh.
rewrite E integ_change // rmorphM /= comp_polyZ comp_polyB comp_polyX comp_polyC.
have -> : 1%:P - (half%:P + half *: 'X) = half *: (1 - 'X) :> {poly F}.
{ rewrite polyC1 -{1}one_sub_half opprD addrA addrK scalerBr alg_polyC. by []. }
rewrite scalerA -scalerAl integZ // -[_ * _ * _]mulrA. 
have := gauss_gen [rmorphism of @idfun F] F0 Gy (leq_trans (size_comp_aff G half half) SG). rewrite expr1 => ->.
rewrite mulrA. have -> : 8%:R^-1 = half * (half * half). { rewrite -!invfM -!natrM. by []. } 
rewrite mulrA [half * (_ * _)]mulrC; congr (_ * _). apply: eq_bigr => y _. by rewrite horner_comp hornerD hornerC hornerZ hornerX mulrDr mulr1.
Qed.
Lemma outer3 (G : {poly F}) : (size G <= M)%N ->
  integ id 0 1 ((half *: (1 - 'X)) ^+ 2 * G) = 32%:R^-1 * \sum_(z <- zs) wz z * G.[half * (1 + z)].
Proof.
move=> SG. have E : integ id 0 1 ((half *: (1 - 'X)) ^+ 2 * G) = integ [rmorphism of @idfun F] (half - half) (half + half) ((half *: (1 - 'X)) ^+ 2 * G) by rewrite subrr hh.
rewrite E integ_change // rmorphM rmorphX /= comp_polyZ comp_polyB comp_polyX comp_polyC.
have -> : 1%:P - (half%:P + half *: 'X) = half *: (1 - 'X) :> {poly F}.
{ rewrite polyC1 -{1}one_sub_half opprD addrA addrK scalerBr alg_polyC. by []. }
rewrite scalerA exprZn -scalerAl integZ //.
have := gauss_gen [rmorphism of @idfun F] F0 Gz (leq_trans (size_comp_aff G half half) SG). move=> ->.
have -> : 32%:R^-1 = half * (half * half) ^+ 2. { rewrite expr2 -!invfM -!natrM. by []. } 
rewrite mulrA; congr (_ * _). apply: eq_bigr => y _. by rewrite horner_comp hornerD hornerC hornerZ hornerX mulrDr mulr1.
Qed.
Lemma ev2_sub (P : {poly {poly F}}) (u : {poly F}) t : (P.[u]).[t] = ev2 P (u.[t]) t.
Proof.
rewrite /ev2 [P.[u]]horner_coef [P.[_%:P]]horner_coef !horner_sum. apply: eq_bigr => i _. by rewrite !hornerM !horner_exp hornerC.
Qed.
(** values *)
Lemma tri_unit (P : {poly {poly F}}) : (0 < M)%N -> deg2_le M.-1 P ->
  int_unit2 P = 8%:R^-1 * \sum_(x <- xs) \sum_(y <- ys) wx x * wy y * ev2 P (half * (1 + x) * (1 - half * (1 + y))) (half * (1 + y)).
Proof.
move=> M0 /D2_deg HP. rewrite /int_unit2. pose c : {poly F} := half *: (1 - 'X).
have Ec : 1 - 'X = c + c. { by rewrite -scalerDl hh scale1r. }
have SP : (size P <= M)%N by have := lift_size HP; rewrite prednK.
have -> : integ (fun c0 : F => c0%:P) 0 (1 - 'X) P = integ (emb1 F) 0 (c + c) P by rewrite Ec.
rewrite unit_dir // outer2.
- congr (_ * _). rewrite exchange_big /=. apply: eq_bigr => y _. rewrite horner_sum mulr_sumr. apply: eq_bigr => x _.
  rewrite hornerM hornerC mulrA [wy y * _]mulrC; congr (_ * _). rewrite ev2_sub /ev2. congr ((P.[_%:P]).[_]).
  rewrite hornerM hornerZ !hornerD hornerN !hornerC hornerX. by rewrite mulrAC.
- have := (@D1_size F M.-1). rewrite prednK //. apply. apply: filt_sum => [|x _]; first exact: fD1.
  have := filtM (fD1 F) (_ : D1 0 (emb1 F (wx x))) (lift_horner (fD1 F) HP (_ : D1 1 (c * (1 + emb1 F x)))). rewrite add0n; apply.
  + by apply: size_D1; rewrite /= size_polyC_leq1.
  + apply: size_D1. rewrite -polyC1 -polyCD mulrC mul_polyC. apply: (leq_trans (size_scale_leq _ _)). apply: (leq_trans (size_scale_leq _ _)). by rewrite -opprB size_opp size_XsubC.
Qed.
Notation X2 := ('X : {poly {poly F}}).
Notation Z2 := ('X%:P : {poly {poly F}}).
Lemma ev3_sub (P : {poly {poly {poly F}}}) (v : {poly {poly F}}) s t : ev2 (P.[v]) s t = ev3 P (ev2 v s t) s t.
Proof.
rewrite /ev3 [P.[v]]horner_coef [P.[_%:P]]horner_coef -/(ev2 _ s t) -[ev2 (\sum_(i < _) _ * _%:P ^+ i) s t]ev2mE -ev2mE !rmorph_sum. apply: eq_bigr => i _.
by rewrite !rmorphM !rmorphX !ev2mE /ev2 !hornerC.
Qed.
Lemma middle (G : {poly {poly F}}) : (size G <= M)%N ->
  let c1 : {poly F} := half *: (1 - 'X) in
  integ (emb1 F) 0 (1 - 'X) (emb2 F half * (1 - X2 - Z2) * G) =
  c1 ^+ 2 * (half *: \sum_(y <- ys) emb1 F (wy y) * G.[c1 * (1 + emb1 F y)]).
Proof.
move=> SG c1. have Ec : 1 - 'X = c1 + c1. { by rewrite -scalerDl hh scale1r. }
rewrite {1}Ec -{1}(subrr c1) integ_change // rmorphM rmorphM !rmorphB /= !comp_polyC comp_polyX.
have -> : 1 - (c1%:P + c1 *: 'X) - Z2 = c1%:P * (1 - 'X) :> {poly {poly F}}.
{ have -> : c1%:P + c1 *: 'X = c1%:P * (1 + 'X) by rewrite mulrDr mulr1 mul_polyC.
  have -> : 1 - c1%:P * (1 + 'X) - Z2 = (1 - 'X)%:P - c1%:P * (1 + 'X) :> {poly {poly F}} by rewrite rmorphB rmorph1 -!addrA; congr (_ + _); rewrite addrC.
  rewrite Ec polyCD. move: (c1%:P) 'X => u v. rewrite mulrDr mulr1 mulrBr mulr1 opprD addrA addrK. by []. }
rewrite mulrA -[half%:P%:P * _]rmorphM /= -mulrA [half%:P * c1]mul_polyC mul_polyC (@integZ F _ (emb1 F)).
have := gauss_gen (emb1 F) F0 Gy (leq_trans (size_comp_aff G c1 c1) SG). rewrite expr1 => E.
rewrite [integ _ _ _ _]E -[half *: c1]mul_polyC -[half *: \sum_(y <- _) _]mul_polyC.
have sh (u v w : {poly F}) : u * (v * u * w) = u ^+ 2 * (v * w) by rewrite expr2 [v * u]mulrC !mulrA.
rewrite sh; congr (_ * (_ * _)).
apply: eq_bigr => y _. by rewrite horner_comp hornerD hornerC hornerZ hornerX mulrDr mulr1.
Qed.
Lemma tet_unit (P : {poly {poly {poly F}}}) : (0 < M)%N -> deg3_le M.-1 P ->
  int_unit3 P = 64%:R^-1 * \sum_(x <- xs) \sum_(y <- ys) \sum_(z <- zs) wx x * wy y * wz z *
    (let t := half * (1 + z) in let s := half * (1 + y) * (1 - t) in
     ev3 P (half * (1 + x) * (1 - s - t)) s t).
Proof.
move=> M0 /D3_deg HP. rewrite /int_unit3. pose c : {poly {poly F}} := emb2 F half * (1 - X2 - Z2).
have Ec : 1 - X2 - Z2 = c + c. { by rewrite -mulrDl -rmorphD hh rmorph1 mul1r. }
have SP : (size P <= M)%N by have := lift_size HP; rewrite prednK.
have -> : integ (fun c0 : F => c0%:P%:P) 0 (1 - 'X - 'X%:P) P = integ (emb2 F) 0 (c + c) P by rewrite Ec.
rewrite unit_dir //. set G := \sum_(x <- xs) _.
have Dc : D2 1 c.
{ rewrite /c. refine (@filtM _ _ (fD2 F) 0%N 1%N _ _ (@D2c F half) _). apply: (filtD (fD2 F)).
  - apply: (filtD (fD2 F)); first exact: (filtW (fD2 F) (filt1 (fD2 F))). apply: (filtN (fD2 F)); [exact: D2N1|exact: D2X].
  - apply: (filtN (fD2 F)); [exact: D2N1|exact: D2Y]. }
have DG : D2 M.-1 G.
{ apply: filt_sum => [|x _]; first exact: fD2. have := filtM (fD2 F) (@D2c F (wx x)) (lift_horner (fD2 F) HP (_ : D2 1 (c * (1 + emb2 F x)))). rewrite add0n; apply.
  refine (@filtM _ _ (fD2 F) 1%N 0%N _ _ Dc _). apply: (filtD (fD2 F)); [exact: (filt1 (fD2 F))|exact: D2c]. }
have SG : (size G <= M)%N by have := lift_size DG; rewrite prednK.
have -> : integ (fun c0 : F => c0%:P) 0 (1 - 'X) (c * G) = integ (emb1 F) 0 (1 - 'X) (emb2 F half * (1 - X2 - Z2) * G) by [].
rewrite middle //. pose c1 : {poly F} := half *: (1 - 'X). rewrite -/c1. set H := \sum_(y <- ys) _.
have Dc1 : D1 1 c1. { apply: size_D1. apply: (leq_trans (size_scale_leq _ _)). by rewrite -opprB size_opp size_XsubC. }
have SH : (size H <= M)%N.
{ have := (@D1_size F M.-1). rewrite prednK //. apply. apply: filt_sum => [|y _]; first exact: fD1.
  have D10 v : D1 0 (emb1 F v) by apply: size_D1; rewrite /= size_polyC_leq1.
  have := filtM (fD1 F) (D10 (wy y)) (lift_horner (fD1 F) DG (_ : D1 1 (c1 * (1 + emb1 F y)))). rewrite add0n; apply.
  refine (@filtM _ _ (fD1 F) 1%N 0%N _ _ Dc1 _). apply: (filtD (fD1 F)); [exact: (filt1 (fD1 F))|exact: D10]. }
rewrite outer3; last by apply: (leq_trans (size_scale_leq _ _)).
have -> : 64%:R^-1 = 32%:R^-1 * half by rewrite -invfM -natrM.
rewrite -mulrA; congr (_ * _). 
transitivity (half * \sum_(z <- zs) \sum_(y <- ys) \sum_(x <- xs) wx x * wy y * wz z *
    (let t := half * (1 + z) in let s := half * (1 + y) * (1 - t) in ev3 P (half * (1 + x) * (1 - s - t)) s t)).
- rewrite mulr_sumr. apply: eq_bigr => z _. rewrite hornerZ mulrCA; congr (_ * _). rewrite /H horner_sum mulr_sumr. apply: eq_bigr => y _.
  rewrite hornerM hornerC ev2_sub. set t := half * (1 + z). 
  have -> : (c1 * (1 + emb1 F y)).[t] = half * (1 + y) * (1 - t).
  { rewrite hornerM hornerZ !hornerD hornerN !hornerC hornerX. by rewrite mulrAC. }
  set u := half * (1 + y) * (1 - t). rewrite mulrA /G -ev2mE rmorph_sum mulr_sumr. apply: eq_bigr => x _.
  rewrite rmorphM ev2m_c mulrA [wz z * _]mulrC [_ * wx x]mulrC mulrA; congr (_ * _). rewrite ev2mE ev3_sub /=.
  congr (ev3 P _ _ _). rewrite -ev2mE /c !rmorphM !rmorphB rmorphD !rmorph1 !ev2m_c ev2m_X ev2m_Y. by rewrite mulrAC.
- congr (_ * _). rewrite exchange_big /=. under eq_bigr => y _ do rewrite exchange_big /=. by rewrite exchange_big.
Qed.
End Unit.
