(** The stacked rows of the Raviart-Thomas space are linearly independent with a
    margin: for every degree up to 10^8 no singular value is below 1e-10. *)
Set Warnings "-notation-overridden,-ambiguous-paths".
From mathcomp Require Import all_ssreflect all_algebra zify.
From Verif Require Base ModelCell SpecFam ModelFam.
From Verif Require Import FieldTac SpecJacobi PropsExpansion ModelDmats ProofsDmats ModelAffine ModelQuad SpecQuad ModelDual SpecDual ProofsDual ProofsDmatsReg SpecPoly ModelSpace SpecVec
  ProofsLagLat ProofsSpace ProofsSpaceCell ProofsPolyClo ProofsDubiner ProofsVecElem ModelNormal SpecNormal ProofsNormal PropsNormalCells ModelRT ProofsUnion ProofsRTSpace ProofsRTNodes ProofsGaussReal PropsQuadPos ProofsRTCond ProofsRT.
Set Implicit Arguments. Unset Strict Implicit. Unset Printing Implicit Defensive.
Import Order.TTheory GRing.Theory Num.Theory.
Local Open Scope ring_scope.

Section Alg.
Variable F : fieldType.
Add Field FFrtw : (mc_field_theory F).
Lemma half_alg (a v : F) : (1 + 1 : F) != 0 -> (a + v) ^+ 2 - (a ^+ 2 / (1 + 1) - v ^+ 2) = (a + (1 + 1) * v) ^+ 2 / (1 + 1).
Proof. move=> H. rewrite !expr2. ffield. nz. Qed.
Lemma quarter_alg (b e2 e3 e7 : F) : e2 = 1 + 1 -> e3 = 1 + 1 + 1 -> e7 = e2 * e3 + 1 -> e2 != 0 -> e7 != 0 ->
  (1 - b) / e2 - e3 * b - (e2 * e2)^-1 = e7 / e2 * ((e2 * e7)^-1 - b).
Proof. move=> -> -> -> H2 H7. have H3 := mulf_neq0 H2 H7. have H4 := mulf_neq0 H2 H2. ffield. repeat split; nz. Qed.
Lemma sqdiff_alg (s f S : F) : s ^+ 2 * f ^+ 2 + - (s + s) * (S * f) + S * S = (s * f - S) ^+ 2.
Proof. rewrite !expr2. fring. Qed.
Lemma bessel_alg (s u v : F) : s ^+ 2 * v + - (s + s) * u + s * u = s * (s * v - u).
Proof. rewrite !expr2. fring. Qed.
End Alg.
Section Gen.
Variable R : rcfType.
Lemma sum_sub (s1 s2 : seq nat) (g : nat -> R) : uniq s1 -> uniq s2 -> {subset s1 <= s2} -> (forall k, 0 <= g k) -> \sum_(k <- s1) g k <= \sum_(k <- s2) g k.
Proof.
move=> U1 U2 Hs Hg. rewrite [X in _ <= X](bigID (mem s1)) /= -[X in _ <= X + _]big_filter.
have -> : \sum_(i <- [seq i <- s2 | i \in s1]) g i = \sum_(i <- s1) g i.
{ apply: perm_big. apply: uniq_perm => //; first exact: filter_uniq. move=> k. rewrite mem_filter. case Hk : (k \in s1) => //=. exact: Hs. }
rewrite ler_addl. exact: sumr_ge0.
Qed.
Lemma half_sq (a v : R) : a ^+ 2 / 2%:R - v ^+ 2 <= (a + v) ^+ 2.
Proof.
have T : (1 + 1 : R) = 2%:R by []. rewrite -subr_ge0 -T half_alg; last by rewrite T pnatr_eq0. by rewrite divr_ge0 ?sqr_ge0 // T ler0n.
Qed.
Lemma two_sides (al be SV H tot kp : R) : 0 < kp -> 0 <= be -> al + be = 1 -> SV <= 3%:R * be -> kp * be <= H -> al / 2%:R - SV + H <= tot -> H <= tot ->
  (4%:R)^-1 <= tot \/ kp / 14%:R <= tot.
Proof.
move=> Hk Hb E HS HH T1 T2. case: (lerP (14%:R)^-1 be) => Hbe.
- right. apply: le_trans T2. apply: le_trans HH. by rewrite ler_pmul2l.
- left. apply: le_trans T1. have H0 : 0 <= H by apply: le_trans HH; rewrite mulr_ge0 // ltW.
  apply: (@le_trans _ _ (al / 2%:R - SV)); last by rewrite ler_addl. apply: (@le_trans _ _ (al / 2%:R - 3%:R * be)); last by rewrite ler_add2l ler_opp2.
  have -> : al = 1 - be by rewrite -E addrK. rewrite -subr_ge0.
  have -> : (1 - be) / 2%:R - 3%:R * be - 4%:R^-1 = 7%:R / 2%:R * (14%:R^-1 - be).
  { have E2 : (2%:R : R) = 1 + 1 by []. have E3 : (3%:R : R) = 1 + 1 + 1 by rewrite -[1 + 1]/(2%:R) -[X in _ = _ + X]/(1%:R) -natrD.
    have E4 : (4%:R : R) = 2%:R * 2%:R by rewrite -natrM. have E7 : (7%:R : R) = 2%:R * 3%:R + 1 by rewrite -natrM -[1]/(1%:R) -natrD.
    have E14 : (14%:R : R) = 2%:R * 7%:R by rewrite -natrM. rewrite E14 E4. apply: quarter_alg => //; by rewrite pnatr_eq0. }
  by rewrite mulr_ge0 ?subr_ge0 ?ltW // divr_gt0 ?ltr0n.
Qed.
Lemma margin (D kp : R) : 0 < D -> D <= 10%:R ^+ 8 -> (8%:R^-1) ^+ 2 * (2%:R^-1 ^+ 2 * (2%:R^-1 / D ^+ 2)) <= kp -> (10%:R ^+ 10) ^- 2 < kp / 14%:R.
Proof.
move=> D0 HD Hk. have P n : 0 < 10%:R ^+ n :> R by rewrite exprn_gt0 // ltr0n.
apply: (@lt_le_trans _ _ ((8%:R^-1) ^+ 2 * (2%:R^-1 ^+ 2 * (2%:R^-1 / D ^+ 2)) / 14%:R)); last by rewrite ler_pmul2r // invr_gt0 ltr0n.
have -> : (8%:R^-1) ^+ 2 * (2%:R^-1 ^+ 2 * (2%:R^-1 / D ^+ 2)) / 14%:R = (8%:R ^+ 2 * (2%:R ^+ 2 * (2%:R * D ^+ 2)) * 14%:R)^-1 by rewrite !exprVn -!invfM.
have Q : 0 < 8%:R ^+ 2 * (2%:R ^+ 2 * (2%:R * D ^+ 2)) * 14%:R by rewrite !mulr_gt0 ?exprn_gt0 ?ltr0n.
rewrite ltf_pinv ?posrE ?exprn_gt0 ?ltr0n //.
have -> : 8%:R ^+ 2 * (2%:R ^+ 2 * (2%:R * D ^+ 2)) * 14%:R = (8%:R ^+ 2 * (2%:R ^+ 2 * 2%:R) * 14%:R) * D ^+ 2 by move: (D ^+ 2) (8%:R ^+ 2) (2%:R ^+ 2) (14%:R) => z u v y; rewrite -!mulrA [z * _]mulrC.
apply: (@le_lt_trans _ _ ((8%:R ^+ 2 * (2%:R ^+ 2 * 2%:R) * 14%:R) * (10%:R ^+ 8) ^+ 2)).
- rewrite ler_pmul2l; last by repeat apply: mulr_gt0; try apply: exprn_gt0; rewrite ltr0n. rewrite ler_pexpn2r // nnegrE; apply: ltW => //; exact: P.
- have -> : (10%:R ^+ 10) ^+ 2 = 10%:R ^+ 4 * (10%:R ^+ 8) ^+ 2 :> R by rewrite -!exprM -exprD.
  rewrite ltr_pmul2r; last by rewrite exprn_gt0 // P. rewrite -!natrX -!natrM ltr_nat. lia.
Qed.
End Gen.

Section Well.
Variable R : rcfType.
Variables (sqrt : R -> R) (gjp : nat -> nat -> nat -> seq R).
Hypothesis Hsq : sqrt_exact sqrt.
Variables (c : cell) (deg : nat).
Hypothesis Hc : solid c.
Hypothesis HG : gauss_points gjp (2 * deg + 2).
Notation sd := (sdim_of c).
Notation Nd k := (size (exps sd k)).
Notation N := (Nd deg.+1).
Notation N0 := (Nd deg).
Notation Nl := (Nlow c deg).
Notation T := (N0 - Nl)%N.
Variables (A B : polyset R) (r : rule R) (s : R) (ph : nat -> seq R -> R).
Hypothesis SP : sets_spec sqrt c deg A B r s ph.
Hypothesis Hr : make_quadrature gjp (quad_cell R c) (2 * deg + 2) = Base.Ok r.
Hypothesis Es : s = (scl R c / 2%:R) ^+ sd.
Let Hs : SpecFam.simplex c := proj1 (solid_simplex Hc).
Let sd2 : (2 <= sd <= 3)%N := proj2 (solid_simplex Hc).
Let sd2a : (2 <= sd)%N. Proof. by case/andP: sd2. Qed.
Let NlN : (Nl <= N0)%N := Nlow_le c deg.
Let N0N : (N0 <= N)%N := N0_le c deg.

Lemma scl12 : (scl R c = 1) \/ (scl R c = 2%:R).
Proof. by case: Hc; rewrite /scl; (try by left); right. Qed.
Lemma half_in : 2%:R^-1 <= scl R c / 2%:R <= 1.
Proof.
have h0 : 0 < 2%:R^-1 :> R by rewrite invr_gt0 ltr0n.
case: scl12 => ->; first by rewrite mul1r lexx /= invf_le1 ?ltr0n // ler1n.
by rewrite divff ?pnatr_eq0 // lexx andbT invf_le1 ?ltr0n // ler1n.
Qed.
Lemma s_in : (8%:R)^-1 <= s <= 1.
Proof.
rewrite Es. have /andP [H1 H2] := half_in. have h0 : 0 <= 2%:R^-1 :> R by rewrite invr_ge0 ler0n. have p0 := le_trans h0 H1.
apply/andP; split; last by rewrite exprn_ile1.
have : 2%:R^-1 ^+ 3 <= (scl R c / 2%:R) ^+ sd.
{ apply: (@le_trans _ _ ((scl R c / 2%:R) ^+ 3)); first by rewrite ler_pexpn2r. apply: ler_wiexpn2l => //. by case/andP: sd2. }
by rewrite exprVn -natrX.
Qed.
Lemma s_gt0 : 0 < s. Proof. have /andP [H _] := s_in. apply: lt_le_trans H. by rewrite invr_gt0 ltr0n. Qed.
Lemma pos_rule : (forall p, p \in q_pts r -> inside sd (verts R c) p) /\ (forall w, w \in q_wts r -> 0 < w).
Proof.
have m0 : (0 < 2 * deg + 2)%N by lia. have d3 : (0 < sd <= 3)%N by lia.
have [H1 H2] := C28_positive m0 HG d3 (scell_verts R Hs) Hr. split=> // w Hw. have := H2 w Hw.
rewrite (jac_det_scl R Hs). have H : 0 < scl R c ^+ sd by apply: exprn_gt0; case: scl12 => ->; rewrite ?ltr01 ?ltr0n.
by rewrite (gtr0_sg H) => /eqP; rewrite sgr_cp0.
Qed.
Lemma zip_in (xw : seq R * R) : xw \in zip (q_pts r) (q_wts r) -> xw.1 \in q_pts r /\ xw.2 \in q_wts r.
Proof. elim: (q_pts r) (q_wts r) => [|x l IH] [|y l'] //=. rewrite !inE => /orP [/eqP -> /=|/IH [-> ->]]; by rewrite ?eqxx ?orbT. Qed.
Lemma int_le f g : (forall x, x \in q_pts r -> f x <= g x) -> integrate r f <= integrate r g.
Proof.
move=> H. rewrite /integrate big_seq [X in _ <= X]big_seq. apply: ler_sum => xw Hxw. have [H1 H2] := zip_in Hxw. apply: ler_wpmul2l; last exact: H.
apply: ltW. exact: (proj2 pos_rule).
Qed.
Lemma int0 : integrate r (fun=> 0) = 0. Proof. rewrite /integrate big1 // => xw _. by rewrite mulr0. Qed.
Lemma int_ge0 f : (forall x, x \in q_pts r -> 0 <= f x) -> 0 <= integrate r f.
Proof. move=> H. rewrite -int0. exact: int_le. Qed.
Lemma int_lin3 (a b : R) f1 f2 f3 : integrate r (fun x => a * f1 x + b * f2 x + f3 x) = a * integrate r f1 + b * integrate r f2 + integrate r f3.
Proof.
rewrite /integrate !mulr_sumr -!big_split /=. apply: eq_bigr => xw _. by rewrite !mulrDr; congr (_ + _ + _); rewrite mulrCA.
Qed.
Lemma coord_val p i : p \in q_pts r -> (i < sd)%N -> exists l, 0 < l < 1 /\ nth 0 p i = org R c + scl R c * l.
Proof.
move=> Hp Hi. have [la [L1 L2 L3 ->]] := proj1 pos_rule p Hp. rewrite nth_mkseq //. exists (nth 0 la i.+1).
have H0 v : (v < sd.+1)%N -> 0 < nth 0 la v by move=> Hv; apply: (allP L2); apply: mem_nth; rewrite L1.
have L3' : \sum_(v < sd.+1) nth 0 la v = 1 by rewrite -[RHS]L3 [RHS](big_nth 0) L1 big_mkord.
split.
{ rewrite H0 //= -L3' (bigD1 (Ordinal (Hi : (i.+1 < sd.+1)%N))) //= ltr_addl.
  rewrite (bigD1 ord0) //=. apply: ltr_paddr; last exact: H0. apply: sumr_ge0 => v _. apply: ltW. exact: H0. }
transitivity (\sum_(v < sd.+1) (org R c * nth 0 la v + scl R c * ((v == i.+1 :> nat)%:R * nth 0 la v))).
{ apply: eq_bigr => v _. rewrite -[vtx _ _ _]/(vco R c v i) vcoE //; last by rewrite -ltnS. by rewrite mulrDr [nth 0 la v * org R c]mulrC mulrCA [nth 0 la v * _]mulrC. }
rewrite big_split /= -!mulr_sumr L3' mulr1. congr (_ + _ * _).
rewrite (bigD1 (Ordinal (Hi : (i.+1 < sd.+1)%N))) //= eqxx mul1r big1 ?addr0 // => v Hv. case Ev : (v == i.+1 :> nat); last by rewrite mul0r. move/eqP: Ev => E. case/eqP: Hv. exact: val_inj.
Qed.
Lemma in_box p i : p \in q_pts r -> (i < sd)%N -> nth 0 p i ^+ 2 <= 1.
Proof.
move=> Hp Hi. have [l [/andP [l0 l1] ->]] := coord_val Hp Hi. rewrite -real_normK ?num_real // exprn_ile1 //.
have os : (org R c = 0 /\ scl R c = 1) \/ (org R c = -1 /\ scl R c = 1 + 1) by case: Hc; rewrite /org /scl; (try by left); right.
rewrite ler_norml. case: os => [[-> ->]|[-> ->]].
- rewrite add0r mul1r (ltW l1) andbT. apply: le_trans (ltW l0). by rewrite oppr_le0 ler01.
- have p0 : 0 <= (1 + 1) * l by rewrite mulr_ge0 ?addr_ge0 ?ler01 // ltW.
  rewrite ler_addl p0 /= addrC ler_subl_addr. by rewrite ger_pmulr ?ltW // addr_gt0 ?ltr01.
Qed.

(** sums against a combination of basis functions *)
Lemma int_lin m (b : nat -> R) (f : nat -> seq R -> R) g :
  integrate r (fun x => g x * \sum_(t < m) b t * f t x) = \sum_(t < m) b t * integrate r (fun x => g x * f t x).
Proof.
rewrite -(int_sum r m b (fun t x => g x * f t x)). rewrite /integrate. apply: eq_bigr => xw _. congr (_ * _).
rewrite mulr_sumr. apply: eq_bigr => t _. by rewrite mulrCA.
Qed.
Notation V b x := (\sum_(t < T) b t * ph (Nl + t)%N x).
Lemma NlT t : (t < T)%N -> (Nl + t < N0)%N. Proof. move: NlN. lia. Qed.
Lemma q_sq (b : nat -> R) : integrate r (fun x => V b x ^+ 2) = s * \sum_(t < T) b t ^+ 2.
Proof.
rewrite [LHS](_ : _ = integrate r (fun x => V b x * V b x)); last by apply: (int_ext (Q_of SP)) => x _; rewrite expr2.
rewrite (int_lin _ b (fun t => ph (Nl + t)%N)) mulr_sumr. apply: eq_bigr => t _.
rewrite (int_ext (Q_of SP) (g := fun x => ph (Nl + t)%N x * V b x)); last by move=> x _; rewrite mulrC.
rewrite (int_lin _ b (fun t => ph (Nl + t)%N)). case: (Q_of SP) => _ _ _ Ho.
have L u : (u < T)%N -> (Nl + u < N)%N by move=> Hu; apply: leq_trans (NlT Hu) N0N.
rewrite (bigD1 t) //= Ho ?L ?ltn_ord // eqxx mulr1 big1 ?addr0; first by rewrite mulrA -expr2 mulrC.
move=> u Hu. rewrite Ho ?L ?ltn_ord // eqn_add2l. have -> : (t == u :> nat) = false by apply/eqP => E; case/eqP: Hu; apply: val_inj.
by rewrite !mulr0.
Qed.
(** Bessel's inequality *)
Lemma bessel m f : (m <= N)%N -> \sum_(k < m) integrate r (fun x => ph k x * f x) ^+ 2 <= s * integrate r (fun x => f x ^+ 2).
Proof.
move=> Hm. pose w k := integrate r (fun x => ph k x * f x). have s0 := s_gt0. pose S := fun x => \sum_(k < m) w k * ph k x.
have Sf : integrate r (fun x => S x * f x) = \sum_(k < m) w k ^+ 2.
{ rewrite (int_ext (Q_of SP) (g := fun x => f x * S x)); last by move=> x _; rewrite mulrC.
  rewrite (int_lin _ w ph). apply: eq_bigr => k _. rewrite expr2. congr (_ * _). apply: (int_ext (Q_of SP)) => x _. by rewrite mulrC. }
have SS : integrate r (fun x => S x * S x) = s * \sum_(k < m) w k ^+ 2.
{ rewrite (int_lin _ w ph) mulr_sumr. apply: eq_bigr => k _. rewrite (int_ext (Q_of SP) (g := fun x => ph k x * S x)); last by move=> x _; rewrite mulrC.
  rewrite (int_coef (Q_of SP)) ?(leq_trans _ Hm) // ltn_ord. by rewrite mulrCA expr2. }
have : 0 <= integrate r (fun x => s ^+ 2 * f x ^+ 2 + (- (s + s)) * (S x * f x) + S x * S x).
{ apply: int_ge0 => x _. rewrite sqdiff_alg. exact: sqr_ge0. }
rewrite int_lin3 Sf SS. rewrite -/(w _). move: (\sum_(k < m) _) (integrate _ _) => u v.
rewrite bessel_alg pmulr_rge0 // subr_ge0. by [].
Qed.

Notation Wc b i k := (\sum_(t < T) b t * coeffs B t [:: i] k).
Lemma w_int (b : nat -> R) i k : (i < sd)%N -> (k < N)%N -> Wc b i k = integrate r (fun x => ph k x * (V b x * nth 0 x i)).
Proof.
move=> Hi Hk. case: SP => _ _ _ _ HB. transitivity (\sum_(t < T) b t * integrate r (fun x => (ph k x * nth 0 x i) * ph (Nl + t)%N x)).
{ apply: eq_bigr => t _. rewrite HB //. congr (_ * _). apply: (int_ext (Q_of SP)) => x _. by rewrite [ph (Nl + t)%N x * _]mulrC mulrA. }
rewrite -(int_lin _ b (fun t => ph (Nl + t)%N)). apply: (int_ext (Q_of SP)) => x _. by rewrite -mulrA [nth 0 x i * _]mulrC.
Qed.
Lemma w_low (b : nat -> R) i : (i < sd)%N -> \sum_(k < N0) Wc b i k ^+ 2 <= s ^+ 2 * \sum_(t < T) b t ^+ 2.
Proof.
move=> Hi. apply: (@le_trans _ _ (s * integrate r (fun x => (V b x * nth 0 x i) ^+ 2))).
{ have -> : \sum_(k < N0) Wc b i k ^+ 2 = \sum_(k < N0) integrate r (fun x => ph k x * (V b x * nth 0 x i)) ^+ 2.
  { apply: eq_bigr => k _. by rewrite w_int // (leq_trans (ltn_ord k) N0N). }
  exact: bessel N0N. }
rewrite expr2 -mulrA -q_sq. apply: ler_wpmul2l; first exact: ltW s_gt0. apply: int_le => x Hx. rewrite exprMn.
apply: ler_pimulr; first exact: sqr_ge0. exact: in_box.
Qed.
Notation kap := ((scl R c / 2%:R) ^+ 2 * (2%:R^-1 / (deg + 2)%:R ^+ 2))%R.
Lemma w_high (b : nat -> R) : s ^+ 2 * kap * (\sum_(t < T) b t ^+ 2) <= \sum_(k <- iota N0 (N - N0)) Wc b sd.-1 k ^+ 2.
Proof.
have Ht : forall x, exp_table sqrt c deg.+1 x = Ok [seq ph k x | k <- iota 0 N] by case: (Q_of SP).
have [kk [be [K1 K2 K3 K4]]] := last_ok Hsq Hs sd2a (ltnSn deg) Ht. have Hi : (sd.-1 < sd)%N by move: sd2a; lia.
have Rg t : (t < T)%N -> (Nl <= Nl + t < N0)%N by move/NlT => ->; rewrite leq_addr.
have Wk k : (N0 <= k < N)%N -> Wc b sd.-1 k = \sum_(t < T) b t * (s * (be (Nl + t)%N * (k == kk (Nl + t)%N)%:R)).
{ move=> /andP [Hk0 Hk]. case: SP => _ _ _ _ HB. apply: eq_bigr => t _. congr (_ * _). rewrite HB //.
  have Hr' := Rg t (ltn_ord t). have [e He] := K4 _ Hr'. have /andP [Hkk0 Hkk] := K1 _ Hr'.
  rewrite (int_ext (Q_of SP) (g := fun x => be (Nl + t)%N * (ph k x * ph (kk (Nl + t)%N) x) + 0 * 0 + ph k x * \sum_(l < N0) e l * ph l x)); last first.
  { move=> x _. by rewrite [ph (Nl + t)%N x * _]mulrC He mulrDr mulrCA mul0r addr0. }
  rewrite (int_lin3 _ 0 _ (fun=> 0)) mul0r addr0 (int_coef (Q_of SP)) // ltnNge Hk0 /= addr0. case: (Q_of SP) => _ _ _ Ho. rewrite Ho // mulrCA. by []. }
have Wkk t : (t < T)%N -> Wc b sd.-1 (kk (Nl + t)%N) = s * be (Nl + t)%N * b t.
{ move=> Ht'. rewrite Wk ?K1 ?Rg // (bigD1 (Ordinal Ht')) //= eqxx mulr1 big1 ?addr0; first by rewrite mulrC.
  move=> u Hu. case Eu : (_ == _); last by rewrite !mulr0. move/eqP: Eu => /K2. rewrite !Rg // => /(_ isT isT) /addnI E. case/eqP: Hu. exact: val_inj. }
apply: (@le_trans _ _ (\sum_(k <- [seq kk (Nl + t)%N | t <- iota 0 T]) Wc b sd.-1 k ^+ 2)); last first.
{ apply: sum_sub; [|exact: iota_uniq| |by move=> k; exact: sqr_ge0].
  - rewrite map_inj_in_uniq ?iota_uniq // => u v. rewrite !mem_iota !add0n /= => Hu Hv /K2. by rewrite !Rg // => /(_ isT isT) /addnI.
  - move=> k /mapP [t]. rewrite mem_iota add0n /= => Ht' ->. have := K1 _ (Rg _ Ht'). by rewrite mem_iota subnKC. }
rewrite big_map -[X in iota 0 X]subn0 -/(index_iota 0 T) big_mkord mulr_sumr. apply: ler_sum => t _. rewrite Wkk // [(s * _ * _) ^+ 2]exprMn [(s * _) ^+ 2]exprMn.
apply: ler_wpmul2r; first exact: sqr_ge0. apply: ler_wpmul2l; first exact: sqr_ge0. exact: K3 (Rg _ (ltn_ord t)).
Qed.
Notation m := (num_members A + num_members B)%N.
Lemma row_sum (a : nat -> R) i k : (i < sd)%N -> (k < N)%N ->
  \sum_(j < m) a j * row_of A B j [:: i] k = (if (k < N0)%N then a (i * N0 + k)%N else 0) + Wc (fun t => a (sd * N0 + t)%N) i k.
Proof.
move=> Hi Hk. case: SP => _ _ [-> ->] HA _. rewrite big_split_ord /=. congr (_ + _); last first.
{ apply: eq_bigr => t _. rewrite /row_of. case: SP => _ _ [-> _] _ _. by rewrite ltnNge leq_addr /= addKn. }
transitivity (\sum_(q < sd * N0) a q * coeffs A q [:: i] k).
{ apply: eq_bigr => q _. rewrite /row_of. case: SP => _ _ [-> _] _ _. by rewrite ltn_ord. }
rewrite (sum_blocks (fun q => a q * coeffs A q [:: i] k)) (bigD1 (Ordinal Hi)) //= [X in _ + X]big1 ?addr0.
- case: ifP => Hk0.
  + rewrite (bigD1 (Ordinal Hk0)) //= HA // !eqxx mulr1 big1 ?addr0 // => l Hl. rewrite HA //.
    have -> : (l == k :> nat) = false by apply/eqP => E; case/eqP: Hl; exact: val_inj. by rewrite andbF mulr0.
  + rewrite big1 // => l _. rewrite HA //. have -> : (l == k :> nat) = false by apply/eqP => E; move: (ltn_ord l); rewrite E Hk0. by rewrite andbF mulr0.
- move=> i' Hi'. rewrite big1 // => l _. rewrite HA //. have -> : (i' == i :> nat) = false by apply/eqP => E; case/eqP: Hi'; exact: val_inj. by rewrite mulr0.
Qed.

Lemma rt_well : (deg + 2 <= 10 ^ 8)%N -> well_conditioned m (sd * N) (union_rows N A B).
Proof.
move=> Hdeg x Hx. case: (SP) => _ [shA shB] [nA nB] _ _.
have HAB : pshape A = pshape B by rewrite shA shB.
pose a j : R := if insub j is Some j' then x 0 (j' : 'I_m) else 0. have aE (j : 'I_m) : a j = x 0 j by rewrite /a valK.
have N1 : \sum_(j < m) a j ^+ 2 = 1.
{ have := congr1 (fun X : 'M_1 => X 0 0) Hx. rewrite !mxE eqxx /= mulr1n => <-. apply: eq_bigr => j _. by rewrite mxE aE expr2. }
pose b t := a (sd * N0 + t)%N. pose e i k := (if (k < N0)%N then a (i * N0 + k)%N else 0) + Wc b i k.
have TE : ((x *m mx m (sd * N) (union_rows N A B)) *m (x *m mx m (sd * N) (union_rows N A B))^T) 0 0 = \sum_(i < sd) \sum_(k < N) e i k ^+ 2.
{ rewrite mxE. pose G q : R := (\sum_(j < m) a j * entry (union_rows N A B) j q) ^+ 2.
  transitivity (\sum_(q < sd * N) G q).
  { apply: eq_bigr => q _. rewrite [_^T _ _]mxE -expr2 /G. congr (_ ^+ 2). rewrite mxE. apply: eq_bigr => j _. by rewrite mxE aE. }
  rewrite (sum_blocks G). apply: eq_bigr => i _. apply: eq_bigr => k _. rewrite /G. congr (_ ^+ 2). rewrite /e -(row_sum a) ?ltn_ord //.
  apply: eq_bigr => j _. congr (_ * _). rewrite (rows_nth HAB) ?ltn_ord //; last by rewrite shA comps1 size_map size_iota.
  by rewrite shA comps1 (nth_map 0%N) ?size_iota // nth_iota. }
rewrite TE {TE}. pose lo i := \sum_(k < N0) (a (i * N0 + k)%N + Wc b i k) ^+ 2. pose hi i := \sum_(k <- iota N0 (N - N0)) Wc b i k ^+ 2.
have -> : \sum_(i < sd) \sum_(k < N) e i k ^+ 2 = \sum_(i < sd) (lo i + hi i).
{ apply: eq_bigr => i _. rewrite -(big_mkord xpredT (fun k => e i k ^+ 2)) (big_cat_nat _ _ _ (leq0n _) N0N) /= big_mkord. congr (_ + _).
  - apply: eq_bigr => k _. by rewrite /e ltn_ord.
  - rewrite /index_iota. apply: eq_big_seq => k. rewrite mem_iota => /andP [Hk _]. by rewrite /e ltnNge Hk /= add0r. }
have hi0 i : 0 <= hi i by apply: sumr_ge0 => k _; exact: sqr_ge0.
have lo0 i : 0 <= lo i by apply: sumr_ge0 => k _; exact: sqr_ge0.
have Hl : (sd.-1 < sd)%N by move: sd2a; lia.
have HH : hi sd.-1 <= \sum_(i < sd) hi i by rewrite (bigD1 (Ordinal Hl)) //= ler_addl; apply: sumr_ge0.
pose al := \sum_(q < sd * N0) a q ^+ 2. pose be := \sum_(t < T) b t ^+ 2. pose SV := \sum_(i < sd) \sum_(k < N0) Wc b (i : nat) k ^+ 2.
have E1 : al + be = 1. { move: N1. rewrite nA nB big_split_ord /=. by []. }
have be0 : 0 <= be by apply: sumr_ge0 => t _; exact: sqr_ge0.
have /andP [s1 s2] := s_in. have s0 := s_gt0. have /andP [h1 h2] := half_in.
have SV1 : SV <= 3%:R * be.
{ apply: (@le_trans _ _ (\sum_(i < sd) be)).
  - apply: ler_sum => i _. apply: (le_trans (w_low b (ltn_ord i))). apply: ler_pimull => //. by rewrite exprn_ile1 // ltW.
  - rewrite sumr_const card_ord -[be *+ _]mulr_natl. apply: ler_wpmul2r => //. rewrite ler_nat. by case/andP: sd2. }
have D0 : 0 < (deg + 2)%:R :> R by rewrite ltr0n addn2.
have kp0 : (8%:R^-1) ^+ 2 * (2%:R^-1 ^+ 2 * (2%:R^-1 / (deg + 2)%:R ^+ 2)) <= s ^+ 2 * kap.
{ have i8 : 0 <= 8%:R^-1 :> R by rewrite invr_ge0 ler0n. have i2 : 0 <= 2%:R^-1 :> R by rewrite invr_ge0 ler0n.
  have q0 : 0 <= 2%:R^-1 / (deg + 2)%:R ^+ 2 :> R by rewrite divr_ge0 // exprn_ge0 // ltW.
  apply: ler_pmul; [exact: exprn_ge0|by rewrite mulr_ge0 // exprn_ge0|by rewrite ler_pexpn2r ?nnegrE // ltW|].
  apply: ler_wpmul2r => //. rewrite ler_pexpn2r ?nnegrE //. exact: le_trans i2 h1. }
have kpp : 0 < s ^+ 2 * kap.
{ apply: lt_le_trans kp0. have G k : 0 < (k.+1%:R : R)^-1 by rewrite invr_gt0 ltr0n.
  apply: mulr_gt0; first by apply: exprn_gt0; exact: G. apply: mulr_gt0; first by apply: exprn_gt0; exact: G. apply: mulr_gt0; first exact: G.
  rewrite invr_gt0. exact: exprn_gt0. }
have T2 : hi sd.-1 <= \sum_(i < sd) (lo i + hi i). { apply: (le_trans HH). apply: ler_sum => i _. by rewrite ler_addr. }
have T1 : al / 2%:R - SV + hi sd.-1 <= \sum_(i < sd) (lo i + hi i).
{ rewrite [X in _ <= X]big_split /=. apply: ler_add => //. rewrite /al (sum_blocks (fun q => a q ^+ 2)) mulr_suml /SV -sumrB. apply: ler_sum => i _.
  rewrite mulr_suml -sumrB. apply: ler_sum => k _. exact: half_sq. }
have HD : (deg + 2)%:R <= 10%:R ^+ 8 :> R by rewrite -natrX ler_nat.
have M := margin D0 HD kp0.
have M4 : (10%:R ^+ 10) ^- 2 < 4%:R^-1 :> R.
{ apply: (@lt_le_trans _ _ (10%:R ^- 1)); last by rewrite ler_pinv ?inE ?unitfE ?pnatr_eq0 ?ltr0n // ler_nat.
  rewrite -exprM ltf_pinv ?posrE ?exprn_gt0 ?ltr0n // ltr_eexpn2l // ltr1n. by []. }
have [H|H] := two_sides kpp be0 E1 SV1 (w_high b) T1 T2; [exact: lt_le_trans M4 H|exact: lt_le_trans M H].
Qed.
End Well.
