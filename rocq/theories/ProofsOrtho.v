(** Integration of polynomials and orthogonality of Jacobi polynomials. *)
Set Warnings "-notation-overridden,-ambiguous-paths".
From mathcomp Require Import all_ssreflect all_algebra.
From Verif Require Import FieldTac ModelJacobi SpecJacobi ProofsJacobi.
Set Implicit Arguments. Unset Strict Implicit. Unset Printing Implicit Defensive.
Import GRing.Theory.
Local Open Scope ring_scope.

Section O.
Variable F : fieldType.
Hypothesis F0 : char_zero F.
Add Field FF : (mc_field_theory F).
Implicit Types (p q : {poly F}) (u v c : F).

Lemma coef_antideriv p i : (antideriv p)`_i = if i is j.+1 then p`_j / i%:R else 0.
Proof.
rewrite /antideriv coef_poly. case: i => [|i] //.
rewrite ltnS. case: ltnP => // H. by rewrite nth_default // mul0r.
Qed.
Lemma antiderivD p q : antideriv (p + q) = antideriv p + antideriv q.
Proof. by apply/polyP => -[|i]; rewrite coefD !coef_antideriv ?addr0 // coefD mulrDl. Qed.
Lemma antiderivZ c p : antideriv (c *: p) = c *: antideriv p.
Proof. by apply/polyP => -[|i]; rewrite coefZ !coef_antideriv ?mulr0 // coefZ mulrA. Qed.
Lemma antideriv_deriv p : antideriv p^`() = p - (p`_0)%:P.
Proof.
apply/polyP => -[|i]; rewrite coefB coefC coef_antideriv /= ?subrr // subr0 coef_deriv -mulr_natr mulfK //.
exact: nat_neq0.
Qed.
Lemma deriv_antideriv p : (antideriv p)^`() = p.
Proof. apply/polyP => i. rewrite coef_deriv coef_antideriv -mulr_natr divfK //. exact: nat_neq0. Qed.
Lemma integralD u v p q : integral u v (p + q) = integral u v p + integral u v q.
Proof. rewrite /integral antiderivD !hornerD. fring. Qed.
Lemma integralZ u v c p : integral u v (c *: p) = c * integral u v p.
Proof. by rewrite /integral antiderivZ !hornerZ mulrBr. Qed.
Lemma integral0 u v : integral u v 0 = 0.
Proof. by rewrite -(scale0r 0) integralZ mul0r. Qed.
Lemma integralN u v p : integral u v (- p) = - integral u v p.
Proof. by rewrite -scaleN1r integralZ mulN1r. Qed.
Lemma integralB u v p q : integral u v (p - q) = integral u v p - integral u v q.
Proof. by rewrite integralD integralN. Qed.
Lemma integral_sum u v I (r : seq I) (P : pred I) (f : I -> {poly F}) :
  integral u v (\sum_(i <- r | P i) f i) = \sum_(i <- r | P i) integral u v (f i).
Proof. by apply: (big_morph (integral u v)); [exact: integralD|exact: integral0]. Qed.
(** fundamental theorem *)
Lemma integral_deriv u v p : integral u v p^`() = p.[v] - p.[u].
Proof. rewrite /integral antideriv_deriv !hornerD !hornerN !hornerC. move: p.[v] p.[u] p`_0 => x y z. fring. Qed.
Lemma integral_Xn u v n : integral u v 'X^n = (v ^+ n.+1 - u ^+ n.+1) / n.+1%:R.
Proof.
have -> : 'X^n = ((n.+1%:R^-1) *: 'X^(n.+1) : {poly F})^`().
{ rewrite derivZ derivXn /= -scaler_nat scalerA mulVf ?scale1r //. exact: nat_neq0. }
by rewrite integral_deriv !hornerZ !hornerXn -mulrBr mulrC.
Qed.

(** *** Orthogonality from a three-term recurrence *)
Section Favard.
Variables (L : {poly F} -> F) (P : nat -> {poly F}) (al be ga de : nat -> F).
Hypotheses (LD : forall p q, L (p + q) = L p + L q) (LZ : forall c p, L (c *: p) = c * L p).
Hypothesis rec : forall n, al n *: P n.+1 = (be n *: 1 + ga n *: 'X) * P n - de n *: (if n is n'.+1 then P n' else 0).
Hypotheses (aln : forall n, al n != 0) (gan : forall n, ga n != 0).
Hypotheses (P0 : P 0 = 1) (LP : forall n, L (P n.+1) = 0).

Lemma LB p q : L (p - q) = L p - L q.
Proof. by rewrite LD -scaleN1r LZ mulN1r. Qed.
Lemma L0 : L 0 = 0. Proof. by rewrite -(scale0r 0) LZ mul0r. Qed.

Definition Pm n := if n is n'.+1 then P n' else 0.
Lemma XP n : 'X * P n = (ga n)^-1 *: (al n *: P n.+1 - be n *: P n + de n *: Pm n).
Proof.
rewrite rec mulrDl -!scalerAl mul1r -/(Pm n).
rewrite addrAC subrK. rewrite [X in X - _]addrC addrK scalerA mulVf ?scale1r //.
Qed.

Lemma favard_lt m n : (m < n)%N -> L (P m * P n) = 0.
Proof.
have [k] := ubnP m. elim: k m n => // k IH m n; rewrite ltnS => Hmk Hmn.
case: m Hmk Hmn => [|m] Hmk Hmn; first by case: n Hmn => // n _; rewrite P0 mul1r LP.
apply: (mulfI (aln m)). rewrite mulr0 -LZ scalerAl rec.
case: n Hmn => // n Hmn.
rewrite mulrBl LB -scalerAl LZ.
have -> : L ((if m is m'.+1 then P m' else 0) * P n.+1) = 0.
{ case: m Hmk Hmn => [|m] Hmk Hmn; first by rewrite mul0r L0.
  by rewrite IH // ?(ltnW Hmk) // (ltn_trans (ltnSn m)) // ltnW. }
rewrite mulr0 subr0 -mulrA mulrDl -!scalerAl mul1r LD !LZ IH //; last exact: ltnW.
rewrite mulr0 add0r mulrCA XP -scalerAr LZ mulrDr LD mulrBr LB -!scalerAr !LZ.
rewrite (IH m n.+2) // ?(IH m n.+1) // /Pm ?(IH m n) // ?mulr0 ?subr0 ?addr0 ?mulr0 //.
all: by rewrite ?(leq_trans _ Hmn) // ltnW // ltnW.
Qed.
Lemma favard_neq m n : m != n -> L (P m * P n) = 0.
Proof. by rewrite neq_ltn => /orP [|] H; [|rewrite mulrC]; exact: favard_lt. Qed.
Lemma favard_norm n : L (P n.+1 * P n.+1) = ga n * de n.+1 / (ga n.+1 * al n) * L (P n * P n).
Proof.
have H1 : ga n * L ('X * P n * P n.+1) = al n * L (P n.+1 * P n.+1).
{ rewrite XP -scalerAl LZ mulrA divff // mul1r mulrDl mulrBl LD LB -!scalerAl !LZ.
  rewrite (favard_lt (ltnSn n)) mulr0 subr0. case: n => [|n] /=; first by rewrite mul0r L0 mulr0 addr0.
  by rewrite (@favard_lt n n.+2) // mulr0 addr0. }
have H2 : ga n.+1 * L ('X * P n.+1 * P n) = de n.+1 * L (P n * P n).
{ rewrite XP -scalerAl LZ mulrA divff // mul1r mulrDl mulrBl LD LB -!scalerAl !LZ /=.
  rewrite [P n.+2 * _]mulrC [P n.+1 * _]mulrC (@favard_lt n n.+2) // (@favard_lt n n.+1) //. by rewrite !mulr0 subr0 add0r. }
have H3 : 'X * P n * P n.+1 = 'X * P n.+1 * P n by rewrite -!mulrA [P n * _]mulrC.
rewrite H3 in H1.
apply: (mulfI (aln n)). rewrite -H1.
apply: (mulfI (gan n.+1)). rewrite mulrCA H2.
move: (aln n) (gan n.+1). move: (ga n) (ga n.+1) (al n) (de n.+1) (L (P n * P n)) => g g' a d l Ha Hg.
ffield. repeat split; nz.
Qed.
End Favard.

(** *** Jacobi polynomials with weight (1-x)^a, a natural *)
Lemma rodrigues_coeff (a : F) n j :
  (a + 1 + j%:R) * (jc (a + 1) 1 n j + (if j is j'.+1 then jc (a + 1) 1 n j' else 0)) = n.+1%:R * jc a 0 n.+1 j.
Proof.
rewrite /jc. case: (ltngtP j n.+1) => Hj.
- rewrite ltnS in Hj. rewrite Hj.
  case: j Hj => [|j] Hj.
  + rewrite /jacobi_coeff !subn0 !poch0 !fact0 !addr0 pochSl factS natrM.
    have H1 := nat_neq0 F0 n. have H2 := fact_neq0 F0 n.
    move: (poch _ _) (n.+1%:R : F) (n`!%:R : F) H1 H2 => p u v H1 H2. ffield. repeat split; nz.
  + rewrite (ltnW Hj) /jacobi_coeff subSS.
    have -> : (n - j = (n - j.+1).+1)%N by rewrite subnSK.
    set k := (n - j.+1)%N. have Hn : n%:R = k%:R + j%:R + 1 :> F.
    { rewrite -(subnK Hj) -/k natrD mulrS [1 + _]addrC addrA. by []. }
    have E1 : a + 1 + j%:R + 1 = a + j.+1%:R + 1 by rewrite mulrS; fring.
    rewrite E1 !factS !natrM.
    have E2 : n%:R + (a + 1) + 1 + 1 = n.+1%:R + a + 0 + 1 + 1 by rewrite mulrS; fring.
    rewrite E2 (pochSl (n.+1%:R + a + 0 + 1)) (pochSr (n.+1%:R + a + 0 + 1 + 1)).
    rewrite (pochSl (a + j.+1%:R + 1) k).
    have -> : a + 1 + j.+1%:R + 1 = a + j.+1%:R + 1 + 1 by fring.
    rewrite (mulrS _ n) Hn. 
    move: (poch (a + j.+1%:R + 1 + 1) k) (poch (1 + (k%:R + j%:R + 1) + a + 0 + 1 + 1) j) => p q.
    have H1 := nat_neq0 F0 j. have H2 := nat_neq0 F0 k. have H3 := fact_neq0 F0 j. have H4 := fact_neq0 F0 k.
    move: (j`!%:R : F) (k`!%:R : F) H3 H4 => fj fk H3 H4.
    rewrite !mulrS in H1 H2 *. move: (j%:R : F) (k%:R : F) H1 H2 => jj kk H1 H2.
    ffield. repeat split; nz.
- case: j Hj => // j; rewrite ltnS => Hj. rewrite [(j <= n)%N]leqNgt Hj /=. rewrite ltnNge (ltnW Hj) /=. by rewrite addr0 !mulr0.
- rewrite Hj ltnn leqnn /= add0r /jacobi_coeff !subnn !poch0 !fact0 !divr1 !mul1r.
  have -> : n%:R + (a + 1) + 1 + 1 = n.+1%:R + a + 0 + 1 + 1 by rewrite mulrS; fring.
  rewrite pochSl factS natrM.
  have H1 := nat_neq0 F0 n. have H2 := fact_neq0 F0 n. rewrite mulrS in H1 *.
  set P0 := poch _ n. clearbody P0. move: (n%:R : F) (n`!%:R : F) H1 H2 => u v H1 H2. ffield. repeat split; nz.
Qed.

Lemma rodrigues_y (a : nat) n :
  ('X^a.+1 * (1 + 'X) * jy (a%:R + 1) 1 n)^`() = 'X^a * (n.+1%:R *: jy (a%:R) 0 n.+1) :> {poly F}.
Proof.
rewrite -mulrA derivM derivXn /= exprS.
have -> : (('X^a : {poly F}) *+ a.+1 * ((1 + 'X) * jy (a%:R + 1) 1 n) + 'X * 'X^a * ((1 + 'X) * jy (a%:R + 1) 1 n)^`() =
  'X^a * (a.+1%:R *: ((1 + 'X) * jy (a%:R + 1) 1 n) + 'X * ((1 + 'X) * jy (a%:R + 1) 1 n)^`()))%R.
{ rewrite mulrDr scaler_nat mulrnAl mulrnAr ['X * 'X^a]mulrC -!mulrA. by []. }
congr (_ * _). set q := jy _ _ _. apply/polyP => j.
rewrite coefD !coefZ coefXM mulrDl mul1r coefD coefXM jyE -rodrigues_coeff -/q.
case: j => [|j] /=; rewrite -!jyE -/q.
- rewrite mulrS. move: q`_0 (a%:R : F) => u w. fring.
- rewrite coef_deriv coefD coefXM /= !jyE -!jyE -/q. rewrite -(mulr_natr (_ + _)) !mulrS.
  move: q`_j.+1 q`_j (a%:R : F) (j%:R : F) => u u' w jj. fring.
Qed.

Definition jweight (a : nat) (p : {poly F}) : F := integral (-1) 1 ((1 - 'X) ^+ a * p).
Lemma jweightD a p q : jweight a (p + q) = jweight a p + jweight a q.
Proof. by rewrite /jweight mulrDr integralD. Qed.
Lemma jweightZ a c p : jweight a (c *: p) = c * jweight a p.
Proof. by rewrite /jweight -scalerAr integralZ. Qed.

Lemma one_sub_X : 1 - 'X = (- 2%:R) *: halfshift F.
Proof. rewrite /halfshift scalerA mulNr divff ?(two_neq0 F0) // scaleN1r opprB. by []. Qed.

Lemma jweight_jacobi a n : jweight a (jacobi_poly a%:R 0 n.+1) = 0.
Proof.
rewrite /jweight one_sub_X exprZn -scalerAl integralZ.
have -> : halfshift F ^+ a * jacobi_poly a%:R 0 n.+1 =
   (2%:R / n.+1%:R) *: (('X^a.+1 * (1 + 'X) * jy (a%:R + 1) 1 n) \Po halfshift F)^`().
{ rewrite deriv_comp rodrigues_y jacobi_polyE.
  have -> : (halfshift F)^`() = (2%:R^-1)%:P by rewrite /halfshift derivZ derivB derivX derivC subr0 alg_polyC.
  rewrite comp_polyM comp_polyZ rmorphX /= comp_polyX mulrC [_ * _%:P]mulrC mul_polyC.
  rewrite -scalerAr [in RHS]scalerA [in RHS]scalerA mulrC.
  have -> : 2%:R / n.+1%:R / 2%:R * n.+1%:R = 1 :> F.
  { have H := two_neq0 F0. have H2 := nat_neq0 F0 n. move: (2%:R : F) (n.+1%:R : F) H H2 => u w H H2. ffield. repeat split; nz. }
  by rewrite scale1r. }
rewrite integralZ integral_deriv !horner_comp /halfshift !(hornerM, hornerXn, hornerD, hornerZ, hornerN, hornerX, hornerC).
rewrite subrr mulr0 expr0n /= !mul0r.
have -> : 2%:R^-1 * (-1 - 1) = -1 :> F.
{ have H := two_neq0 F0. rewrite !mulrS mulr0n in H *. ffield. nz. }
by rewrite subrr mulr0 mul0r subrr !mulr0.
Qed.
Lemma jweight_one a : jweight a 1 = 2%:R ^+ a.+1 / a.+1%:R.
Proof.
rewrite /jweight mulr1 -[_ ^+ a]opprK.
have -> : (1 - 'X) ^+ a = (- (a.+1%:R^-1) *: (1 - 'X) ^+ a.+1 : {poly F})^`().
{ rewrite derivZ deriv_exp /= derivB derivC derivX sub0r mulN1r mulNrn scaleNr scalerN opprK -scaler_nat scalerA mulVf ?scale1r //.
  exact: nat_neq0. }
rewrite opprK integral_deriv !hornerZ !horner_exp !hornerD !hornerN hornerX hornerC subrr expr0n /= mulr0 sub0r.
rewrite hornerX -polyC1 hornerC opprK mulNr opprK mulrC. by [].
Qed.

(** *** Orthogonality and norms of P_n^(a,0), weight (1-x)^a *)
Definition jal a n : F := if n is n'.+1 then jac_a1 a%:R 0 n.+1 else 1.
Definition jbe a n : F := if n is n'.+1 then jac_a2 a%:R 0 n.+1 else a%:R / 2%:R.
Definition jga a n : F := if n is n'.+1 then jac_a3 a%:R 0 n.+1 else (a%:R + 2%:R) / 2%:R.
Definition jde a n : F := if n is n'.+1 then jac_a4 a%:R 0 n.+1 else 0.
Lemma jacobi1_poly a : jacobi_poly a%:R 0 1 = (a%:R / 2%:R) *: 1 + ((a%:R + 2%:R) / 2%:R) *: 'X :> {poly F}.
Proof.
rewrite /jacobi_poly !big_ord_recl big_ord0 addr0 /jacobi_coeff /= /bump /= expr0 expr1.
rewrite !pochSr !poch0 !factS !fact0 !mulr0n.
apply/polyP => i. rewrite !(coefD, coefZ, coefN, coefX, coef1).
have H := two_neq0 F0. move: H. rewrite !mulrS mulr0n => H.
move: ((i == 0%N)%:R : F) ((i == 1%N)%:R : F) (a%:R : F) => u w c.
ffield. repeat split; nz.
Qed.
Lemma jrec a n : jal a n *: jacobi_poly a%:R 0 n.+1 = (jbe a n *: 1 + jga a n *: 'X) * jacobi_poly a%:R 0 n
  - jde a n *: (if n is n'.+1 then jacobi_poly a%:R 0 n' else 0).
Proof.
case: n => [|n]; last exact: jacobi_recur.
by rewrite jacobi_poly0 mulr1 scale1r scale0r subr0 jacobi1_poly.
Qed.
Lemma natn0 n : (0 < n)%N -> n%:R != 0 :> F. Proof. exact: F0. Qed.
Lemma jal_neq0 a n : jal a n != 0.
Proof.
case: n => [|n] /=; first exact: oner_neq0. rewrite /jac_a1 addr0.
have -> : 2%:R * n.+2%:R + a%:R - 2%:R = (n.+1.*2 + a)%:R :> F.
{ rewrite natrD -muln2 natrM !mulrS. fring. }
rewrite -!natrD -natrM -!natrM. apply: F0. by rewrite !muln_gt0 /= addn_gt0 doubleS.
Qed.
Lemma jga_neq0 a n : jga a n != 0.
Proof.
case: n => [|n] /=; first by rewrite mulf_neq0 ?invr_eq0 ?(two_neq0 F0) // -natrD addn2; exact: natn0.
rewrite /jac_a3 addr0.
have -> : 2%:R * n.+2%:R + a%:R - 2%:R = (n.+1.*2 + a)%:R :> F.
{ rewrite natrD -muln2 natrM !mulrS. fring. }
have -> : 2%:R * n.+2%:R + a%:R - 1 = (n.+1.*2.+1 + a)%:R :> F.
{ rewrite natrD -muln2 (mulrS _ (n.+1 * 2)) natrM !mulrS. fring. }
rewrite -!natrM -natrD -natrM. by apply: F0.
Qed.
Lemma jacobi_orth a m n : m != n -> jweight a (jacobi_poly a%:R 0 m * jacobi_poly a%:R 0 n) = 0.
Proof.
apply: (@favard_neq (jweight a) (jacobi_poly a%:R 0) (jal a) (jbe a) (jga a) (jde a)).
- exact: jweightD. - exact: jweightZ. - exact: jrec. - exact: jal_neq0. - exact: jga_neq0.
- exact: jacobi_poly0. - exact: jweight_jacobi.
Qed.
Lemma jacobi_norm a n :
  jweight a (jacobi_poly a%:R 0 n * jacobi_poly a%:R 0 n) = 2%:R ^+ a.+1 / (n.*2 + a).+1%:R.
Proof.
elim: n => [|n IH]; first by rewrite jacobi_poly0 mulr1 jweight_one.
rewrite (@favard_norm (jweight a) (jacobi_poly a%:R 0) (jal a) (jbe a) (jga a) (jde a)) ?IH.
- have E2 := two_neq0 F0. have Hn := nat_neq0 F0 n. have Hnn := nat_neq0 F0 (n.*2 + a). 
  have Hn2 : (n.*2.+2 + a)%:R != 0 :> F by apply: F0.
  have Hn3 : (n.*2.+2 + a).+1%:R != 0 :> F by apply: F0.
  have Hn4 : (n.*2.+2 + a).+2%:R != 0 :> F by apply: F0.
  have Hn5 : n.+2%:R != 0 :> F by apply: F0.
  have Hn6 : (n.+2 + a)%:R != 0 :> F by apply: F0.
  have Hn7 : (n.+1 + a)%:R != 0 :> F by apply: F0.
  have Hn8 : (a.+2)%:R != 0 :> F by apply: F0.
  have Hn9 : (n.*2 + a)%:R != 0 :> F \/ n = 0%N.
  { case: n {IH E2 Hn Hnn Hn2 Hn3 Hn4 Hn5 Hn6 Hn7} => [|n]; first by right. left. exact: F0. }
  rewrite doubleS. set T := 2%:R ^+ a.+1. clearbody T.
  case: n {IH} Hn Hnn Hn2 Hn3 Hn4 Hn5 Hn6 Hn7 Hn9 => [|n] /= Hn Hnn Hn2 Hn3 Hn4 Hn5 Hn6 Hn7 Hn9.
  + rewrite /jac_a3 /jac_a4. rewrite double0 add0n ?mulrS ?natrD ?mulr0n in E2 Hn Hnn Hn2 Hn3 Hn4 Hn5 Hn6 Hn7 Hn8 *.
    move: (a%:R : F) E2 Hn Hnn Hn2 Hn3 Hn4 Hn5 Hn6 Hn7 Hn8 => c *. ffield. repeat split; nz.
  + case: Hn9 => // Hn9. rewrite /jac_a1 /jac_a3 /jac_a4.
    rewrite -!muln2 ?mulrS ?natrD ?natrM ?mulrS ?natrM ?mulrS ?mulr0n in E2 Hn Hnn Hn2 Hn3 Hn4 Hn5 Hn6 Hn7 Hn8 Hn9 *.
    move: (a%:R : F) (n%:R : F) E2 Hn Hnn Hn2 Hn3 Hn4 Hn5 Hn6 Hn7 Hn8 Hn9 => c d *. ffield. repeat split; nz.
- exact: jweightD. - exact: jweightZ. - exact: jrec. - exact: jal_neq0. - exact: jga_neq0.
- exact: jacobi_poly0. - exact: jweight_jacobi.
Qed.
End O.
