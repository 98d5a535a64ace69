(** Gauss-Jacobi quadrature: rules at the roots of P_m^(a,0) with FIAT's weight
    formula are exact up to degree 2m - 1 for the weight (1-x)^a. *)
Set Warnings "-notation-overridden,-ambiguous-paths".
From mathcomp Require Import all_ssreflect all_algebra zify.
From Verif Require Import FieldTac ModelJacobi SpecJacobi ProofsJacobi ProofsOrtho ProofsOrthopoly.
Set Implicit Arguments. Unset Strict Implicit. Unset Printing Implicit Defensive.
Import GRing.Theory.
Local Open Scope ring_scope.

Section G.
Variable F : fieldType.
Hypothesis F0 : char_zero F.
Add Field FF : (mc_field_theory F).
Variable a : nat.
Notation P n := (jacobi_poly (a%:R : F) 0 n).
Notation L := (@jweight F a).

Lemma rega n : jacobi_regular (a%:R : F) 0 n.
Proof. move=> m /andP [Hm _]. rewrite addr0 -natrD. apply: F0. by rewrite addn_gt0 (ltnW Hm). Qed.
Definition lcP n : F := lead_coef (P n).
Lemma lcPE n : lcP n = lc (a%:R) 0 n.
Proof.
rewrite /lcP (jacobi_monic F0 0 (@rega n) (leqnn n)) lead_coefZ.
by have [/eqP -> _] := mon_monic (ralpha (a%:R : F) 0) (rbeta (a%:R : F) 0 0) n; rewrite mulr1.
Qed.
Lemma lcP0 n : lcP n != 0. Proof. rewrite lcPE. exact: (lcn0 F0 (@rega n)). Qed.
Lemma sizeP n : size (P n) = n.+1.
Proof.
rewrite (jacobi_monic F0 0 (@rega n) (leqnn n)) size_scale; last exact: (lcn0 F0 (@rega n)).
by have [_ ->] := mon_monic (ralpha (a%:R : F) 0) (rbeta (a%:R : F) 0 0) n.
Qed.
Lemma lcPc n : (P n)`_n = lcP n. Proof. by rewrite /lcP lead_coefE sizeP. Qed.
Lemma P0n n : P n != 0. Proof. by rewrite -size_poly_eq0 sizeP. Qed.

Lemma LD p q : L (p + q) = L p + L q. Proof. exact: jweightD. Qed.
Lemma LZ c p : L (c *: p) = c * L p. Proof. exact: jweightZ. Qed.
Lemma L_0 : L 0 = 0. Proof. by rewrite -(scale0r 0) LZ mul0r. Qed.
Lemma LB p q : L (p - q) = L p - L q. Proof. by rewrite -scaleN1r LD LZ mulN1r. Qed.
Lemma L_sum I (r : seq I) (f : I -> {poly F}) : L (\sum_(i <- r) f i) = \sum_(i <- r) L (f i).
Proof. by apply: (big_morph L LD L_0). Qed.

(** reduction of the top coefficient *)
Lemma top_red (q : {poly F}) k : (size q <= k.+1)%N -> (size (q - (q`_k / lcP k) *: P k)%R <= k)%N.
Proof.
move=> Hs. apply/leq_sizeP => j Hj. rewrite coefB coefZ. move: Hj; rewrite leq_eqVlt => /orP [/eqP <-|Hj].
- by rewrite lcPc divfK ?subrr // lcP0.
- have -> : q`_j = 0 by apply/nth_default/(leq_trans Hs).
  have -> : (P k)`_j = 0 by apply/nth_default; rewrite sizeP.
  by rewrite mulr0 subrr.
Qed.
Lemma orth_low (q : {poly F}) k m : (k <= m)%N -> (size q <= k)%N -> L (q * P m) = 0.
Proof.
elim: k q => [|k IH] q Hk Hs.
- move: Hs; rewrite leqn0 size_poly_eq0 => /eqP ->. by rewrite mul0r L_0.
- have := IH _ (ltnW Hk) (top_red Hs). rewrite mulrBl LB -scalerAl LZ jacobi_orth ?mulr0 ?subr0 //.
  by rewrite neq_ltn Hk.
Qed.
Lemma orth_top (q : {poly F}) m : (size q <= m.+1)%N -> L (q * P m) = q`_m / lcP m * (2%:R ^+ a.+1 / (m.*2 + a).+1%:R).
Proof.
move=> Hs. have := orth_low (leqnn m) (top_red Hs). rewrite mulrBl LB -scalerAl LZ jacobi_norm //.
by move/eqP; rewrite subr_eq0 => /eqP.
Qed.

(** *** derivative identity at a root *)
Lemma jc_shift n j : (j <= n)%N ->
  (jc (a%:R) 0 n.+1 j : F) * (n.+1 - j)%:R = jc (a%:R) 0 n j * (n.+1 + a + j)%:R.
Proof.
move=> Hj. rewrite /jc Hj leqW // /jacobi_coeff subSn // pochSr factS natrM.
have -> : n.+1%:R + a%:R + 0 + 1 = n%:R + a%:R + 0 + 1 + 1 :> F by rewrite mulrS; fring.
have E : poch (n%:R + a%:R + 0 + 1 + 1) j * (n%:R + a%:R + 0 + 1) = poch (n%:R + a%:R + 0 + 1 : F) j * (n.+1 + a + j)%:R.
{ rewrite mulrC -pochSl pochSr. congr (_ * _). rewrite !natrD mulrS. fring. }
have H1 := fact_neq0 F0 j. have H2 := fact_neq0 F0 (n - j). have H3 := nat_neq0 F0 (n - j).
have E2 : a%:R + j%:R + 1 + (n - j)%:R = n%:R + a%:R + 0 + 1 :> F by rewrite natrB //; fring.
rewrite E2.
move: (poch (a%:R + j%:R + 1) _) E H1 H2 H3 => p.
move: (n%:R + a%:R + 0 + 1) (poch (n%:R + a%:R + 0 + 1 + 1) j) (poch (n%:R + a%:R + 0 + 1) j) ((n.+1 + a + j)%:R : F) (j`!%:R : F) ((n - j)`!%:R : F) ((n-j).+1%:R : F) => w u v c x y z E H1 H2 H3.
have -> : p * w / (z * y) * (u / x) * z = (u * w) * (p / y / x) by ffield; repeat split; nz.
rewrite E. ffield. repeat split; nz.
Qed.
Lemma jc_down n j : (j < n)%N ->
  (jc (a%:R) 0 n j.+1 : F) * (j.+1 * (a + j.+1))%:R = jc (a%:R) 0 n j * ((n - j) * (n + a + j.+1))%:R.
Proof.
move=> Hj. rewrite /jc Hj (ltnW Hj) /jacobi_coeff. 
have -> : (n - j = (n - j.+1).+1)%N by rewrite subnS prednK // subn_gt0.
rewrite pochSr [in RHS]pochSl !factS !natrM.
have -> : a%:R + j.+1%:R + 1 = a%:R + j%:R + 1 + 1 :> F by rewrite mulrS; fring.
have H1 := fact_neq0 F0 j. have H2 := fact_neq0 F0 (n - j.+1). have H3 := nat_neq0 F0 (n - j.+1). have H4 := nat_neq0 F0 j.
have E1 : (a + j.+1)%:R = a%:R + j%:R + 1 :> F by rewrite natrD mulrS; fring.
have E2 : (n + a + j.+1)%:R = n%:R + a%:R + 0 + 1 + j%:R :> F by rewrite !natrD mulrS; fring.
rewrite E1 E2. move: (poch _ (n - j.+1)) (poch (_ + 1) j) => p q.
move: (a%:R + j%:R + 1) (n%:R + a%:R + 0 + 1 + j%:R) => u v.
move: (j`!%:R : F) ((n - j.+1)`!%:R : F) ((n-j.+1).+1%:R : F) (j.+1%:R : F) H1 H2 H3 H4 => x y z w *.
ffield. repeat split; nz.
Qed.

Lemma jcE n j : (jy (a%:R : F) 0 n)`_j = jc (a%:R) 0 n j. Proof. exact: jyE. Qed.
Lemma jc_big n j : (n < j)%N -> jc (a%:R : F) 0 n j = 0. Proof. by rewrite /jc; case: leqP. Qed.
Lemma jy_der n : let N := n.+1 in let c := jy (a%:R : F) 0 N in
  ((2%:R * N%:R + a%:R)%:P * (('X + 'X^2) * c^`()) : {poly F}) =
  (N%:R ^+ 2)%:P * c + (N%:R * (2%:R * N%:R + a%:R)) *: ('X * c) - (N%:R * (N%:R + a%:R)) *: jy (a%:R) 0 n.
Proof.
move=> N c. apply/polyP => j. rewrite [in LHS]coefCM [('X + _) * _]mulrDl [in LHS]coefD ['X^2]expr2 -['X * 'X * _]mulrA !coefXM [in RHS]coefB [in RHS]coefD coefCM !coefZ coefXM jcE.
have Cn k : c`_k = jc (a%:R) 0 N k by exact: jcE.
case: j => [|j].
- rewrite /= addr0 !mulr0 addr0 Cn. have := jc_shift (leq0n n). rewrite addn0 subn0 => E.
  rewrite expr2 -/N in E *. rewrite natrD in E. 
  have -> : N%:R * N%:R * jc a%:R 0 N 0 - N%:R * (N%:R + a%:R) * jc a%:R 0 n 0 = N%:R * (jc a%:R 0 N 0 * N%:R - jc a%:R 0 n 0 * (N%:R + a%:R)) :> F.
  { move: (N%:R : F) (a%:R : F) (jc a%:R 0 N 0) (jc a%:R 0 n 0) => x y u v. fring. }
  by rewrite E subrr mulr0.
- have -> : (if j.+1 == 0%N then 0 else c^`()`_j.+1.-1) = c`_j.+1 *+ j.+1 by rewrite /= coef_deriv.
  have -> : (if j.+1 == 0%N then 0 else if j.+1.-1 == 0%N then 0 else c^`()`_j.+1.-1.-1) = c`_j *+ j.
  { case: j => [|j] /=; first by rewrite mulr0n. by rewrite coef_deriv. }
  rewrite !Cn -(mulr_natr (jc a%:R 0 N j)) -(mulr_natr (jc a%:R 0 N j.+1)). rewrite (_ : (j.+1 == 0)%N = false) // expr2.
  have [HjN|HjN|HjN] := ltngtP j.+1 N.
  + (* j.+1 < N *)
    have E1 := @jc_shift n j.+1 HjN. have E2 := @jc_down N j (ltnW HjN).
    rewrite -/N in E1. move: E1 E2. rewrite natrB ?(ltnW HjN) // !natrM natrB ?(ltnW (ltnW HjN)) // !natrD.
    have D1 : N%:R + a%:R + j.+1%:R != 0 :> F by rewrite -!natrD; exact: F0.
    have D2 : N%:R - j%:R != 0 :> F by rewrite -natrB ?(ltnW (ltnW HjN)) //; apply: F0; rewrite subn_gt0 (ltn_trans _ HjN).
    move: (jc a%:R 0 N j) (jc a%:R 0 N j.+1) (jc a%:R 0 n j.+1) D1 D2 => c0 c1 d. rewrite [j.+1%:R]mulrS. 
    move: (N%:R : F) (a%:R : F) (j%:R : F) => x y z D1 D2 E1 E2.
    have Ed : d = c1 * (x - (1 + z)) / (x + y + (1 + z)) by rewrite E1 mulfK.
    have Ec : c0 = c1 * ((1 + z) * (y + (1 + z))) / ((x - z) * (x + y + (1 + z))) by rewrite E2 mulfK // mulf_neq0.
    rewrite Ed Ec. ffield. split; nz.
  + have HN2 : (N <= j)%N by []. rewrite (jc_big HjN) (@jc_big n) ?(ltn_trans _ HjN) // !mulr0 !mul0r ?mulr0 !add0r subr0.
    move: HN2; rewrite leq_eqVlt => /orP [/eqP ->|H].
    * move: (jc _ _ _ _) => u. move: (j%:R : F) (a%:R : F) => v w. fring.
    * by rewrite jc_big // mul0r !mulr0.
  + rewrite HjN (@jc_big n) // !mulr0 subr0. have Hj : (j < N)%N by rewrite -HjN. have := @jc_down N j Hj. 
    rewrite HjN -HjN subSn // subnn mul1n natrM !natrD HjN => E. 
    have D : N%:R + a%:R + N%:R != 0 :> F by rewrite -!natrD; exact: F0.
    move: (jc a%:R 0 N j) (jc a%:R 0 N N) E D => u v E D.
    have -> : u = v * (N%:R * (a%:R + N%:R)) / (N%:R + a%:R + N%:R) by rewrite E mulfK.
    move: D. have -> : N%:R = 1 + j%:R :> F by rewrite -HjN mulrS.
    move: (j%:R : F) (a%:R : F) => x y D. ffield. nz.
Qed.
(** (2N + a) (1 - x^2) P_N'(x) = 2 N (N + a) P_(N-1)(x) at a root of P_N *)
Lemma der_root n x : root (P n.+1) x ->
  (2%:R * n.+1%:R + a%:R) * (1 - x ^+ 2) * ((P n.+1)^`()).[x] = 2%:R * n.+1%:R * (n.+1%:R + a%:R) * (P n).[x].
Proof.
move/rootP. rewrite !jacobi_polyE deriv_comp hornerM !horner_comp => R.
have -> : (halfshift F)^`() = (2%:R^-1)%:P by rewrite /halfshift derivZ derivB derivX derivC subr0 alg_polyC.
have -> : (halfshift F).[x] = 2%:R^-1 * (x - 1) by rewrite /halfshift hornerZ hornerD hornerN hornerX hornerC.
have Hy : (halfshift F).[x] = 2%:R^-1 * (x - 1) by rewrite /halfshift hornerZ hornerD hornerN hornerX hornerC.
rewrite Hy in R. have := congr1 (fun p => p.[2%:R^-1 * (x - 1)]) (jy_der n).
rewrite /= !(hornerM, hornerD, hornerN, hornerZ, hornerX, hornerXn, hornerC) R !mulr0 add0r sub0r.
move: (horner (jy a%:R 0 n) _) (horner (_^`()) _) => u v.
have T := two_neq0 F0. move: (n.+1%:R : F) (a%:R : F) => N y E.
have -> : 2%:R * N * (N + y) * u = - 2%:R * (- (N * (N + y) * u)) by fring.
rewrite -E. move: T E => T _. rewrite !mulrS mulr0n in T *. ffield. nz.
Qed.

Lemma lcP_ratio n : lcP n.+1 / lcP n = (2%:R * n.+1%:R + a%:R - 1) * (2%:R * n.+1%:R + a%:R) / (2%:R * n.+1%:R * (n.+1%:R + a%:R)).
Proof.
have T := two_neq0 F0. rewrite !lcPE. case: n => [|k].
  - rewrite /= divr1. have H1 := nat_neq0 F0 a. move: T H1. rewrite !mulrS mulr0n. move: (a%:R : F) => y T H1. ffield. repeat split; nz.
  - have L0 := lcn0 F0 (@rega k.+1) (leqnn _). rewrite [lc _ _ k.+2]/= -/(lc (a%:R : F) 0 k.+1).
    move: (lc _ _ _) L0 => l L0. rewrite mulrC mulKf //. rewrite /jac_a1 /jac_a3.
    have H1 : (2 * k.+1 + a)%:R != 0 :> F by apply: F0. have H2 : (k.+2 + a)%:R != 0 :> F by apply: F0. have H3 : k.+2%:R != 0 :> F by exact: F0.
    move: T H1 H2 H3. rewrite !natrD natrM !mulrS mulr0n. move: (a%:R : F) (k%:R : F) => y z T H1 H2 H3. ffield. repeat split; nz.
Qed.
Lemma gauss_alg (K C X TA la D p : F) : K != 0 -> C != 0 -> TA != 0 ->
  K / C * TA = la * (D * p) -> K * X * D = C * p -> D != 0 /\ X != 0 /\ la = TA / X / D ^+ 2.
Proof.
move=> K0 C0 T0 E DR. have E' : K * TA = K * (la * (X * D ^+ 2)).
{ have -> : K * TA = C * (K / C * TA) by rewrite mulrA mulrCA mulfV // mulr1. rewrite E. transitivity (la * D * (C * p)); first fring. rewrite -DR. fring. }
move/(mulfI K0): E' => E'. have := T0. rewrite {1}E' !mulf_eq0 !negb_or => /and3P [la0 X0]. rewrite expr2 => D20.
have D0 : D != 0 by apply/eqP => D0; move: D20; rewrite D0 /= eqxx.
split=> //. split=> //. rewrite E'. rewrite expr2. by ffield; split; nz.
Qed.
(** *** Interpolatory rule at the roots *)
Section Rule.
Variables (n : nat) (xs : seq F).
Hypotheses (Sx : size xs = n.+1) (Ux : uniq xs) (Rx : all (root (P n.+1)) xs).
Definition Qx x := P n.+1 %/ ('X - x%:P).
Lemma Qx_mul x : x \in xs -> P n.+1 = Qx x * ('X - x%:P).
Proof. move=> Hx. rewrite /Qx divpK // dvdp_XsubCl. exact: (allP Rx). Qed.
Lemma Qx_size x : x \in xs -> size (Qx x) = n.+1.
Proof. move=> Hx. have := sizeP n.+1. rewrite {1}(Qx_mul Hx) size_Mmonic ?monicXsubC // ?size_XsubC ?addn2 /=; first by move=> [].
apply/eqP => E. have := P0n n.+1. by rewrite (Qx_mul Hx) E mul0r eqxx.
Qed.
Lemma Qx_lead x : x \in xs -> (Qx x)`_n = lcP n.+1.
Proof. move=> Hx. rewrite /lcP (Qx_mul Hx) lead_coef_Mmonic ?monicXsubC // lead_coefE Qx_size //. Qed.
Lemma Qx_at x : x \in xs -> (Qx x).[x] = ((P n.+1)^`()).[x].
Proof. move=> Hx. by rewrite [in RHS](Qx_mul Hx) derivM derivXsubC mulr1 hornerD hornerM hornerXsubC subrr mulr0 add0r. Qed.
Lemma Qx_off x z : x \in xs -> z \in xs -> z != x -> (Qx x).[z] = 0.
Proof.
move=> Hx Hz Hn. have /rootP := allP Rx _ Hz. rewrite (Qx_mul Hx) hornerM hornerXsubC => /eqP.
by rewrite mulf_eq0 subr_eq0 (negbTE Hn) orbF => /eqP.
Qed.
Lemma Qx_n0 x : x \in xs -> (Qx x).[x] != 0.
Proof.
move=> Hx. apply/eqP => E. have : (n.+1 < n.+1)%N; last by rewrite ltnn.
have Q0 : Qx x != 0 by rewrite -size_poly_eq0 Qx_size.
have := max_poly_roots Q0 (rs := xs). rewrite Sx Qx_size //. apply=> //.
apply/allP => z Hz. apply/rootP. case: (z =P x) => [->|/eqP H] //. exact: Qx_off.
Qed.
Lemma interp (r : {poly F}) : (size r <= n.+1)%N -> r = \sum_(x <- xs) (r.[x] / (Qx x).[x]) *: Qx x.
Proof.
move=> Hr. apply/eqP; rewrite -subr_eq0. set d := _ - _. 
have Sd : (size d <= n.+1)%N.
{ apply: (leq_trans (size_add _ _)). rewrite geq_max Hr size_opp /= big_seq.
  elim/big_rec: _ => [|x p Hx Hp]; first by rewrite size_poly0.
  apply: (leq_trans (size_add _ _)). rewrite geq_max Hp andbT. apply: (leq_trans (size_scale_leq _ _)). by rewrite Qx_size. }
apply: contraTT (Sd) => D0. rewrite -ltnNge -Sx. apply: max_poly_roots => //.
apply/allP => z Hz. apply/rootP. rewrite /d hornerD hornerN horner_sum (big_rem z) //= hornerZ divfK ?Qx_n0 // big_seq big1 ?addr0 ?subrr //.
move=> x Hx. have Q : (Qx x).[z] = 0; last by rewrite hornerZ Q mulr0.
apply: Qx_off => //; first exact: mem_rem Hx.
apply/eqP => E. move: Hx; rewrite -E mem_rem_uniq // inE eqxx. by [].
Qed.
Definition lam x := L (Qx x) / (Qx x).[x].
Lemma rule_exact (p : {poly F}) : (size p <= n.+1.*2)%N -> L p = \sum_(x <- xs) lam x * p.[x].
Proof.
move=> Hp. set q := p %/ P n.+1. set r := p %% P n.+1.
have Hd : p = q * P n.+1 + r by exact: divp_eq.
have Sr : (size r <= n.+1)%N by rewrite -ltnS -(sizeP n.+1) ltn_modp P0n.
have Sq : (size q <= n.+1)%N.
{ rewrite /q size_divp ?P0n // sizeP /= leq_subLR. by rewrite addnn. }
have Hv x : x \in xs -> p.[x] = r.[x].
{ move=> Hx. have /rootP R := allP Rx _ Hx. by rewrite Hd hornerD hornerM R mulr0 add0r. }
rewrite [in LHS]Hd LD (orth_low (leqnn _) Sq) add0r {1}(interp Sr) L_sum.
rewrite [in RHS]big_seq [in LHS]big_seq; apply: eq_bigr => x Hx. rewrite LZ Hv // /lam.
by rewrite mulrC mulrA mulrAC.
Qed.
(** FIAT's weight formula *)
Lemma lam_formula x : x \in xs ->
  ((P n.+1)^`()).[x] != 0 /\ 1 - x ^+ 2 != 0 /\
  lam x = 2%:R ^+ a.+1 / (1 - x ^+ 2) / ((P n.+1)^`()).[x] ^+ 2.
Proof.
move=> Hx. have E1 : L (Qx x * P n) = lam x * ((Qx x).[x] * (P n).[x]).
{ rewrite rule_exact.
  - rewrite (big_rem x) //= hornerM big_seq big1 ?addr0 // => z Hz.
    rewrite hornerM Qx_off ?mul0r ?mulr0 //; first exact: mem_rem Hz.
    apply/eqP => E. move: Hz; rewrite E mem_rem_uniq // inE eqxx. by [].
  - apply: (leq_trans (size_mul_leq _ _)). by rewrite Qx_size // sizeP addSn /= addnS -addnn addSn addnS ltnS leqnSn. }
have Hs : (size (Qx x) <= n.+1)%N by rewrite Qx_size.
rewrite (orth_top Hs) Qx_lead // Qx_at // in E1.
have [D] : exists D, (P n.+1)^`().[x] = D by eexists. move=> ED. rewrite !ED in E1 *.
have DR := der_root (allP Rx _ Hx). rewrite ED in DR.
have T := two_neq0 F0. have TA : 2%:R ^+ a.+1 != 0 :> F by exact: expf_neq0.
have Hl := lcP_ratio n.
have H1 : (2 * n + a).+1%:R != 0 :> F by apply: F0.
have H2 : (n.+1 + a)%:R != 0 :> F by apply: F0. have H3 : n.+1%:R != 0 :> F by exact: F0.
have H4 : (2 * n.+1 + a)%:R != 0 :> F by apply: F0.
have M2 : (2 * n + a).+1%:R = 2%:R * n.+1%:R + a%:R - 1 :> F.
{ have -> : (2 * n + a).+1 = (2 * n.+1 + a - 1)%N by lia. by rewrite natrB ?natrD ?natrM //; lia. }
rewrite Hl -mul2n M2 in E1. rewrite M2 in H1. rewrite natrD natrM in H4. rewrite natrD in H2.
apply: (@gauss_alg (2%:R * n.+1%:R + a%:R) (2%:R * n.+1%:R * (n.+1%:R + a%:R)) _ _ _ _ ((P n).[x])) => //.
- by rewrite !mulf_neq0.
- rewrite -E1. have C0 : 2%:R * n.+1%:R * (n.+1%:R + a%:R) != 0 :> F by rewrite !mulf_neq0.
  move: (2%:R * n.+1%:R * (n.+1%:R + a%:R)) (2%:R * n.+1%:R + a%:R) (2%:R ^+ a.+1) H1 H4 C0 => c k t H1 H4 C0. ffield. repeat split; nz.
Qed.
End Rule.
End G.
