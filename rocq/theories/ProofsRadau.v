(** Gauss-Radau-Legendre rule: nodes are the roots of P_N + P_(N+1). *)
Set Warnings "-notation-overridden,-ambiguous-paths".
From mathcomp Require Import all_ssreflect all_algebra zify.
From Verif Require Base.
From Verif Require Import FieldTac RingTac ModelJacobi SpecJacobi ProofsJacobi ProofsOrtho ProofsOrthopoly ProofsGauss ProofsGaussRoots ProofsGaussReal ModelQuad ModelGauss SpecGauss.
Set Implicit Arguments. Unset Strict Implicit. Unset Printing Implicit Defensive.
Import Order.TTheory GRing.Theory Num.Theory.
Local Open Scope ring_scope.

(** interpolatory rules *)
Section Interp.
Variable F : fieldType.
Variable L : {poly F} -> F.
Hypothesis LL : linear_form L.
Variables (n : nat) (xs : seq F) (Q : {poly F}).
Hypotheses (Sx : size xs = n.+1) (Ux : uniq xs) (SQ : size Q = n.+2) (Rx : all (root Q) xs).
Definition Qd x := Q %/ ('X - x%:P).
Lemma Q0 : Q != 0. Proof. by rewrite -size_poly_eq0 SQ. Qed.
Lemma Qd_mul x : x \in xs -> Q = Qd x * ('X - x%:P).
Proof. move=> Hx. rewrite /Qd divpK // dvdp_XsubCl. exact: (allP Rx). Qed.
Lemma Qd_size x : x \in xs -> size (Qd x) = n.+1.
Proof.
move=> Hx. have := SQ. rewrite {1}(Qd_mul Hx) size_Mmonic ?monicXsubC // ?size_XsubC ?addn2 /=; first by move=> [].
apply/eqP => E. have := Q0. by rewrite (Qd_mul Hx) E mul0r eqxx.
Qed.
Lemma Qd_at x : x \in xs -> (Qd x).[x] = (Q^`()).[x].
Proof. move=> Hx. by rewrite [in RHS](Qd_mul Hx) derivM derivXsubC mulr1 hornerD hornerM hornerXsubC subrr mulr0 add0r. Qed.
Lemma Qd_off x z : x \in xs -> z \in xs -> z != x -> (Qd x).[z] = 0.
Proof.
move=> Hx Hz Hn. have /rootP := allP Rx _ Hz. rewrite (Qd_mul Hx) hornerM hornerXsubC => /eqP.
by rewrite mulf_eq0 subr_eq0 (negbTE Hn) orbF => /eqP.
Qed.
Lemma Qd_n0 x : x \in xs -> (Qd x).[x] != 0.
Proof.
move=> Hx. apply/eqP => E. have : (n.+1 < n.+1)%N; last by rewrite ltnn.
have Q0 : Qd x != 0 by rewrite -size_poly_eq0 Qd_size.
have := max_poly_roots Q0 (rs := xs). rewrite Sx Qd_size //. apply=> //.
apply/allP => z Hz. apply/rootP. case: (z =P x) => [->|/eqP H] //. exact: Qd_off.
Qed.
Lemma interp (r : {poly F}) : (size r <= n.+1)%N -> r = \sum_(x <- xs) (r.[x] / (Qd x).[x]) *: Qd x.
Proof.
move=> Hr. apply/eqP; rewrite -subr_eq0. set d := _ - _. 
have Sd : (size d <= n.+1)%N.
{ apply: (leq_trans (size_add _ _)). rewrite geq_max Hr size_opp /= big_seq.
  elim/big_rec: _ => [|x p Hx Hp]; first by rewrite size_poly0.
  apply: (leq_trans (size_add _ _)). rewrite geq_max Hp andbT. apply: (leq_trans (size_scale_leq _ _)). by rewrite Qd_size. }
apply: contraTT (Sd) => D0. rewrite -ltnNge -Sx. apply: max_poly_roots => //.
apply/allP => z Hz. apply/rootP. rewrite /d hornerD hornerN horner_sum (big_rem z) //= hornerZ divfK ?Qd_n0 // big_seq big1 ?addr0 ?subrr //.
move=> x Hx. have Qz : (Qd x).[z] = 0; last by rewrite hornerZ Qz mulr0.
apply: Qd_off => //; first exact: mem_rem Hx.
apply/eqP => E. move: Hx; rewrite -E mem_rem_uniq // inE eqxx. by [].
Qed.
Lemma interp_exact d (p : {poly F}) : (forall q : {poly F}, (size q <= d)%N -> L (q * Q) = 0) -> (size p <= n.+1 + d)%N ->
  L p = \sum_(x <- xs) L (Qd x) / (Qd x).[x] * p.[x].
Proof.
move=> HO Hp. case: (LL) => LD LZ. set q := p %/ Q. set r := p %% Q.
have Hd : p = q * Q + r by exact: divp_eq.
have Sr : (size r <= n.+1)%N by rewrite -ltnS -SQ ltn_modp Q0.
have Sq : (size q <= d)%N by rewrite /q size_divp ?Q0 // SQ /= leq_subLR.
have Hv x : x \in xs -> p.[x] = r.[x].
{ move=> Hx. have /rootP R := allP Rx _ Hx. by rewrite Hd hornerD hornerM R mulr0 add0r. }
have Ls I (s : seq I) (f : I -> {poly F}) : L (\sum_(i <- s) f i) = \sum_(i <- s) L (f i).
{ elim: s => [|i s IH]; last by rewrite !big_cons LD IH. rewrite !big_nil. by rewrite -(scale0r 0) LZ mul0r. }
rewrite [in LHS]Hd LD (HO _ Sq) add0r {1}(interp Sr) Ls.
rewrite [in RHS]big_seq [in LHS]big_seq; apply: eq_bigr => x Hx. rewrite LZ Hv //.
by rewrite mulrC mulrA mulrAC.
Qed.
End Interp.

Section Legendre.
Variable F : fieldType.
Hypothesis F0 : char_zero F.
Add Field FFrd : (mc_field_theory F).
Add Ring RRrd : (mc_ring_theory (poly_comRingType F)).
Notation P n := (jacobi_poly (0 : F) 0 n).
Notation L := (integral (-1) (1 : F)).
Lemma jwL (p : {poly F}) : jweight 0 p = L p. Proof. by rewrite /jweight expr0 mul1r. Qed.
Lemma legrecp n : n.+2%:R *: P n.+2 = (2 * n + 3)%:R *: ('X * P n.+1) - n.+1%:R *: P n.
Proof.
have := jacobi_recur F0 0 0 n. rewrite /jac_a1 /jac_a2 /jac_a3 /jac_a4.
have N1 : n.+1%:R != 0 :> F by exact: F0. have N2 : n.+2%:R != 0 :> F by exact: F0. have T := two_neq0 F0.
have -> : n.+2%:R = n.+1%:R + 1 :> F by rewrite -addn1 natrD.
have -> : (2 * n + 3)%:R = 2%:R * n.+1%:R + 1 :> F by rewrite -natrM -[1]/(1%:R) -natrD; congr (_%:R); lia.
have N2' : n.+1%:R + 1 != 0 :> F by rewrite -[1]/(1%:R) -natrD addn1.
rewrite -[2%:R]/(1 + 1 : F) in T *. move: (n.+1%:R : F) (P n.+2) (P n.+1) (P n) N1 N2' => N p2 p1 p0 N1 N2' H.
have K : (1 + 1) * ((1 + 1) * ((N + 1) * N)) != 0 by rewrite !mulf_neq0.
apply: (scalerI K). rewrite scalerBr !scalerA. move: H.
set a1 := (X in X *: p2 = _). set a2 := (X in (X *: 1 + _) * _). set a3 := (X in (_ + X *: 'X) * _). set a4 := (X in _ = _ - X *: p0 -> _).
have -> : a1 = (1 + 1) * ((1 + 1) * ((N + 1) * N)) * (N + 1) by rewrite /a1; fring.
have -> : a2 = 0 by rewrite /a2; fring.
have -> : a3 = (1 + 1) * ((1 + 1) * ((N + 1) * N)) * ((1 + 1) * N + 1) by rewrite /a3; fring.
have -> : a4 = (1 + 1) * ((1 + 1) * ((N + 1) * N)) * N by rewrite /a4; fring.
move=> ->. by rewrite scale0r add0r scalerAl.
Qed.
Lemma legrec n x : n.+2%:R * (P n.+2).[x] = (2 * n + 3)%:R * x * (P n.+1).[x] - n.+1%:R * (P n).[x].
Proof.
have := congr1 (fun p => p.[x]) (legrecp n).
by rewrite /= !(hornerZ, hornerD, hornerN, hornerM, hornerX, hornerC) mulrA.
Qed.
Lemma leg0 x : (P 0).[x] = 1. Proof. by rewrite jacobi_poly0 hornerC. Qed.
Lemma leg1 : P 1 = 'X.
Proof. have := jacobi1_poly F0 0. rewrite mul0r scale0r !add0r divff ?(two_neq0 F0) // scale1r. by []. Qed.


Lemma polyC_natr n : (n%:R)%:P = n%:R :> {poly F}. Proof. exact: rmorph_nat. Qed.
Lemma natp_neq0 n : n.+1%:R != 0 :> {poly F}.
Proof. rewrite -polyC_natr polyC_eq0. exact: F0. Qed.
Lemma legrecr n : (n.+1%:R + 1) * P n.+2 = ((1 + 1) * n.+1%:R + 1) * 'X * P n.+1 - n.+1%:R * P n.
Proof.
have := legrecp n. rewrite -!mul_polyC !polyC_natr mulrA => E.
have -> : n.+1%:R + 1 = n.+2%:R :> {poly F} by rewrite -[n.+2]addn1 natrD.
rewrite E. congr (_ * _ * _ - _). rewrite -[1]/(1%:R) -natrD -natrM -natrD; congr (_%:R). lia.
Qed.
Lemma legder n : (1 - 'X * 'X) * (P n)^`() = n.+1%:R * ('X * P n - P n.+1) /\
  (1 - 'X * 'X) * (P n.+1)^`() = n.+1%:R * (P n - 'X * P n.+1).
Proof.
elim: n => [|n [A B]].
- rewrite leg1 jacobi_poly0 derivC derivX -[1%:R]/(1 : {poly F}). split; cring.
- have R := legrecr n. have N2 := natp_neq0 n.+1.
  have := congr1 (fun p => p^`()) (legrecp n). rewrite /= derivZ derivB !derivZ derivM derivX mul1r -!mul_polyC !polyC_natr.
  have -> : (2 * n + 3)%:R = (1 + 1) * n.+1%:R + 1 :> {poly F} by rewrite -[1]/(1%:R) -natrD -natrM -natrD; congr (_%:R); lia.
  have E2 : n.+2%:R = n.+1%:R + 1 :> {poly F} by rewrite -[n.+2]addn1 natrD.
  rewrite E2 in N2 *.
  move: (n.+1%:R : {poly F}) (P n.+2) (P n.+1) (P n) ((P n)^`()) ((P n.+1)^`()) ((P n.+2)^`()) ('X : {poly F}) N2 A B R.
  move=> N p2 p1 p0 d0 d1 d2 x N2 A B R D.
  split.
  + rewrite B. transitivity ((N + 1) * x * p1 - (N + 1) * p2); last by cring. rewrite R. cring.
  + apply: (mulfI N2). transitivity ((1 - x * x) * ((N + 1) * d2)); first by cring. rewrite D.
    transitivity ((1 - x * x) * ((1 + 1) * N + 1) * p1 + ((1 + 1) * N + 1) * x * ((1 - x * x) * d1) - N * ((1 - x * x) * d0)); first by cring.
    rewrite A B. transitivity ((N + 1) * (N + 1) * p1 - (N + 1) * x * ((N + 1) * p2)); last by cring. rewrite R. cring.
Qed.
Lemma leg_p n x : (P n).[- x] = (-1) ^+ n * (P n).[x].
Proof.
elim/ltn_ind: n => -[|[|n]] IH; first by rewrite !leg0 expr0 mulr1.
- by rewrite leg1 !hornerX expr1 mulN1r.
- have N2 : n.+2%:R != 0 :> F by exact: F0. apply: (mulfI N2). rewrite legrec IH // (IH n) //.
  rewrite [RHS]mulrCA legrec !exprS. move: ((-1) ^+ n : F) (n.+1%:R : F) ((2 * n + 3)%:R : F) ((P n.+1).[x]) ((P n).[x]) => e a b p1 p0. fring.
Qed.
Lemma leg_1 n : (P n).[1] = 1.
Proof. rewrite jacobi_at1 // add0r poch1 divff //. exact: fact_neq0. Qed.
Lemma leg_m1 n : (P n).[-1] = (-1) ^+ n.
Proof. by rewrite leg_p leg_1 mulr1. Qed.
Lemma leg_table x n : legendre_table x n = ((P n).[x], (P n.+1).[x]).
Proof.
elim: n => [|n IH]; first by rewrite /= leg0 leg1 hornerX.
rewrite [legendre_table _ _]/= IH. congr (_, _). have N2 : n.+2%:R != 0 :> F by exact: F0.
apply: (mulfI N2). rewrite legrec mulrC divfK //. have -> : (2 * n.+2 - 1 = 2 * n + 3)%N by lia. by rewrite subSS subn0.
Qed.
(** Q = P_N + P_(N+1) *)
Definition radQ n : {poly F} := P n + P n.+1.
Lemma size_radQ n : size (radQ n) = n.+2.
Proof. rewrite /radQ addrC size_addl ?(@sizeP F F0 0) //. Qed.
Lemma radQ_orth n (q : {poly F}) : (size q <= n)%N -> L (q * radQ n) = 0.
Proof.
move=> Sq. rewrite -jwL mulrDr jweightD. rewrite (@orth_low F F0 0 q n n) // (@orth_low F F0 0 q n n.+1) ?addr0 //.
Qed.
Lemma radQ_der n x : (1 - x) * ((radQ n)^`()).[x] = n.+1%:R * ((P n).[x] - (P n.+1).[x]).
Proof.
have [A B] := legder n.
have D : (1 - 'X) * (radQ n)^`() = n.+1%:R * (P n - P n.+1).
{ have X1 : 1 + 'X != 0 :> {poly F} by rewrite -size_poly_eq0 addrC size_addl ?size_polyX ?size_poly1.
  apply: (mulfI X1). rewrite /radQ derivD.
  move: (n.+1%:R : {poly F}) (P n.+1) (P n) ((P n)^`()) ((P n.+1)^`()) ('X : {poly F}) A B => N p1 p0 d0 d1 X A B.
  transitivity ((1 - X * X) * d0 + (1 - X * X) * d1); first by cring. rewrite A B. cring. }
have := congr1 (fun p => p.[x]) D. rewrite /= !hornerM !hornerD !hornerN hornerX hornerC.
by rewrite -polyC_natr hornerC.
Qed.
Lemma radQ_no_common n y : root (radQ n) y -> (P n).[y] != 0.
Proof.
move=> /rootP. rewrite hornerD => E. apply/eqP => Z. rewrite Z add0r in E.
have := @no_common F F0 0 n y. rewrite -[0%:R]/(0 : F). move/rootP: E => E /(_ E). by rewrite Z eqxx.
Qed.
Lemma radQ_chr n y x : root (radQ n) y ->
  (x - y) * (\sum_(k < n.+1) (P k).[x] * (P k).[y] / hn F 0 k) = n.+1%:R / 2%:R * (P n).[y] * (radQ n).[x].
Proof.
move=> /rootP E. have := @christoffel F F0 0 n x y. rewrite -[0%:R]/(0 : F) => ->.
have C : jal F 0 n / (jga F 0 n * hn F 0 n) = n.+1%:R / 2%:R.
{ rewrite (hnE F0) expr1 addn0. case: n {E} => [|n]; rewrite /jal /jga /=.
  - rewrite -[0%:R]/(0 : F) -[1%:R]/(1 : F) add0r divff ?(two_neq0 F0) // mul1r divr1. by rewrite !mul1r.
  - rewrite /jac_a1 /jac_a3 -[0%:R]/(0 : F) !addr0.
    have -> : (n.*2).+3%:R = 2%:R * n.+2%:R - 1 :> F by rewrite -natrM -[X in _ - X]/(1%:R) -natrB; [congr (_%:R)|]; lia.
    have -> : 2%:R * n.+2%:R - 2%:R = 2%:R * n.+1%:R :> F by rewrite -!natrM -natrB; [congr (_%:R)|]; lia.
    have N1 : n.+1%:R != 0 :> F by exact: F0. have N2 : n.+2%:R != 0 :> F by exact: F0. have T := two_neq0 F0.
    have N3 : 2%:R * n.+2%:R - 1 != 0 :> F by rewrite -natrM -[X in _ - X]/(1%:R) -natrB; [apply: F0|]; lia.
    move: (2%:R * n.+2%:R - 1 : F) (2%:R : F) (n.+1%:R : F) (n.+2%:R : F) N1 N2 N3 T => d t u v N1 N2 N3 T. ffield. repeat split; nz. }
rewrite C. have {}E : (P n.+1).[y] = - (P n).[y] by move: E; rewrite hornerD addrC => /eqP; rewrite addr_eq0 => /eqP.
rewrite E hornerD. move: (_ / _) ((P n).[x]) ((P n.+1).[x]) ((P n).[y]) => c u v w. fring.
Qed.
Lemma poly_ext (p q : {poly F}) : (forall x, p.[x] = q.[x]) -> p = q.
Proof.
move=> E. apply/eqP. rewrite -subr_eq0. apply/negP => /negP D0.
pose rs := [seq (k%:R : F) | k <- iota 0 (size (p - q))].
have inj k l : (k < l)%N -> (k%:R != l%:R :> F).
{ move=> H. rewrite eq_sym -subr_eq0 -natrB ?(ltnW H) //. apply: F0. by rewrite subn_gt0. }
have U : uniq rs.
{ rewrite map_inj_uniq ?iota_uniq // => k l /eqP H. apply/eqP. apply: contraTT H. rewrite neq_ltn => /orP [] /inj //. by rewrite eq_sym. }
have R : all (root (p - q)) rs by apply/allP => x _; apply/rootP; rewrite hornerD hornerN E subrr.
have := max_poly_roots D0 R U. by rewrite size_map size_iota ltnn.
Qed.
Definition lgr_nodes n (xs : seq F) : Prop := [/\ size xs = n, uniq (-1 :: xs) & all (root (radQ n)) xs].
Lemma radQ_m1 n : root (radQ n) (-1).
Proof. apply/rootP. by rewrite hornerD !leg_m1 exprS mulN1r subrr. Qed.
Lemma rad_kern0 n xs y : size xs = n.+1 -> uniq xs -> all (root (radQ n)) xs -> y \in xs ->
  kern 0 n y = (n.+1%:R / 2%:R * (P n).[y]) *: Qd (radQ n) y.
Proof.
move=> Sx Ux Rx Hy. have Ry := allP Rx _ Hy.
have X0 : 'X - y%:P != 0 by rewrite polyXsubC_eq0. apply: (mulIf X0). rewrite -scalerAl -(Qd_mul Rx Hy).
  apply: poly_ext => x. rewrite hornerM hornerXsubC hornerZ -radQ_chr // mulrC. congr (_ * _).
  rewrite /kern horner_sum. apply: eq_bigr => k _. by rewrite hornerZ mulrC mulrA.
Qed.
Lemma rad_kern n xs y : size xs = n.+1 -> uniq xs -> all (root (radQ n)) xs -> y \in xs ->
  exists2 c, c != 0 & kern 0 n y = c *: Qd (radQ n) y.
Proof.
move=> Sx Ux Rx Hy. have Ry := allP Rx _ Hy. have T := two_neq0 F0. have N1 : n.+1%:R != 0 :> F by exact: F0.
have Pn := radQ_no_common Ry. exists (n.+1%:R / 2%:R * (P n).[y]); last exact: (rad_kern0 Sx Ux Rx Hy).
by rewrite !mulf_neq0 ?invr_eq0.
Qed.
(** a polynomial of degree 2N+1 the rule misses *)
Lemma rad_miss n xs : lgr_nodes n xs -> exists q : {poly F}, [/\ (size q <= n.+1.*2)%N, forall x, x \in -1 :: xs -> q.[x] = 0 & L q != 0].
Proof.
move=> [Sx Ux Rx]. have Sx' : size (-1 :: xs) = n.+1 by rewrite /= Sx.
have Rx' : all (root (radQ n)) (-1 :: xs) by rewrite /= radQ_m1.
have S1 := Qd_size (size_radQ n) Rx' (mem_head _ _).
exists (Qd (radQ n) (-1) * radQ n). split.
- apply: (leq_trans (size_mul_leq _ _)). rewrite S1 size_radQ. lia.
- move=> x Hx. have /rootP := allP Rx' _ Hx. by rewrite hornerM => ->; rewrite mulr0.
- rewrite -jwL mulrDr jweightD (@orth_low F F0 0 _ n.+1 n.+1) ?S1 // addr0.
  rewrite (@orth_top F F0 0) ?S1 //. have Q1 : Qd (radQ n) (-1) != 0 by rewrite -size_poly_eq0 S1.
  apply: mulf_neq0; apply: mulf_neq0; rewrite ?invr_eq0.
  + have : lead_coef (Qd (radQ n) (-1)) != 0 by rewrite lead_coef_eq0. by rewrite lead_coefE S1.
  + exact: lcP0.
  + by rewrite expf_neq0 // (two_neq0 F0).
  + exact: F0.
Qed.
(** the weight of the interpolatory rule at a root *)
Lemma rad_weight n xs y : size xs = n.+1 -> uniq xs -> all (root (radQ n)) xs -> y \in xs ->
  L (Qd (radQ n) y) / (Qd (radQ n) y).[y] = (1 - y) / (n.+1%:R * (P n).[y]) ^+ 2.
Proof.
move=> Sx Ux Rx Hy. have Ry := allP Rx _ Hy. have T := two_neq0 F0. have N1 : n.+1%:R != 0 :> F by exact: F0.
have Pn := radQ_no_common Ry. set c := n.+1%:R / 2%:R * (P n).[y]. have c0 : c != 0 by rewrite /c !mulf_neq0 ?invr_eq0.
have K := rad_kern0 Sx Ux Rx Hy. rewrite -/c in K.
have L1 : c * L (Qd (radQ n) y) = 1.
{ have := @kern_rep F F0 0 n y 1 1 (ltn0Sn n). rewrite size_poly1 => /(_ (leqnn _)). by rewrite mul1r K jwL integralZ hornerC. }
have D := radQ_der n y. rewrite -(Qd_at Rx Hy) in D.
have E : (P n.+1).[y] = - (P n).[y] by move/rootP: Ry; rewrite hornerD addrC => /eqP; rewrite addr_eq0 => /eqP.
have Q0 := Qd_n0 Sx Ux (size_radQ n) Rx Hy.
have E2 : (P n).[y] + (P n).[y] = 2%:R * (P n).[y] by rewrite mulr_natl mulr2n.
rewrite E opprK E2 in D. move: D L1. rewrite /c.
move: ((Qd (radQ n) y).[y]) (L _) (n.+1%:R : F) ((P n).[y]) (2%:R : F) (1 - y) Q0 N1 Pn T => q l N p t u Q0 N1 Pn T D L1.
have -> : l = t / (N * p). { apply: (mulfI (_ : N / t * p != 0)); first by rewrite !mulf_neq0 ?invr_eq0. rewrite L1. ffield. repeat split; nz. }
have -> : u = N * (t * p) / q by rewrite -D mulfK. ffield. repeat split; nz.
Qed.
Lemma rad_ref n xs : lgr_nodes n xs ->
  precision L (-1 :: xs) (2%:R / n.+1%:R ^+ 2 :: [seq (1 - y) / (n.+1%:R * (legendre_table y n).1) ^+ 2 | y <- xs]) (2 * n).
Proof.
move=> [Sx Ux Rx] q Sq.
have Sx' : size (-1 :: xs) = n.+1 by rewrite /= Sx.
have Rx' : all (root (radQ n)) (-1 :: xs) by rewrite /= radQ_m1.
have LL : linear_form L by split=> [p r|c p]; [exact: integralD|exact: integralZ].
rewrite (interp_exact LL Sx' Ux (size_radQ n) Rx' (@radQ_orth n)); last by apply: (leq_trans Sq); clear; lia.
rewrite /= !big_cons (rad_weight Sx' Ux Rx' (mem_head _ _)) leg_m1 opprK. congr (_ + _).
- congr (_ * _). rewrite exprMn -exprM mulnC exprM sqrrN !expr1n mulr1. by [].
- have -> : zip xs [seq (1 - y) / (n.+1%:R * (legendre_table y n).1) ^+ 2 | y <- xs] = [seq (y, (1 - y) / (n.+1%:R * (legendre_table y n).1) ^+ 2) | y <- xs] by elim: (xs) => //= x s ->.
  rewrite big_map [LHS]big_seq [RHS]big_seq. apply: eq_bigr => y Hy /=.
  by rewrite (rad_weight Sx' Ux Rx') ?inE ?Hy ?orbT // leg_table.
Qed.
(** reflection *)
Lemma integral_opp (q : {poly F}) : L (q \Po (- 'X)) = L q.
Proof.
have E : q \Po (- 'X) = - ((antideriv q \Po (- 'X))^`()).
{ by rewrite deriv_comp (deriv_antideriv F0) derivN derivX mulrN mulr1 opprK. }
rewrite E integralN (integral_deriv F0) !horner_comp !hornerN !hornerX opprK opprB. by [].
Qed.
Lemma precision_flip xs ws d : size ws = size xs -> precision L xs ws d -> precision L (rev [seq - y | y <- xs]) (rev ws) d.
Proof.
move=> S Pr q Sq. rewrite -rev_zip ?size_map // (perm_big (zip [seq - y | y <- xs] ws)) /=; last by rewrite perm_rev.
rewrite -integral_opp -Pr; last first.
{ apply: leq_trans Sq. rewrite -scaleN1r. have [->|c0] := eqVneq q 0; first by rewrite comp_poly0.
  rewrite -[q \Po _]scale1r. have N0 : -1 != 0 :> F by rewrite oppr_eq0 oner_neq0.
  rewrite scale1r size_comp_poly2 //. by rewrite size_scale // size_polyX. }
have -> : zip [seq - y | y <- xs] ws = [seq (- p.1, p.2) | p <- zip xs ws].
{ move: ws S {Pr}. elim: xs => [|x xs IH] [|w ws] //= [/IH ->]. by []. }
rewrite big_map. apply: eq_bigr => p _ /=. by rewrite horner_comp hornerN hornerX.
Qed.
(** P_n - P_(n+1) is a multiple of (1-x) P_n^(1,0) *)
Lemma diff_root n x : root (jacobi_poly (1%:R : F) 0 n) x -> root (P n - P n.+1) x.
Proof.
set J := jacobi_poly _ _ _. move=> Rx. set D := P n - P n.+1.
have R1 : root D 1 by apply/rootP; rewrite /D hornerD hornerN !leg_1 subrr.
have [G EG] := factor_theorem _ _ R1. 
have SD : size D = n.+2 by rewrite /D addrC size_addl size_opp ?(@sizeP F F0 0).
have D0 : D != 0 by rewrite -size_poly_eq0 SD.
have G0 : G != 0 by apply: contraNneq D0 => Z; rewrite EG Z mul0r.
have SG : size G = n.+1 by have := SD; rewrite EG size_Mmonic ?monicXsubC // size_XsubC addn2 => -[].
have GO (q : {poly F}) : (size q <= n)%N -> jweight 1 (q * G) = 0.
{ move=> Sq. rewrite /jweight expr1.
  have -> : (1 - 'X) * (q * G) = - (q * D) by rewrite EG polyC1; move: ('X : {poly F}) => X; cring.
  rewrite integralN /D mulrBr integralB -!jwL (@orth_low F F0 0 q n n) // (@orth_low F F0 0 q n n.+1) //. by rewrite subrr oppr0. }
pose H := G - (G`_n / @lcP F 1 n) *: J.
have SH : (size H <= n)%N by apply: (top_red F0 1); rewrite SG.
have HO (q : {poly F}) : (size q <= n)%N -> jweight 1 (q * H) = 0.
{ move=> Sq. rewrite /H mulrBr ProofsGauss.LB GO // -scalerAr jweightZ // (@orth_low F F0 1 q n n) // mulr0 subr0. by []. }
have H0 : H = 0.
{ apply/eqP. rewrite -size_poly_eq0 -leqn0 leqNgt. apply/negP => Hp. 
  case Es : (size H) Hp SH => [|k] // _ Hk.
  have := HO _ (_ : (size (jacobi_poly (1%:R : F) 0 k) <= n)%N). rewrite (@sizeP F F0 1) mulrC => /(_ Hk).
  have Hl : H`_k != 0 by have : lead_coef H != 0; [rewrite lead_coef_eq0 -size_poly_eq0 Es|rewrite lead_coefE Es].
  have T2 : 2%:R ^+ 2 != 0 :> F by rewrite expf_neq0 // (two_neq0 F0).
  have K2 : (k.*2 + 1).+1%:R != 0 :> F by exact: F0.
  rewrite (orth_top F0 1) ?Es // => /eqP. apply/negP. apply: mulf_neq0; apply: mulf_neq0; rewrite ?invr_eq0 //. exact: lcP0. }
have {}EG : D = (G`_n / @lcP F 1 n) *: J * ('X - 1%:P) by rewrite EG; congr (_ * _); apply/eqP; rewrite -subr_eq0 -/H H0.
rewrite EG rootM rootZ ?Rx //. by rewrite mulf_neq0 ?invr_eq0 ?(lcP0 F0) // -[n]/(n.+1.-1) -SG -lead_coefE lead_coef_eq0.
Qed.
Lemma sum_root n x : root (jacobi_poly (1%:R : F) 0 n) x -> root (radQ n) (- x).
Proof.
move/diff_root => /rootP. rewrite hornerD hornerN => E. apply/rootP. rewrite hornerD !leg_p exprS mulN1r mulNr -mulrBr E mulr0. by [].
Qed.
End Legendre.
Section Ord.
Variable F : rcfType.
Let F0 : char_zero F := @num_char0 F.
Lemma lgr_exist n : exists xs : seq F, lgr_nodes n xs.
Proof.
have [xs [Sx Ux Rx]] := real_roots F 1 n. exists [seq - x | x <- xs]. split.
- by rewrite size_map.
- rewrite /= map_inj_uniq ?Ux ?andbT; last exact: oppr_inj. apply/mapP => -[x Hx] /oppr_inj E.
  case: n Sx Rx => [|n] Sx Rx; first by case: xs Sx Hx {Ux Rx} => //.
  have [] := root_loc Sx Ux Rx Hx. by rewrite -E ltxx andbF.
- apply/allP => y /mapP [x Hx ->]. apply: (sum_root F0). exact: (allP Rx).
Qed.
Lemma rad_pos n xs y : size xs = n.+1 -> uniq xs -> all (root (radQ F n)) xs -> y \in xs ->
  0 < (1 - y) / (n.+1%:R * (legendre_table y n).1) ^+ 2.
Proof.
move=> Sx Ux Rx Hy. have Ry := allP Rx _ Hy. rewrite (leg_table F0) /= -(rad_weight F0 Sx Ux Rx Hy).
have N1 : n.+1%:R != 0 :> F by exact: F0. have T := two_neq0 F0.
have Pn := radQ_no_common F0 Ry. have [c c0 K] := rad_kern F0 Sx Ux Rx Hy.
have L1 : c * integral (-1) 1 (Qd (radQ F n) y) = 1.
{ have := @kern_rep F F0 0 n y 1 1 (ltn0Sn n). rewrite size_poly1 => /(_ (leqnn _)). by rewrite mul1r K jwL integralZ hornerC. }
have KP := @kern_pos F 0 n y. rewrite -kern_at K hornerZ in KP.
have Q0 := Qd_n0 Sx Ux (size_radQ F0 n) Rx Hy.
have -> : integral (-1) 1 (Qd (radQ F n) y) / (Qd (radQ F n) y).[y] = (c * (Qd (radQ F n) y).[y])^-1.
{ apply: (mulfI c0). rewrite mulrA L1 invfM mulrA divff // mul1r. }
by rewrite invr_gt0.
Qed.
End Ord.
