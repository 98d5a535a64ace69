(** The monic recurrence of [rec_jacobi] generates the Jacobi polynomials. *)
Set Warnings "-notation-overridden,-ambiguous-paths".
From mathcomp Require Import all_ssreflect all_algebra.
From Verif Require Base.
From Verif Require Import FieldTac ModelJacobi SpecJacobi ProofsJacobi ModelOrthopoly.
Set Implicit Arguments. Unset Strict Implicit. Unset Printing Implicit Defensive.
Import GRing.Theory.
Local Open Scope ring_scope.

Section M.
Variable F : fieldType.
Hypothesis F0 : char_zero F.
Add Field FF : (mc_field_theory F).
Variables a b : F.

Definition ralpha k : F := if k is 0%N then (b - a) / (a + b + 2%:R)
  else (b ^+ 2 - a ^+ 2) / ((2%:R * k%:R + a + b) * ((2%:R * k%:R + a + b) + 2%:R)).
Definition rbeta mu k : F := match k with 0%N => mu
  | 1%N => 4%:R * (a + 1) * (b + 1) / ((a + b + 2%:R) ^+ 2 * (a + b + 3%:R))
  | k => 4%:R * (k%:R + a) * (k%:R + b) * k%:R * (k%:R + a + b)
        / ((2%:R * k%:R + a + b) ^+ 2 * ((2%:R * k%:R + a + b) + 1) * ((2%:R * k%:R + a + b) - 1)) end.

Lemma rec_jacobiE mu N : (2 <= N)%N -> exists al be,
  [/\ rec_jacobi mu N a b = RArrays al be, size al = N, size be = N,
    (forall k, (k < N)%N -> nth 0 al k = ralpha k) & (forall k, (k < N)%N -> nth 0 be k = rbeta mu k)].
Proof.
case: N => [|[|N]] // _. rewrite /rec_jacobi subn1 [N.+2.-1]/=.
set al := (_ / _ :: map _ _). set be := (mu :: _ :: map _ _). exists al, be. split=> //.
- by rewrite /al /= !size_map size_iota.
- by rewrite /be /= size_map size_zip !size_map size_iota minnn.
- move=> [|[|k]] // Hk. rewrite /al /=. rewrite -!map_comp (nth_map 0%N) ?size_iota // nth_iota //=.
- move=> [|[|k]] // Hk. rewrite /be /=.
  rewrite (nth_map (0, 0)) ?size_zip ?size_map ?size_iota ?minnn //.
  rewrite nth_zip ?size_map //= -map_comp !(nth_map 0%N) ?size_iota // nth_iota //=.
Qed.

Fixpoint mon (al be : nat -> F) (k : nat) : {poly F} * {poly F} :=
  if k is k'.+1 then let: (p, q) := mon al be k' in (q, ('X - (al k)%:P) * q - be k *: p)
  else (1, 'X - (al 0%N)%:P).
Definition monic_p al be k := (mon al be k).1.
Lemma monE al be k : mon al be k = (monic_p al be k, monic_p al be k.+1).
Proof. by rewrite /monic_p /=; case: (mon al be k). Qed.
Lemma mon_rec al be k : monic_p al be k.+2 = ('X - (al k.+1)%:P) * monic_p al be k.+1 - be k.+1 *: monic_p al be k.
Proof. by rewrite {1}/monic_p /= monE. Qed.
Lemma mon_monic al be k : monic_p al be k \is monic /\ size (monic_p al be k) = k.+1.
Proof.
elim: {k}k.+1 {-2}k (ltnSn k) => [|n IH] [|[|k]] //; rewrite ltnS => Hk.
- by rewrite /monic_p /= monic1 size_poly1.
- by rewrite /monic_p /= monicXsubC size_XsubC.
- rewrite mon_rec. have [M1 S1] := IH k.+1 Hk. have [_ S0] := IH k (ltnW Hk).
  have Hs : size (('X - (al k.+1)%:P) * monic_p al be k.+1) = k.+3.
  { by rewrite size_monicM ?monicXsubC ?monic_neq0 // size_XsubC S1. }
  have Hlt : (size (- (be k.+1 *: monic_p al be k)) < size (('X - (al k.+1)%:P) * monic_p al be k.+1)%R)%N.
  { rewrite Hs size_opp. apply: (leq_ltn_trans (size_scale_leq _ _)). by rewrite S0. }
  split; last by rewrite size_addl.
  rewrite monicE lead_coefDl // lead_coef_Mmonic // lead_coefXsubC. by [].
Qed.

Fixpoint lc (k : nat) : F := match k with 0%N => 1 | 1%N => (a + b + 2%:R) / 2%:R
  | k'.+1 => lc k' * (jac_a3 a b k / jac_a1 a b k) end.

Lemma reg k N : jacobi_regular a b N -> (2 <= k <= N.*2)%N -> k%:R + a + b != 0. Proof. by apply. Qed.
Lemma a3n0 N k : jacobi_regular a b N -> (2 <= k <= N)%N -> jac_a3 a b k != 0.
Proof.
move=> R /andP [H2 Hk]. case: k H2 Hk => [|[|k]] // _ Hk. rewrite /jac_a3.
have E m : (2 <= m <= k.+2.*2)%N -> m%:R + a + b != 0.
{ move=> /andP [A B]. apply: (reg R). rewrite A (leq_trans B) // leq_double. exact: Hk. }
have := E (k.+2.*2) _; have := E (k.+2.*2.-1) _; have := E (k.+2.*2.-2) _.
rewrite !doubleS /= !ltnS leqnn !leqW // => /(_ isT) A /(_ isT) B /(_ isT) C.
move: A B C. rewrite -mul2n !mulrS natrM !mulrS mulr0n. move: (k%:R : F) => x A B C. rewrite !mulf_neq0 //; nz.
Qed.
Lemma lcn0 N k : jacobi_regular a b N -> (k <= N)%N -> lc k != 0.
Proof.
move=> R. case: N R => [|N] R; first by rewrite leqn0 => /eqP ->; exact: oner_neq0.
elim: k => [|[|k] IH] Hk; first exact: oner_neq0.
- rewrite /= mulf_neq0 // ?invr_eq0; last exact: (two_neq0 F0).
  have := reg R (k := 2). rewrite doubleS /= => /(_ isT). by rewrite -addrA addrC.
- rewrite /= -/(lc k.+1) mulf_neq0 //; first exact/IH/ltnW.
  have A3 : jac_a3 a b k.+2 != 0 by apply: (a3n0 R); rewrite /= Hk.
  have A1 : jac_a1 a b k.+2 != 0 by exact: (jac_a1_neq0 F0 R).
  by rewrite mulf_neq0 // invr_eq0.
Qed.

Lemma comb (P0 P1 P2 : {poly F}) (X : {poly F}) (a1 a2 a3 a4 l0 l1 l2 al be : F) :
  a1 != 0 -> a1 *: P2 = (a2 *: 1 + a3 *: X) * (l1 *: P1) - a4 *: (l0 *: P0) ->
  l2 = l1 * (a3 / a1) -> a2 * l1 = - (l1 * a3 * al) -> a4 * l0 = l1 * a3 * be ->
  P2 = l2 *: ((X - al%:P) * P1 - be *: P0).
Proof.
move=> H1 E E2 Ea Eb. apply: (scalerI H1). rewrite E E2 !scalerA [a1 * _]mulrC -mulrA divfK // scalerBr scalerA -Eb.
congr (_ - _). rewrite -scalerAr mulrDl scalerDr mulrBl scalerBr -scalerAl mul1r scalerA mul_polyC scalerA.
by rewrite [l1 * a2]mulrC Ea scaleNr addrC -scalerAl scalerA.
Qed.

Lemma jacobi_monic mu N k : jacobi_regular a b N -> (k <= N)%N ->
  jacobi_poly a b k = lc k *: monic_p ralpha (rbeta mu) k.
Proof.
move=> R. elim: {k}k.+1 {-2}k (ltnSn k) => [|n IH] [|[|k]] //; rewrite ltnS => Hk HN.
- by rewrite jacobi_poly0 /monic_p /= scale1r.
- have Rk : 2%:R + a + b != 0 by apply: (reg R); rewrite /= (leq_trans _ (_ : 1.*2 <= _)%N) // leq_double.
  have T := two_neq0 F0.
  rewrite /monic_p /= scalerBr -[_ *: _%:P]mul_polyC -polyCM. 
  have -> : jacobi_poly a b 1 = (2%:R^-1 * (a - b)) *: 1 + (2%:R^-1 * (a + b + 2%:R)) *: 'X.
  { rewrite /jacobi_poly !big_ord_recl big_ord0 addr0 /jacobi_coeff /= /bump /= expr0 expr1.
    rewrite !pochSr !poch0 !factS !fact0 !mulr0n.
    apply/polyP => i. rewrite !(coefD, coefZ, coefN, coefX, coef1).
    have H := T. move: H. rewrite !mulrS mulr0n => H.
    move: ((i == 0%N)%:R : F) ((i == 1%N)%:R : F) => u w.
    ffield. repeat split; nz. }
  rewrite addrC alg_polyC -polyCN. congr (_ *: _ + _%:P).
  + by rewrite mulrC.
  + move: Rk T. rewrite !mulrS mulr0n => Rk T. ffield. repeat split; nz.
- rewrite mon_rec. have A1 : jac_a1 a b k.+2 != 0 by exact: (jac_a1_neq0 F0 R).
  apply: (comb (l1 := lc k.+1) (l0 := lc k) A1 (a2 := jac_a2 a b k.+2) (a3 := jac_a3 a b k.+2) (a4 := jac_a4 a b k.+2)).
  + rewrite (jacobi_recur F0). congr (_ * _ - _ *: _).
    * exact: IH Hk (ltnW HN).
    * apply: IH (ltnW Hk) _. exact: ltnW (ltnW HN).
  + by [].
  + have A3 : jac_a3 a b k.+2 != 0 by exact: (a3n0 R).
    rewrite /jac_a3 in A3. rewrite /jac_a2 /jac_a3 /ralpha. move: A3.
    rewrite !mulf_eq0 !negb_or => /andP [/andP [X1 X2] X3]. move: X1 X2 X3.
    move: (lc k.+1) => l. rewrite !mulrS mulr0n. move: (k%:R : F) => x X1 X2 X3. ffield. nz.
  + have A3 : jac_a3 a b k.+2 != 0 by exact: (a3n0 R).
    case: k Hk HN A1 A3 => [|k] Hk HN A1 A3.
    * rewrite /jac_a3 in A3. rewrite /= /jac_a4 /jac_a3 /rbeta. move: A3.
      rewrite !mulf_eq0 !negb_or => /andP [/andP [X1 X2] X3]. move: X1 X2 X3.
      have T := two_neq0 F0. move: T. rewrite !mulrS mulr0n => T X1 X2 X3. ffield. nz.
    * have B3 : jac_a3 a b k.+2 != 0 by apply: (a3n0 R); rewrite /= (ltnW HN).
      have B1 : jac_a1 a b k.+2 != 0 by apply: (jac_a1_neq0 F0 R); rewrite /= (ltnW HN).
      rewrite [lc k.+2]/= -/(lc k.+1). move: (lc k.+1) => l.
      move: A1 A3 B1 B3. rewrite /jac_a1 /jac_a3 /jac_a4 /rbeta.
      rewrite !mulf_eq0 !negb_or => /andP [/andP [/andP [T0 Y1] Y2] Y3].
      move=> /andP [/andP [X1 X2] X3] /andP [/andP [/andP [_ W1] W2] W3] /andP [/andP [V1 V2] V3].
      move: T0 X1 X2 X3 Y1 Y2 Y3 V1 V2 V3 W1 W2 W3.
      rewrite !mulrS mulr0n. move: (k%:R : F) => x *. ffield. repeat split; nz.
Qed.
End M.
