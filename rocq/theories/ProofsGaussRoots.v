(** Roots of the Jacobi polynomials P_n^(a,0): Christoffel-Darboux, existence
    of n distinct roots, reality, and positivity of the Gauss weights. *)
Set Warnings "-notation-overridden,-ambiguous-paths".
From mathcomp Require Import all_ssreflect all_algebra all_field zify.
From Verif Require Import FieldTac ModelJacobi SpecJacobi ProofsJacobi ProofsOrtho ProofsOrthopoly ProofsGauss.
Set Implicit Arguments. Unset Strict Implicit. Unset Printing Implicit Defensive.
Import GRing.Theory Num.Theory.
Local Open Scope ring_scope.

Section CD.
Variable F : fieldType.
Hypothesis F0 : char_zero F.
Add Field FFr : (mc_field_theory F).
Variable a : nat.
Notation P n := (jacobi_poly (a%:R : F) 0 n).
Notation L := (@jweight F a).
Definition hn (n : nat) : F := L (P n * P n).
Lemma hnE n : hn n = 2%:R ^+ a.+1 / (n.*2 + a).+1%:R. Proof. exact: jacobi_norm. Qed.
Lemma hn_neq0 n : hn n != 0.
Proof. rewrite hnE mulf_neq0 ?expf_neq0 ?(two_neq0 F0) // invr_eq0. exact: F0. Qed.
Lemma hn_rec n : jde F a n.+1 * (jga F a n * hn n) = hn n.+1 * (jga F a n.+1 * jal F a n).
Proof.
rewrite /hn (@favard_norm F (jweight a) (jacobi_poly a%:R 0) (jal F a) (jbe F a) (jga F a) (jde F a)).
- have := jga_neq0 F0 a n.+1. have := jal_neq0 F0 a n. move: (jga F a n.+1) (jga F a n) (jde F a n.+1) (jal F a n) (L _) => g1 g d al h A0 G0.
  ffield. repeat split; nz.
- exact: jweightD. - exact: jweightZ. - exact: jrec. - exact: jal_neq0. - exact: jga_neq0.
- exact: jacobi_poly0. - exact: jweight_jacobi.
Qed.
Lemma jde_neq0 n : jde F a n.+1 != 0.
Proof.
apply/eqP => E. have := hn_rec n. rewrite E mul0r => H.
have : hn n.+1 * (jga F a n.+1 * jal F a n) != 0 by apply: mulf_neq0; [exact: hn_neq0|apply: mulf_neq0; [exact: jga_neq0|exact: jal_neq0]].
by rewrite -H eqxx.
Qed.
Lemma rec_at n x : jal F a n * (P n.+1).[x] = (jbe F a n + jga F a n * x) * (P n).[x] - jde F a n * (if n is n'.+1 then (P n').[x] else 0).
Proof.
have := congr1 (fun p => p.[x]) (jrec F0 a n). rewrite /= !(hornerZ, hornerD, hornerN, hornerM, hornerX, hornerC) mulr1.
case: n => [|n] //. by rewrite horner0.
Qed.
(** consecutive polynomials have no common root *)
Lemma no_common n x : root (P n.+1) x -> (P n).[x] != 0.
Proof.
elim: n => [|n IH] /rootP R; first by rewrite jacobi_poly0 hornerC oner_neq0.
apply/negP => /eqP E. have := rec_at n.+1 x. rewrite R E !mulr0 sub0r => /esym/eqP. rewrite oppr_eq0 mulf_eq0 (negbTE (jde_neq0 n)) /=.
apply/negP. apply: IH. exact/rootP.
Qed.
Lemma simple_root n x : root (P n.+1) x -> ((P n.+1)^`()).[x] != 0.
Proof.
move=> R. apply/negP => /eqP E. have := der_root F0 R. rewrite E mulr0 => /esym/eqP. rewrite !mulf_eq0 (negbTE (no_common R)) (negbTE (two_neq0 F0)) -natrD.
have -> : (n.+1%:R == 0 :> F) = false by apply/negbTE/F0. have -> : ((n.+1 + a)%:R == 0 :> F) = false by apply/negbTE/F0. by [].
Qed.
(** Christoffel-Darboux *)
Lemma christoffel n (x y : F) :
  (x - y) * (\sum_(k < n.+1) (P k).[x] * (P k).[y] / hn k) =
  jal F a n / (jga F a n * hn n) * ((P n.+1).[x] * (P n).[y] - (P n).[x] * (P n.+1).[y]).
Proof.
elim: n => [|n IH].
- rewrite big_ord_recl big_ord0 addr0 jacobi_poly0 !hornerC. have := rec_at 0 x. have := rec_at 0 y. rewrite jacobi_poly0 !hornerC !mulr0 !subr0 !mulr1 => Ey Ex.
  have G0 := jga_neq0 F0 a 0. have H0 := hn_neq0 0. move: (hn 0) H0 => h H0.
  move: (jal F a 0) (jbe F a 0) (jga F a 0) ((P 1).[x]) ((P 1).[y]) G0 Ex Ey => al be g px py G0 Ex Ey.
  transitivity ((al * px - al * py) / (g * h)); last by (ffield; repeat split; nz).
  rewrite Ex Ey. ffield. repeat split; nz.
- have -> : \sum_(k < n.+2) (P k).[x] * (P k).[y] / hn k = \sum_(k < n.+1) (P k).[x] * (P k).[y] / hn k + (P n.+1).[x] * (P n.+1).[y] / hn n.+1 by rewrite big_ord_recr.
  rewrite mulrDr IH. have := rec_at n.+1 x. have := rec_at n.+1 y. have H := hn_rec n.
  have G1 := jga_neq0 F0 a n.+1. have G0 := jga_neq0 F0 a n. have H0 := hn_neq0 n. have H1 := hn_neq0 n.+1.
  move: (jal F a n) (jal F a n.+1) (jbe F a n.+1) (jga F a n) (jga F a n.+1) (jde F a n.+1) (hn n) (hn n.+1) G0 G1 H0 H1 H => al al1 be g g1 de h h1 G0 G1 H0 H1 H.
  move: ((P n).[x]) ((P n.+1).[x]) ((P n.+2).[x]) ((P n).[y]) ((P n.+1).[y]) ((P n.+2).[y]) => p0 p1 p2 q0 q1 q2 Ey Ex.
  have -> : al / (g * h) = de / (g1 * h1). { have -> : de = h1 * (g1 * al) / (g * h) by rewrite -H mulfK // mulf_neq0. ffield. repeat split; nz. }
  transitivity ((al1 * p2 * q1 - p1 * (al1 * q2)) / (g1 * h1)); last by (ffield; repeat split; nz).
  rewrite Ex Ey. ffield. repeat split; nz.
Qed.
(** the weight at a root is the reciprocal of the Christoffel kernel *)
Section Kernel.
Variables (n : nat) (x : F).
Definition kern : {poly F} := \sum_(k < n.+1) ((P k).[x] / hn k) *: P k.
Lemma kern_at : kern.[x] = \sum_(k < n.+1) (P k).[x] * (P k).[x] / hn k.
Proof. rewrite /kern horner_sum. apply: eq_bigr => k _. by rewrite hornerZ mulrAC. Qed.
Lemma kern_P j : (j <= n)%N -> L (P j * kern) = (P j).[x].
Proof.
move=> Hj. rewrite /kern mulr_sumr L_sum. rewrite (bigD1 (Ordinal (Hj : (j < n.+1)%N))) //= -scalerAr LZ -/(hn j) divfK ?hn_neq0 // big1 ?addr0 // => k Hk.
rewrite -scalerAr LZ jacobi_orth ?mulr0 // eq_sym. exact: Hk.
Qed.
Lemma kern_rep (q : {poly F}) k : (k <= n.+1)%N -> (size q <= k)%N -> L (q * kern) = q.[x].
Proof.
elim: k q => [|k IH] q Hk Hs; first by move: Hs; rewrite leqn0 size_poly_eq0 => /eqP ->; rewrite mul0r L_0 horner0.
have := IH _ (ltnW Hk) (top_red F0 a Hs). rewrite mulrBl LB -scalerAl LZ kern_P // hornerD hornerN hornerZ. exact: addIr.
Qed.
Lemma size_kern : (size kern <= n.+1)%N.
Proof.
apply: (leq_trans (size_sum _ _ _)). apply/bigmax_leqP => k _. apply: (leq_trans (size_scale_leq _ _)). by rewrite (sizeP F0).
Qed.
End Kernel.
Lemma lam_kern n (xs : seq F) x : size xs = n.+1 -> uniq xs -> all (root (P n.+1)) xs -> x \in xs ->
  lam a n x * (\sum_(k < n.+1) (P k).[x] * (P k).[x] / hn k) = 1.
Proof.
move=> Sx Ux Rx Hx. have S1 := Qx_size F0 Rx Hx. have N0 := Qx_n0 F0 Sx Ux Rx Hx.
have := kern_rep x (leqnn n.+1) (_ : (size (Qx a n x) <= n.+1)%N). rewrite S1 => /(_ (leqnn _)).
rewrite (rule_exact F0 Sx Ux Rx); last first.
{ apply: (leq_trans (size_mul_leq _ _)). rewrite S1. have := size_kern n x. move: (size _) => s. lia. }
rewrite (big_rem x) //= hornerM big_seq big1 ?addr0.
- rewrite kern_at mulrCA -[RHS]mulr1 => /(mulfI N0). by [].
- move=> z Hz. rewrite hornerM (@Qx_off F a n xs Rx x z) ?mul0r ?mulr0 //; first exact: mem_rem Hz.
  apply/eqP => E. move: Hz; rewrite E mem_rem_uniq // inE eqxx. by [].
Qed.
End CD.
