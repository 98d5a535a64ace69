(** C22: Jacobi polynomials (jacobi.py). *)
Set Warnings "-notation-overridden,-ambiguous-paths".
From mathcomp Require Import all_ssreflect all_algebra.
From Verif Require Import FieldTac ModelJacobi SpecJacobi ProofsJacobi ProofsOrtho.
Set Implicit Arguments. Unset Strict Implicit. Unset Printing Implicit Defensive.
Import Order.TTheory GRing.Theory Num.Theory.
Local Open Scope ring_scope.

(** [eval_jacobi a b n] evaluates one polynomial of degree at most [n], the
    Jacobi polynomial given by the classical explicit sum, at every point. *)
Theorem C22_eval_is_jacobi_polynomial :
  forall (F : fieldType) (a b : F) n, char_zero F -> jacobi_regular a b n ->
    (size (jacobi_poly a b n) <= n.+1)%N /\
    forall x, eval_jacobi a b n x = (jacobi_poly a b n).[x].
Proof. move=> F a b n F0 H; split=> [|x]; [exact: size_jacobi|exact: eval_jacobi_ok]. Qed.

Lemma regular_shift (F : fieldType) (a b : F) n : jacobi_regular a b n.+1 -> jacobi_regular (a + 1) (b + 1) n.
Proof.
move=> H m /andP [H2 Hm]. have := H m.+2. rewrite !mulrS /= => H'.
have -> : m%:R + (a + 1) + (b + 1) = 1 + (1 + m%:R) + a + b.
{ rewrite -!addrA [1 + (1 + _)]addrA [1 + 1 + _]addrC -!addrA. congr (_ + (_ + _)). by rewrite addrCA [1 + (b + 1)]addrCA. }
apply: H'. by rewrite doubleS !ltnS Hm.
Qed.

(** [eval_jacobi_deriv] is the derivative of exactly that polynomial. *)
Theorem C22_deriv_is_derivative :
  forall (F : fieldType) (a b : F) n, char_zero F -> jacobi_regular a b n ->
    exists p : {poly F}, forall x, eval_jacobi a b n x = p.[x] /\ eval_jacobi_deriv a b n x = p^`().[x].
Proof.
move=> F a b n F0 H. exists (jacobi_poly a b n) => x. split; first exact: eval_jacobi_ok.
case: n H => [|n] H /=; first by rewrite jacobi_poly0 derivC hornerC.
rewrite jacobi_deriv // hornerZ eval_jacobi_ok //; last exact: regular_shift.
by rewrite [a + b + _]addrC !addrA.
Qed.

(** Row [k], column [i] of the batch tables is the scalar value at point [i]. *)
Theorem C22_batch_rows :
  forall (F : fieldType) (a b : F) n (xs : seq F), char_zero F -> jacobi_regular a b n ->
    forall k i, (k <= n)%N -> (i < size xs)%N ->
      eval_jacobi_batch a b n xs k i = eval_jacobi a b k (nth 0 xs i).
Proof.
move=> F a b n xs F0 H k i Hk Hi. exact: batch_ok.
Qed.

Lemma scale_rows (F : fieldType) (f : nat -> F) (A : arr2 F) (s : seq nat) j i : uniq s ->
  foldl (fun (A : arr2 F) j => set_row A j (fun i => A j i * f j)) A s j i = if j \in s then A j i * f j else A j i.
Proof.
elim: s A => [|k s IH] A //= /andP [Hk Hu]. rewrite IH // /set_row in_cons.
case: eqP => [->|_] //=. by rewrite (negbTE Hk).
Qed.

Theorem C22_deriv_batch_rows :
  forall (F : fieldType) (a b : F) n (xs : seq F), char_zero F -> jacobi_regular a b n ->
    forall k i, (k <= n)%N -> (i < size xs)%N ->
      eval_jacobi_deriv_batch a b n xs k i = eval_jacobi_deriv a b k (nth 0 xs i).
Proof.
move=> F a b [|n] xs F0 H k i Hk Hi; first by move: Hk; rewrite leqn0 => /eqP ->.
rewrite /eval_jacobi_deriv_batch scale_rows ?iota_uniq // mem_iota.
case: k Hk => [|k] Hk /=; first by [].
rewrite add1n ltnS Hk (C22_batch_rows F0 (regular_shift H)) // mulrC. by [].
Qed.

(** The Legendre case: the polynomials evaluated by [eval_jacobi 0 0] are
    orthogonal on [-1,1], have squared norm 2/(2n+1) and value 1 at 1. *)
Lemma regular00 (F : fieldType) n : char_zero F -> jacobi_regular (0 : F) 0 n.
Proof. move=> F0 m /andP [H _]. rewrite !addr0. apply: F0. exact: ltnW. Qed.
Theorem C22_legendre :
  forall F : fieldType, char_zero F ->
    exists L : nat -> {poly F},
      (forall n x, eval_jacobi 0 0 n x = (L n).[x]) /\
      (forall n, size (L n) = n.+1) /\
      (forall n m, n != m -> integral (-1) 1 (L n * L m) = 0) /\
      (forall n, integral (-1) 1 (L n * L n) = 2%:R / (2%:R * n%:R + 1)) /\
      (forall n, eval_jacobi (0 : F) 0 n 1 = 1).
Proof.
move=> F F0. exists (jacobi_poly 0 0).
have W p : integral (-1) 1 p = jweight 0 p by rewrite /jweight expr0 mul1r.
have O n m : n != m -> integral (-1) 1 (jacobi_poly (0 : F) 0 n * jacobi_poly 0 0 m) = 0.
{ by move=> H; rewrite W; exact: (@jacobi_orth F F0 0 n m). }
have N n : integral (-1) 1 (jacobi_poly (0 : F) 0 n * jacobi_poly 0 0 n) = 2%:R / (2%:R * n%:R + 1).
{ rewrite W. apply: (etrans (jacobi_norm F0 0 n)). rewrite expr1 addn0 -mul2n -(addn1 (2 * n)) natrD natrM. by []. }
split; first by move=> n x; apply: eval_jacobi_ok => //; exact: regular00.
split; last split; last split.
- elim/ltn_ind => n IH. apply/eqP; rewrite eqn_leq (size_jacobi F0) /= ltnNge. apply/negP => Hs.
  (* otherwise it would be a combination of lower ones *)
  have S k (p : {poly F}) : (k <= n)%N -> (size p <= k)%N -> integral (-1) 1 (p * jacobi_poly 0 0 n) = 0.
  { elim: k p => [|k IHk] p Hk Hp.
    - move: Hp; rewrite leqn0 size_poly_eq0 => /eqP ->. by rewrite mul0r integral0.
    - have Hk1 := IH k Hk. set c := p`_k / lead_coef (jacobi_poly (0:F) 0 k).
      have -> : p = (p - c *: jacobi_poly 0 0 k) + c *: jacobi_poly 0 0 k by rewrite subrK.
      rewrite mulrDl integralD -scalerAl integralZ (O k n) ?mulr0 ?addr0; last by rewrite ltn_eqF.
      apply: IHk; first exact: ltnW. apply/leq_sizeP => j Hj. rewrite coefB coefZ.
      move: Hj; rewrite leq_eqVlt => /orP [/eqP <-|Hj].
      + have Hl : (jacobi_poly (0:F) 0 k)`_k = lead_coef (jacobi_poly 0 0 k) by rewrite lead_coefE Hk1.
        rewrite /c Hl mulfVK ?subrr // lead_coef_eq0 -size_poly_eq0 Hk1. by [].
      + rewrite !nth_default ?mulr0 ?subrr // ?Hk1 //. exact: leq_trans Hj. }
  have := S n _ (leqnn n) Hs. rewrite N => /eqP. apply/negP.
  rewrite mulf_neq0 ?invr_eq0 //; first exact: F0.
  rewrite -natrM -[1]/(1%:R) -natrD addn1. exact: F0.
- move=> n m Hnm. exact: O.
- exact: N.
- move=> n. rewrite eval_jacobi_ok //; last exact: regular00. rewrite jacobi_at1 // add0r poch1 divff //. exact: fact_neq0.
Qed.

(** Every pair of parameters with [a + b > -2] (in particular everything a
    Gauss-Jacobi rule or an expansion uses) is regular, over any ordered field;
    so the theorems above are not vacuous. *)
Theorem C22_regular_witness :
  forall (R : realFieldType) (a b : R) n, - 2%:R < a + b -> char_zero R /\ jacobi_regular a b n.
Proof.
move=> R a b n H. split=> [m Hm|m /andP [Hm _]]; first by rewrite pnatr_eq0 -lt0n.
rewrite -addrA gt_eqF // -(opprK m%:R) addrC subr_gt0. apply: le_lt_trans H. by rewrite ler_opp2 ler_nat.
Qed.
(** The regularity condition is needed: for a + b = -2 the second step divides by zero. *)
Theorem C22_regular_needed :
  exists a b : rat, jac_a1 a b 2 = 0 /\ exists x : rat, eval_jacobi a b 2 x != (jacobi_poly a b 2).[x].
Proof.
exists (-1), (-1). split; first by rewrite /jac_a1 -!natrM /=; apply/eqP.
exists 0. rewrite /jacobi_poly !big_ord_recl big_ord0 /jacobi_coeff /= /bump /= !pochSr !poch0 !factS !fact0.
by rewrite !(hornerD, hornerZ, horner_exp, hornerN, hornerX, hornerC).
Qed.
