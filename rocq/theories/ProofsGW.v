(** The Golub-Welsch argument: the eigenvectors of the symmetric tridiagonal
    matrix of a three-term recurrence give its Gauss rule. *)
Set Warnings "-notation-overridden,-ambiguous-paths".
From mathcomp Require Import all_ssreflect all_algebra.
From Verif Require Base.
From Verif Require Import FieldTac ModelOrthopoly ProofsOrthopoly.
Set Implicit Arguments. Unset Strict Implicit. Unset Printing Implicit Defensive.
Import Order.TTheory GRing.Theory Num.Theory.
Local Open Scope ring_scope.

(** symmetric tridiagonal matrix: diagonal [al], off-diagonal [r 1, r 2, ...] *)
Definition tridiag (F : fieldType) n (al r : nat -> F) : 'M[F]_n :=
  \matrix_(i, j) (if i == j :> nat then al i else if j == i.+1 :> nat then r j
                  else if i == j.+1 :> nat then r i else 0).

Section GW.
Variable F : fieldType.
Add Field FFg : (mc_field_theory F).
Variables (al be r : nat -> F).
Hypothesis rr : forall i, (0 < i)%N -> r i * r i = be i.
Notation mp k := (monic_p al be k).
Fixpoint sprod k : F := if k is k'.+1 then sprod k' * r k else 1.


Lemma col_pi n (v : nat -> F) x :
  (forall i, (i < n)%N -> (if i is i'.+1 then r i * v i' else 0) + al i * v i + (if (i.+1 < n)%N then r i.+1 * v i.+1 else 0) = x * v i) ->
  forall k, (k <= n)%N -> (if (k < n)%N then sprod k * v k else 0) = if n is 0%N then 0 else (mp k).[x] * v 0%N.
Proof.
move=> H. case: n H => [|n] H; first by case.
elim/ltn_ind=> -[|[|k]] IH Hk.
- by rewrite /monic_p /= hornerC.
- rewrite /monic_p /= hornerD hornerN hornerX hornerC mul1r. have := H 0%N isT. rewrite add0r.
  case: ifP => _ E.
  + have -> : (x - al 0%N) * v 0%N = x * v 0%N - al 0%N * v 0%N by rewrite mulrBl.
    by rewrite -E addrC addKr.
  + by rewrite mulrBl -E addr0 subrr.
- have := IH k.+1 (leqnn _) (ltnW Hk). have := IH k (ltnW (leqnn _)) (ltnW (ltnW Hk)).
  rewrite (ltnW Hk) Hk. have := H k.+1 Hk. rewrite mon_rec !(hornerD, hornerM, hornerN, hornerX, hornerC, hornerZ).
  rewrite -rr // [sprod k.+2]/= [sprod k.+1]/= => E E0 E1.
  have -> : ((x - al k.+1) * (mp k.+1).[x] - r k.+1 * r k.+1 * (mp k).[x]) * v 0%N
     = sprod k * r k.+1 * (x * v k.+1 - al k.+1 * v k.+1 - r k.+1 * v k).
  { have -> : ((x - al k.+1) * (mp k.+1).[x] - r k.+1 * r k.+1 * (mp k).[x]) * v 0%N =
      (x - al k.+1) * ((mp k.+1).[x] * v 0%N) - r k.+1 * r k.+1 * ((mp k).[x] * v 0%N) by move: (horner _ _) (horner _ _) => ? ?; fring.
    rewrite -E0 -E1. move: (sprod k) (r k.+1) (al k.+1) (v k) (v k.+1) => *. fring. }
  rewrite -E. case: ifP => _; move: (sprod k) (r k.+1) (r k.+2) (al k.+1) (v k) (v k.+1) (v k.+2) => *; fring.
Qed.

Section Mat.
Variables (n : nat) (x : 'rV[F]_n.+1) (V : 'M[F]_n.+1).
Hypothesis r0 : forall i, (0 < i <= n)%N -> r i != 0.
Hypothesis EV : tridiag n.+1 al r *m V = V *m diag_mx x.
Hypothesis OV : V^T *m V = 1%:M.
Lemma sprod0 k : (k <= n)%N -> sprod k != 0.
Proof. elim: k => [|k IH] Hk /=; first exact: oner_neq0. by rewrite mulf_neq0 ?IH ?(ltnW Hk) // r0. Qed.
Definition vv (j : 'I_n.+1) (k : nat) : F := V (inord k) j.
Lemma sum_row (f : 'I_n.+1 -> F) : \sum_i f i = \sum_(0 <= k < n.+1) f (inord k).
Proof. rewrite big_mkord. apply: eq_bigr => i _. by rewrite inord_val. Qed.
Lemma row_eq j i : (i < n.+1)%N ->
  (if i is i'.+1 then r i * vv j i' else 0) + al i * vv j i + (if (i.+1 < n.+1)%N then r i.+1 * vv j i.+1 else 0) = x 0 j * vv j i.
Proof.
move=> Hi. have := congr1 (fun M : 'M_n.+1 => M (inord i) j) EV. rewrite mul_mx_diag !mxE [V _ _ * _]mulrC => <-.
rewrite (eq_bigr (fun k : 'I_n.+1 => (if k == i :> nat then al i * vv j i else 0) + ((if k == i.+1 :> nat then r i.+1 * vv j i.+1 else 0)
   + (if i == k.+1 :> nat then r i * vv j i.-1 else 0)))); last first.
{ move=> k _. rewrite !mxE inordK // /vv. rewrite (eq_sym (i : nat)).
  case: (eqVneq (k : nat) i) => [E|E].
  - rewrite E -[i == i.+1]negbK neq_ltn ltnSn /= !addr0. congr (_ * V _ _). apply: val_inj. by rewrite /= inordK.
  - case: (eqVneq (k : nat) i.+1) => [E1|E1].
    + rewrite E1 (_ : (i == i.+2) = false) ?add0r ?addr0; last by rewrite ltn_eqF.
      congr (_ * V _ _). apply: val_inj. by rewrite /= -E1 inordK.
    + case: eqP => [E2|E2]; rewrite ?add0r ?mul0r //. congr (_ * V _ _). apply: val_inj. by rewrite /= E2 /= inordK. }
rewrite !big_split /=. 
rewrite -!big_mkcond /=.
have one : forall (m : nat) (c : F), \sum_(k < n.+1 | k == m :> nat) c = if (m < n.+1)%N then c else 0.
{ move=> m c. case: ltnP => Hm; last first.
  - apply: big_pred0 => k. by rewrite ltn_eqF // (leq_trans (ltn_ord k)).
  - by rewrite (big_pred1 (Ordinal Hm)). }
rewrite !one Hi. have -> : \sum_(k < n.+1 | i == k.+1) r i * vv j i.-1 = if i is i'.+1 then r i * vv j i' else 0.
{ case: i Hi => [|i] Hi; first by rewrite big_pred0.
  rewrite (eq_bigl (fun k : 'I_n.+1 => k == i :> nat)); last by move=> k; rewrite eqSS eq_sym.
  by rewrite one (ltnW Hi). }
by rewrite [RHS]addrA [RHS]addrC [RHS]addrA.
Qed.
Lemma gw_col j k : (k <= n)%N -> sprod k * vv j k = (mp k).[x 0 j] * vv j 0.
Proof. move=> Hk. have := @col_pi n.+1 (vv j) (x 0 j) (@row_eq j) k (leqW Hk). by rewrite ltnS Hk. Qed.
Lemma gw_last j : (mp n.+1).[x 0 j] * vv j 0 = 0.
Proof. have := @col_pi n.+1 (vv j) (x 0 j) (@row_eq j) n.+1 (leqnn _). by rewrite ltnn. Qed.
Lemma orthV i k : \sum_j V i j * V k j = (i == k)%:R.
Proof.
have := congr1 (fun M : 'M_n.+1 => M i k) (mulmx1C OV). rewrite !mxE => <-. apply: eq_bigr => j _. by rewrite mxE.
Qed.
Lemma orthVc i k : \sum_j V j i * V j k = (i == k)%:R.
Proof. have := congr1 (fun M : 'M_n.+1 => M i k) OV. rewrite !mxE => <-. apply: eq_bigr => j _. by rewrite mxE. Qed.
Lemma vvE j (k : 'I_n.+1) : V k j = vv j k. Proof. by rewrite /vv inord_val. Qed.
Lemma vk j (k : 'I_n.+1) : V k j = (mp k).[x 0 j] / sprod k * vv j 0.
Proof.
have Hk : (k <= n)%N by rewrite -ltnS. have E := gw_col j Hk. have S := sprod0 Hk.
rewrite [LHS]vvE [RHS]mulrAC -E [sprod k * _]mulrC mulfK //.
Qed.
Lemma v0_neq0 j : vv j 0 != 0.
Proof.
apply/negP => /eqP H. have := orthVc j j. rewrite eqxx big1 => [/eqP|k _]; first by rewrite eq_sym oner_eq0.
by rewrite (vk j k) H !mulr0.
Qed.
Lemma gw_root j : root (mp n.+1) (x 0 j).
Proof. rewrite /root. have /eqP := gw_last j. by rewrite mulf_eq0 (negbTE (v0_neq0 j)) orbF. Qed.
Lemma gw_inj i j : x 0 i = x 0 j -> i = j.
Proof.
move=> E. have [//|Hij] := eqVneq i j. exfalso.
have := orthVc i j. rewrite (negbTE Hij) => /eqP. apply/negP.
have -> : \sum_k V k i * V k j = vv i 0 / vv j 0.
{ rewrite -[RHS]mulr1. transitivity (vv i 0 / vv j 0 * \sum_k V k j * V k j); last by rewrite orthVc eqxx.
  rewrite mulr_sumr. apply: eq_bigr => k _. rewrite mulrA. congr (_ * _). rewrite (vk i) (vk j) E.
  have := v0_neq0 j. move: (vv i 0) (vv j 0) (_ / _) => a b c B. ffield. nz. }
by rewrite mulf_neq0 ?invr_eq0 ?v0_neq0.
Qed.
Lemma gw_moment k : (k <= n)%N -> \sum_j vv j 0 ^+ 2 * (mp k).[x 0 j] = (k == 0%N)%:R.
Proof.
move=> Hk. have Hk' : (k < n.+1)%N by []. pose K := Ordinal Hk'.
transitivity (sprod k * \sum_j V 0 j * V K j).
{ rewrite mulr_sumr. apply: eq_bigr => j _. rewrite (vk j K) [V 0 j]vvE /=.
  have := sprod0 Hk. move: (sprod k) (vv _ _) (horner _ _) => s a b S. rewrite expr2. ffield. nz. }
rewrite orthV -val_eqE /= eq_sym. case: k Hk {Hk' K} => [|k] Hk /=; by rewrite ?mulr1 ?mulr0.
Qed.
Section Functional.
Variable L : {poly F} -> F.
Hypothesis LD : forall p q, L (p + q) = L p + L q.
Hypothesis LZ : forall c p, L (c *: p) = c * L p.
Hypothesis L1 : L 1 = be 0%N.
Hypothesis Lm : forall k, (0 < k <= n)%N -> L (mp k) = 0.
Notation Q p := (\sum_j be 0%N * vv j 0 ^+ 2 * p.[x 0 j]).
Lemma QD p q : Q (p + q) = Q p + Q q.
Proof. rewrite -big_split. apply: eq_bigr => j _. by rewrite hornerD mulrDr. Qed.
Lemma QZ c p : Q (c *: p) = c * Q p.
Proof. rewrite mulr_sumr. apply: eq_bigr => j _. by rewrite hornerZ mulrCA. Qed.
Lemma gw_low (p : {poly F}) k : (k <= n.+1)%N -> (size p <= k)%N -> Q p = L p.
Proof.
elim: k p => [|k IH] p Hk.
- rewrite leqn0 size_poly_eq0 => /eqP ->. by rewrite -(scale0r 0) LZ QZ !mul0r.
- move=> Sp. pose c := p`_k. pose q := p - c *: mp k.
  have [/monicP M S] := mon_monic al be k.
  have Sq : (size q <= k)%N.
  { apply/leq_sizeP => i. rewrite leq_eqVlt => /orP [/eqP <-|Hi].
    - rewrite coefB coefZ. have := M. rewrite lead_coefE S /= => ->. by rewrite mulr1 subrr.
    - rewrite coefB coefZ !nth_default ?mulr0 ?subr0 // ?S //. exact: leq_trans Sp _. }
  have -> : p = q + c *: mp k by rewrite subrK.
  rewrite QD QZ LD LZ IH ?(ltnW Hk) //. congr (_ + _ * _).
  have -> : Q (mp k) = be 0%N * \sum_j vv j 0 ^+ 2 * (mp k).[x 0 j].
  { rewrite mulr_sumr. apply: eq_bigr => j _. by rewrite mulrA. }
  rewrite gw_moment //. case: k {IH Sp c q M S Sq} Hk => [|k] Hk; first by rewrite mulr1 -L1.
  by rewrite mulr0 Lm.
Qed.
Lemma gw_exact d (p : {poly F}) : (forall q : {poly F}, (size q <= d)%N -> L (mp n.+1 * q) = 0) -> (size p <= n.+1 + d)%N -> Q p = L p.
Proof.
move=> Hd Sp. have [M S] := mon_monic al be n.+1.
rewrite (divp_eq p (mp n.+1)) QD LD. congr (_ + _).
- rewrite mulrC Hd; last first.
  { rewrite size_divp -?size_poly_eq0 S //= leq_subLR. by []. }
  apply: big1 => j _. rewrite hornerM. have /eqP -> := gw_root j. by rewrite mul0r mulr0.
- apply: (@gw_low _ n.+1) => //. rewrite -ltnS -S ltn_modp -size_poly_eq0 S //.
Qed.
End Functional.
End Mat.
End GW.
