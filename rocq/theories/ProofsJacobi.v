(** Jacobi polynomials: the recurrence of the explicit sum. *)
Set Warnings "-notation-overridden,-ambiguous-paths".
From mathcomp Require Import all_ssreflect all_algebra.
From Verif Require Import FieldTac ModelJacobi SpecJacobi.
Set Implicit Arguments. Unset Strict Implicit. Unset Printing Implicit Defensive.
Import GRing.Theory.
Local Open Scope ring_scope.

Section J.
Variable F : fieldType.
Hypothesis F0 : char_zero F.
Add Field FF : (mc_field_theory F).
Implicit Types (a b x c : F) (n k j m : nat).

Lemma nat_neq0 n : n.+1%:R != 0 :> F. Proof. exact: F0. Qed.
Lemma fact_neq0 n : n`!%:R != 0 :> F. Proof. apply: F0. exact: fact_gt0. Qed.
Lemma two_neq0 : 2%:R != 0 :> F. Proof. exact: F0. Qed.

Lemma poch0 c : poch c 0 = 1. Proof. by rewrite /poch big_ord0. Qed.
Lemma pochSr c m : poch c m.+1 = poch c m * (c + m%:R). Proof. by rewrite /poch big_ord_recr. Qed.
Lemma pochSl c m : poch c m.+1 = c * poch (c + 1) m.
Proof. rewrite /poch big_ord_recl /= addr0. congr (_ * _). apply: eq_bigr => i _. rewrite /bump /= add1n -addrA. by rewrite -mulrS. Qed.

(** coefficients extended by zero *)
Definition jc a b n j : F := if (j <= n)%N then jacobi_coeff a b n j else 0.
Definition jy a b n : {poly F} := \poly_(j < n.+1) jacobi_coeff a b n j.
Definition halfshift : {poly F} := 2%:R^-1 *: ('X - 1).
Lemma jyE a b n j : (jy a b n)`_j = jc a b n j.
Proof. by rewrite coef_poly ltnS. Qed.
Lemma jacobi_polyE a b n : jacobi_poly a b n = jy a b n \Po halfshift.
Proof. rewrite /jy poly_def raddf_sum /=. apply: eq_bigr => j _. by rewrite linearZ /= rmorphX /= comp_polyX. Qed.


Lemma pochPl c m : poch (c - 1) m.+1 = (c - 1) * poch c m. Proof. by rewrite pochSl subrK. Qed.

Lemma jac_recur_coeff a b n j : 
  jac_a1 a b n.+2 * jc a b n.+2 j =
  (jac_a2 a b n.+2 + jac_a3 a b n.+2) * jc a b n.+1 j
  + 2%:R * jac_a3 a b n.+2 * (if j is j'.+1 then jc a b n.+1 j' else 0) - jac_a4 a b n.+2 * jc a b n j.
Proof.
have Hpj : forall i, (i.+1%:R != 0 :> F) by exact: nat_neq0.
rewrite /jc. case: (leqP j n) => Hj.
- rewrite (leq_trans Hj (leqnSn n)) (leq_trans Hj (leq_trans (leqnSn n) (leqnSn n.+1))).
  have [m ->] : exists m, n = (j + m)%N by exists (n - j)%N; rewrite subnKC.
  case: j Hj => [|j] Hj.
  + rewrite /jacobi_coeff !subn0 !add0n !poch0 !factS !fact0 !pochSr /jac_a1 /jac_a2 /jac_a3 /jac_a4.
    rewrite !natrM !mulrS !mulr0n.
    set fm := m`!%:R; set p := poch _ _; set mm := m%:R.
    have Hf : fm != 0 by exact: fact_neq0. have H1 : 1 + mm != 0 by rewrite -mulrS nat_neq0.
    have H2 : 1 + (1 + mm) != 0 by rewrite -!mulrS nat_neq0.
    ffield. repeat split; nz.
  + rewrite (_ : (j <= (j.+1 + m).+1)%N); last by rewrite addSn -!addnS leq_addr.
    rewrite /jacobi_coeff.
    have -> : ((j.+1 + m).+2 - j.+1 = m.+2)%N by rewrite -!addnS addKn.
    have -> : ((j.+1 + m).+1 - j.+1 = m.+1)%N by rewrite -!addnS addKn.
    have -> : ((j.+1 + m) - j.+1 = m)%N by rewrite addKn.
    have -> : ((j.+1 + m).+1 - j = m.+2)%N by rewrite addSn -!addnS addKn.
    set c0 := (j.+1 + m).+2%:R + a + b + 1.
    have E1 : (j.+1 + m).+1%:R + a + b + 1 = c0 - 1 by rewrite /c0 [in RHS]mulrS; fring.
    have E0 : (j.+1 + m)%:R + a + b + 1 = c0 - 1 - 1 by rewrite /c0 [in RHS]mulrS [in RHS]mulrS; fring.
    rewrite E1 E0.
    set al := a + j.+1%:R + 1.
    have Ea : a + j%:R + 1 = al - 1 by rewrite /al mulrS; fring.
    rewrite Ea (pochPl al) !pochPl.
    have Hc : c0 = 1 + (1 + ((1 + j%:R) + m%:R)) + a + b + 1 by rewrite /c0 mulrS mulrS natrD (mulrS _ j).
    have Hal : al = a + (1 + j%:R) + 1 by rewrite /al mulrS.
    rewrite /jac_a1 /jac_a2 /jac_a3 /jac_a4 !(mulrS _ (j.+1 + m).+1) !(mulrS _ (j.+1 + m)) natrD (mulrS _ j).
    rewrite !(factS j) !(factS m.+1) !(factS m) !natrM !(mulrS _ m.+1) !(mulrS _ m) !(mulrS _ j) !(pochSr _ m.+1) !(pochSr _ m) !(mulrS _ m).
    have Hf : m`!%:R != 0 :> F by exact: fact_neq0. have Hg : j`!%:R != 0 :> F by exact: fact_neq0.
    have H1 : 1 + m%:R != 0 :> F by rewrite -mulrS.
    have H2 : 1 + (1 + m%:R) != 0 :> F by rewrite -!mulrS.
    have H3 : 1 + j%:R != 0 :> F by rewrite -mulrS.
    move: Hf Hg H1 H2 H3. 
    move: (m`!%:R) (j`!%:R) => fm fj.
    case: j @c0 @al Hj E1 E0 Ea Hc Hal => [|j] c0 al Hj E1 E0 Ea Hc Hal.
    * rewrite !pochSr !poch0 !mulr0n. rewrite mulr0n in Hc Hal.
      move: (poch al m) (m%:R : F) (c0) (al) Hc Hal => p mm c0' al' -> -> Hf Hg H1 H2 H3.
      ffield. repeat split; nz.
    * rewrite !pochPl !pochSr.
      move: (poch al m) (poch c0 j) (m%:R : F) (c0) (al) Hc Hal => p q mm c0' al' -> -> Hf Hg H1 H2 H3.
      rewrite mulrS in Hg H3 *.
      move: (j%:R) Hg H3 => jj Hg H3.
      ffield. repeat split; nz.
- rewrite mulr0 subr0. case: j Hj => // j. rewrite ltnS => Hj.
  case: (ltngtP j n.+1) => Hj2.
  + (* j = n *)
    have {Hj Hj2} -> : j = n by apply/eqP; rewrite eqn_leq Hj andbT -ltnS.
    rewrite (leqW (ltnSn n)).
    rewrite /jacobi_coeff. have -> : (n.+2 - n.+1 = 1)%N by rewrite subSS subSnn. have -> : (n.+1 - n.+1 = 0)%N by rewrite subnn. rewrite subSnn.
    set c0 := n.+2%:R + a + b + 1.
    have E1 : n.+1%:R + a + b + 1 = c0 - 1 by rewrite /c0 [in RHS]mulrS; fring.
    rewrite E1 (pochPl c0) !pochSr !poch0 !factS fact0 !natrM.
    have Hc : c0 = 1 + (1 + n%:R) + a + b + 1 by rewrite /c0 mulrS mulrS.
    rewrite /jac_a1 /jac_a2 /jac_a3 /jac_a4.
    rewrite !(mulrS _ n.+1) !(mulrS _ n) ?mulr0n.
    have Hg : n`!%:R != 0 :> F by exact: fact_neq0.
    have H3 : 1 + n%:R != 0 :> F by rewrite -mulrS.
    have H2 : 1 + 1 != 0 :> F by exact: two_neq0.
    case: n @c0 E1 Hc Hg H3 => [|n] c0 E1 Hc Hg H3.
    * rewrite !poch0 fact0 !mulr0n. rewrite mulr0n in Hc.
      move: (c0) Hc => c0' ->. ffield. nz.
    * rewrite !pochPl !pochSr.
      move: (poch c0 n) (c0) Hc (n.+1`!%:R : F) Hg => q c0' -> fn Hg.
      rewrite mulrS in H3 *. move: (n%:R) H3 => nn H3.
      ffield. nz.
  + by rewrite ltnNge Hj2 /= !mulr0 addr0.
  + rewrite Hj2 ltnSn mulr0 add0r /jacobi_coeff !subnn !poch0 !fact0.
    set c0 := n.+2%:R + a + b + 1.
    have E1 : n.+1%:R + a + b + 1 = c0 - 1 by rewrite /c0 [in RHS]mulrS; fring.
    have Hc : c0 = 1 + (1 + n%:R) + a + b + 1 by rewrite /c0 mulrS mulrS.
    clearbody c0.
    rewrite E1 pochPl !pochSr !factS !natrM /jac_a1 /jac_a2 /jac_a3 /jac_a4.
    rewrite !(mulrS _ n.+1) !(mulrS _ n) ?mulr0n.
    have Hg : n`!%:R != 0 :> F by exact: fact_neq0.
    have H3 : 1 + n%:R != 0 :> F by rewrite -mulrS.
    have H2 : 1 + (1 + n%:R) != 0 :> F by rewrite -!mulrS.
    move: (poch c0 n) => q. rewrite Hc. move: (n`!%:R : F) (n%:R : F) Hg H2 H3 => fn nn Hg H2 H3.
    ffield. nz.
Qed.

Lemma jy_recur a b n :
  jac_a1 a b n.+2 *: jy a b n.+2 =
  ((jac_a2 a b n.+2 + jac_a3 a b n.+2)%:P + (2%:R * jac_a3 a b n.+2) *: 'X) * jy a b n.+1 - jac_a4 a b n.+2 *: jy a b n.
Proof.
apply/polyP => j. rewrite coefB !coefZ mulrDl coefD coefCM -scalerAl coefZ coefXM !jyE jac_recur_coeff.
by case: j => [|j] //=; rewrite jyE.
Qed.
Lemma jacobi_recur a b n :
  jac_a1 a b n.+2 *: jacobi_poly a b n.+2 =
  (jac_a2 a b n.+2 *: 1 + jac_a3 a b n.+2 *: 'X) * jacobi_poly a b n.+1 - jac_a4 a b n.+2 *: jacobi_poly a b n.
Proof.
rewrite !jacobi_polyE -!comp_polyZ jy_recur comp_polyB comp_polyM comp_polyZ comp_polyD comp_polyZ comp_polyX comp_polyC.
congr (_ * _ - _). rewrite /halfshift scalerA -mulrA [jac_a3 _ _ _ * _]mulrC mulrA divff ?mul1r; last exact: two_neq0.
by rewrite scalerBr polyCD -!mul_polyC !mulr1 -addrA [X in _ + X = _]addrCA subrr addr0.
Qed.
Lemma jacobi_poly0 a b : jacobi_poly a b 0 = 1.
Proof. by rewrite /jacobi_poly big_ord1 /jacobi_coeff subnn !poch0 !fact0 expr0 divr1 mulr1 scale1r. Qed.
Lemma jacobi_poly1 a b x : (jacobi_poly a b 1).[x] = 2%:R^-1 * (a - b + (a + b + 2%:R) * x).
Proof.
rewrite /jacobi_poly !big_ord_recl big_ord0 addr0 /jacobi_coeff /= /bump /= expr0 expr1.
rewrite !(hornerD, hornerZ, hornerN, hornerX, hornerC).
rewrite !pochSr !poch0 !factS !fact0 !mulr0n.
have H := two_neq0. move: H. rewrite !mulrS mulr0n => H. ffield. repeat split; nz.
Qed.

(** *** Evaluation *)
Lemma jac_a1_neq0 a b n k : jacobi_regular a b n -> (2 <= k <= n)%N -> jac_a1 a b k != 0.
Proof.
move=> Hr /andP [H2 Hk]. rewrite /jac_a1 !mulf_neq0 //.
- exact: two_neq0.
- apply: F0. exact: leq_trans H2.
- have := Hr k. rewrite addrA; apply. by rewrite H2 -addnn (leq_trans Hk) // leq_addr.
- have H4 : (4 <= k.*2)%N by rewrite -[4%N]/(2.*2) leq_double.
  have := Hr (k.*2 - 2)%N. rewrite natrB; last exact: leq_trans H4.
  rewrite -mul2n natrM. have -> : 2%:R * k%:R - 2%:R + a + b = 2%:R * k%:R + (a + b) - 2%:R :> F by fring.
  apply. rewrite mul2n. apply/andP; split.
  + by rewrite leq_subRL // (leq_trans _ H4).
  + by rewrite (leq_trans (leq_subr _ _)) // leq_double.
Qed.

Lemma jacobi_regular_le a b n m : jacobi_regular a b n -> (m <= n)%N -> jacobi_regular a b m.
Proof. move=> Hr Hm k /andP [H1 H2]. apply: Hr. by rewrite H1 (leq_trans H2) // leq_double. Qed.

Lemma jac_step_ok a b n x : jacobi_regular a b n.+2 ->
  (jac_a2 a b n.+2 / jac_a1 a b n.+2 + jac_a3 a b n.+2 / jac_a1 a b n.+2 * x) * (jacobi_poly a b n.+1).[x]
  - jac_a4 a b n.+2 / jac_a1 a b n.+2 * (jacobi_poly a b n).[x] = (jacobi_poly a b n.+2).[x].
Proof.
move=> Hr. have Ha : jac_a1 a b n.+2 != 0 by apply: jac_a1_neq0 Hr _; rewrite leqnn andbT.
apply: (mulfI Ha). have := congr1 (fun p => p.[x]) (jacobi_recur a b n).
rewrite /= hornerZ => ->. rewrite -polyC1 !(hornerM, hornerD, hornerN, hornerZ, hornerX, hornerC).
move: (jac_a1 a b n.+2) (jac_a2 a b n.+2) (jac_a3 a b n.+2) (jac_a4 a b n.+2) Ha => A1 A2 A3 A4 Ha.
move: ((jacobi_poly a b n.+1).[x] : F) ((jacobi_poly a b n).[x] : F) => p1 p2. ffield. nz.
Qed.

Lemma eval_jacobi_loop a b x n : jacobi_regular a b n.+2 ->
  foldl (jac_step a b x) (1, 2%:R^-1 * (a - b + (a + b + 2%:R) * x), 0) (iota 2 n.+1)
  = ((jacobi_poly a b n.+1).[x], (jacobi_poly a b n.+2).[x], (jacobi_poly a b n.+2).[x]).
Proof.
elim: n => [|n IH] Hr.
- rewrite /= -jacobi_poly1 -jac_step_ok //. by rewrite jacobi_poly0 hornerC mulr1.
- rewrite -(addn1 n.+1) iotaD foldl_cat IH /=; last exact: jacobi_regular_le Hr _.
  by rewrite !addn1 -(@jac_step_ok a b n.+1).
Qed.

Lemma eval_jacobi_ok a b n x : jacobi_regular a b n -> eval_jacobi a b n x = (jacobi_poly a b n).[x].
Proof.
case: n => [|[|n]] Hr /=; first by rewrite jacobi_poly0 hornerC.
- by rewrite jacobi_poly1.
- by have := eval_jacobi_loop x Hr => /= ->.
Qed.

Lemma batch_row0 (xs : seq F) k i :
  foldl (fun (A : arr2 F) ii => fun k i => if (k == 0%N) && (i == ii) then 1 + nth 0 xs ii - nth 0 xs ii else A k i)
                  (fun _ _ => 0) (iota 0 (size xs)) k i = if (k == 0%N) && (i < size xs)%N then 1 else 0.
Proof.
elim: (size xs) => [|m IH]; first by rewrite ltn0 andbF.
rewrite -addn1 iotaD foldl_cat /= IH add0n addn1 ltnS [(i <= m)%N]leq_eqVlt addrK. by case: (k == 0%N) => //=; case: (i == m).
Qed.

Lemma batch_ok a b n (xs : seq F) k i : jacobi_regular a b n -> (k <= n)%N -> (i < size xs)%N ->
  eval_jacobi_batch a b n xs k i = eval_jacobi a b k (nth 0 xs i).
Proof.
move=> Hr Hk Hi. rewrite eval_jacobi_ok; last exact: jacobi_regular_le Hr _.
rewrite /eval_jacobi_batch. case: n Hr Hk => [|n] Hr Hk /=.
  by move: Hk; rewrite leqn0 => /eqP ->; rewrite batch_row0 Hi jacobi_poly0 hornerC.
elim: n k Hr Hk => [|n IH] k Hr Hk.
- case: k Hk => [|[|]] //= _; rewrite /set_row /=; first by rewrite batch_row0 Hi jacobi_poly0 hornerC.
  by rewrite jacobi_poly1.
- have Hr' : jacobi_regular a b n.+1 by exact: jacobi_regular_le Hr _.
  rewrite -{1}(addn1 n) iotaD foldl_cat [foldl _ _ (iota (2 + n) 1)]/= add2n /=.
  set A := foldl _ _ (iota 2 n) in IH *. rewrite /set_row. move: Hk; rewrite leq_eqVlt => /orP [/eqP ->|Hk].
  + rewrite eqxx /=. rewrite (IH n.+1) // (IH n) //. by rewrite -jac_step_ok.
  + rewrite ltn_eqF //. exact: IH.
Qed.

(** *** Derivative *)
Lemma jacobi_deriv a b n :
  (jacobi_poly a b n.+1)^`() = (2%:R^-1 * (n.+1%:R + a + b + 1)) *: jacobi_poly (a + 1) (b + 1) n.
Proof.
rewrite !jacobi_polyE deriv_comp.
have -> : halfshift^`() = (2%:R^-1)%:P by rewrite /halfshift derivZ derivB derivX derivC subr0 alg_polyC.
rewrite mulrC mul_polyC -scalerA. congr (_ *: _). rewrite -comp_polyZ. congr (_ \Po _).
apply/polyP => j. rewrite coef_deriv coefZ !jyE /jc ltnS. case: ifP => Hj; last by rewrite mul0rn mulr0.
rewrite /jacobi_coeff subSS pochSl factS natrM.
have -> : n%:R + (a + 1) + (b + 1) + 1 = n.+1%:R + a + b + 1 + 1 by rewrite mulrS; fring.
have -> : a + 1 + j%:R + 1 = a + j.+1%:R + 1 by rewrite mulrS; fring.
rewrite -mulr_natr. have H1 := nat_neq0 j. have H2 := fact_neq0 j. have H3 := fact_neq0 (n - j).
move: (poch (a + j.+1%:R + 1) _) (poch (n.+1%:R + a + b + 1 + 1) _) => p q.
move: (n.+1%:R + a + b + 1) => c. move: (j.+1%:R : F) (j`!%:R : F) ((n - j)`!%:R : F) H1 H2 H3 => u v w H1 H2 H3.
ffield. repeat split; nz.
Qed.

Lemma jacobi_at1 a b n : (jacobi_poly a b n).[1] = poch (a + 1) n / n`!%:R.
Proof.
rewrite jacobi_polyE horner_comp /halfshift hornerZ hornerD hornerN hornerX hornerC subrr mulr0.
rewrite horner_coef0 jyE /jc leq0n /jacobi_coeff subn0 poch0 fact0 divr1 mulr1. by rewrite addr0.
Qed.
Lemma poch1 n : poch (1 : F) n = n`!%:R.
Proof. elim: n => [|n IH]; first by rewrite poch0. by rewrite pochSr IH factS natrM mulrC mulrS. Qed.

Lemma size_jacobi a b n : (size (jacobi_poly a b n) <= n.+1)%N.
Proof.
apply: (leq_trans (size_sum _ _ _)). apply/bigmax_leqP => j _. apply: (leq_trans (size_scale_leq _ _)).
apply: (leq_trans (size_exp_leq _ _)). apply: leq_ltn_trans (_ : (1 * j < n.+1)%N); last by rewrite mul1n.
rewrite leq_mul2r orbC -ltnS prednK ?lt0n. 
- apply/orP; left. apply: (leq_trans (size_scale_leq _ _)). by rewrite -polyC1 size_XsubC.
- rewrite size_poly_eq0 scaler_eq0 negb_or invr_eq0 two_neq0 /=. by rewrite -polyC1 polyXsubC_eq0.
Qed.
End J.
