(** [lobatto] of orthopoly.py: the modified recurrence has the preassigned nodes. *)
Set Warnings "-notation-overridden,-ambiguous-paths".
From mathcomp Require Import all_ssreflect all_algebra zify.
From Verif Require Base.
From Verif Require Import FieldTac ModelOrthopoly ProofsOrthopoly ModelGauss SpecGauss ProofsGW ProofsGaussRule PropsGauss.
Set Implicit Arguments. Unset Strict Implicit. Unset Printing Implicit Defensive.
Import Order.TTheory GRing.Theory Num.Theory.
Local Open Scope ring_scope.

Section Free.
Variable F : fieldType.
Add Field FFl : (mc_field_theory F).
Variables (al be r : nat -> F).
Hypothesis rr : forall i, (0 < i)%N -> r i * r i = be i.
Notation mp k := (monic_p al be k).
Lemma col_free m (v : nat -> F) x :
  (forall i, (i < m)%N -> (if i is i'.+1 then r i * v i' else 0) + al i * v i + r i.+1 * v i.+1 = x * v i) ->
  forall k, (k <= m)%N -> sprod r k * v k = (mp k).[x] * v 0%N.
Proof.
move=> H. elim/ltn_ind=> -[|[|k]] IH Hk.
- by rewrite /monic_p /= hornerC.
- rewrite /monic_p /= hornerD hornerN hornerX hornerC mul1r. have := H 0%N Hk. rewrite add0r => E.
  rewrite mulrBl -E. by rewrite addrC addKr.
- have := IH k.+1 (leqnn _) (ltnW Hk). have := IH k (ltnW (leqnn _)) (ltnW (ltnW Hk)).
  have := H k.+1 Hk. rewrite mon_rec !(hornerD, hornerM, hornerN, hornerX, hornerC, hornerZ).
  rewrite -rr // [sprod _ k.+2]/= [sprod _ k.+1]/= => E E0 E1.
  have -> : ((x - al k.+1) * (mp k.+1).[x] - r k.+1 * r k.+1 * (mp k).[x]) * v 0%N
     = sprod r k * r k.+1 * (x * v k.+1 - al k.+1 * v k.+1 - r k.+1 * v k).
  { have -> : ((x - al k.+1) * (mp k.+1).[x] - r k.+1 * r k.+1 * (mp k).[x]) * v 0%N =
      (x - al k.+1) * ((mp k.+1).[x] * v 0%N) - r k.+1 * r k.+1 * ((mp k).[x] * v 0%N) by move: (horner _ _) (horner _ _) => ? ?; fring.
    rewrite -E0 -E1. move: (sprod r k) (r k.+1) (al k.+1) (v k) (v k.+1) => *. fring. }
  rewrite -E. move: (sprod r k) (r k.+1) (r k.+2) (al k.+1) (v k) (v k.+1) (v k.+2) => *; fring.
Qed.
(** product of a tridiagonal matrix and a column *)
Lemma tri_row n (v : 'cV[F]_n.+1) i : (i < n.+1)%N ->
  (tridiag n.+1 al r *m v) (inord i) 0 =
  (if i is i'.+1 then r i * v (inord i') 0 else 0) + al i * v (inord i) 0 + (if (i < n)%N then r i.+1 * v (inord i.+1) 0 else 0).
Proof.
move=> Hi. rewrite mxE.
rewrite (eq_bigr (fun k : 'I_n.+1 => (if k == i :> nat then al i * v (inord i) 0 else 0) + ((if k == i.+1 :> nat then r i.+1 * v (inord i.+1) 0 else 0)
   + (if i == k.+1 :> nat then r i * v (inord i.-1) 0 else 0)))); last first.
{ move=> k _. rewrite !mxE inordK //. rewrite (eq_sym (i : nat)).
  case: (eqVneq (k : nat) i) => [E|E].
  - rewrite E -[i == i.+1]negbK neq_ltn ltnSn /= !addr0. congr (_ * v _ _). apply: val_inj. by rewrite /= inordK.
  - case: (eqVneq (k : nat) i.+1) => [E1|E1].
    + rewrite E1 (_ : (i == i.+2) = false) ?add0r ?addr0; last by rewrite ltn_eqF.
      congr (_ * v _ _). apply: val_inj. by rewrite /= -E1 inordK.
    + case: eqP => [E2|E2]; rewrite ?add0r ?mul0r //. congr (_ * v _ _). apply: val_inj. by rewrite /= E2 /= inordK. }
rewrite !big_split /= -!big_mkcond /=.
have one : forall (m : nat) (c : F), \sum_(k < n.+1 | k == m :> nat) c = if (m < n.+1)%N then c else 0.
{ move=> m c. case: ltnP => Hm; last first.
  - apply: big_pred0 => k. by rewrite ltn_eqF // (leq_trans (ltn_ord k)).
  - by rewrite (big_pred1 (Ordinal Hm)). }
rewrite !one Hi. have -> : \sum_(k < n.+1 | i == k.+1) r i * v (inord i.-1) 0 = if i is i'.+1 then r i * v (inord i') 0 else 0.
{ case: i Hi => [|i] Hi; first by rewrite big_pred0.
  rewrite (eq_bigl (fun k : 'I_n.+1 => k == i :> nat)); last by move=> k; rewrite eqSS eq_sym.
  by rewrite one (ltnW Hi). }
by rewrite [LHS]addrA [LHS]addrC [LHS]addrA.
Qed.
End Free.

Section Shift.
Variable F : fieldType.
Add Field FFl2 : (mc_field_theory F).
Variables (al be r : nat -> F) (n : nat) (x : F).
Hypothesis rr : forall i, (0 < i <= n)%N -> r i * r i = be i.
Hypothesis r0 : forall i, (0 < i <= n)%N -> r i != 0.
Notation mp k := (monic_p al be k).
Hypothesis px : (mp n.+1).[x] != 0.
Notation M := (tridiag n.+1 (fun i => al i - x) r).
Let r' i := if (i <= n)%N then r i else 1.
Let be' i := r' i * r' i.
Lemma mp'' k : (k <= n.+1)%N -> monic_p al be' k = mp k.
Proof.
elim/ltn_ind: k => -[|[|k]] IH Hk //. have Hk' := ltnW Hk. rewrite !mon_rec (IH k.+1) // (IH k) ?(ltnW Hk') //.
by rewrite /be' /r' -ltnS Hk rr // -ltnS.
Qed.
Lemma sprod0' k : (k <= n.+1)%N -> sprod r' k != 0.
Proof.
elim: k => [|k IH] Hk /=; first exact: oner_neq0. apply: mulf_neq0; first by apply: IH; exact: ltnW. rewrite /r'. case: ifP => H; last exact: oner_neq0.
by apply: r0.
Qed.
(** a column [v] with [M v] = 0 above the last row, [c] in the last row *)
Lemma tri_solve (v : 'cV[F]_n.+1) c : (forall i, (i < n)%N -> (M *m v) (inord i) 0 = 0) -> (M *m v) (inord n) 0 = c ->
  (forall k, (k <= n)%N -> v (inord k) 0 = (mp k).[x] / sprod r' k * v 0 0) /\
  v (inord n) 0 = - c * (mp n).[x] / (mp n.+1).[x] /\ (mp n.+1).[x] * v 0 0 = - c * sprod r' n.
Proof.
move=> H0 Hn. pose w k := if (k <= n)%N then v (inord k) 0 else - c.
have E0 : w 0%N = v 0 0 by rewrite /w /=; congr (v _ _); apply: val_inj; rewrite /= inordK.
have W : forall k, (k <= n.+1)%N -> sprod r' k * w k = (mp k).[x] * v 0 0.
{ move=> k Hk. rewrite -(mp'' Hk) -E0. apply: (@col_free F al be' r' _ n.+1) => // i Hi.
  have := @tri_row F (fun i => al i - x) r n v i Hi.
  have -> : (M *m v) (inord i) 0 = if i == n then c else 0.
  { case: eqP => [->//|/eqP Ne]. apply: H0. by rewrite ltn_neqAle Ne -ltnS. }
  move=> E. have Ew : w i = v (inord i) 0 by rewrite /w -ltnS Hi.
  have Er : (if i is i'.+1 then r' i * w i' else 0) = if i is i'.+1 then r i * v (inord i') 0 else 0.
  { case: (i) Hi => [//|i'] Hi'. by rewrite /r' /w -ltnS Hi' -ltnS (ltnW Hi'). }
  rewrite Er Ew. move: E. case: (eqVneq i n) => [Ei|Ei].
  + rewrite Ei ltnn addr0 mulrBl /w /r' ltnn => ->. move: (if n is _.+1 then _ else _) (al n) (v _ _) => *. fring.
  + have Hin : (i < n)%N by rewrite ltn_neqAle Ei -ltnS.
    rewrite Hin /w /r' Hin. move: (if i is _.+1 then _ else _) (al i) (v (inord i) 0) (r i.+1 * _) => a b d e E.
    have -> : x * d = x * d + 0 by rewrite addr0. rewrite E. fring. }
split; [|].
- move=> k Hk. have := W k (leqW Hk). rewrite /w Hk mulrAC => <-. rewrite [sprod r' k * _]mulrC mulfK //. apply: sprod0'. exact: leqW.
- have := W n (leqnSn n). have := W n.+1 (leqnn _). rewrite [sprod _ n.+1]/= {2}/r' ltnn mulr1 /w ltnn leqnn.
  have S := sprod0' (leqnSn n) => E1 E2. split; last by rewrite -E1 mulrC. move: E1 E2. move: px. move: (sprod r' n) S (mp n.+1).[x] (mp n).[x] (v 0 0) (v _ _) => s S p q y z P E1 E2.
  apply: (mulfI S). rewrite E2. apply: (mulIf P).
  have -> : s * (- c * q / p) * p = q * (s * - c) by ffield; nz.
  rewrite E1. fring.
Qed.
Lemma tri_unit : M \in unitmx.
Proof.
rewrite unitmxE unitfE. apply/det0P => -[v v0 E].
have Ms : M^T = M.
{ apply/matrixP => i j. rewrite !mxE. case: (eqVneq (j : nat) i) => [->|Ne]; first by rewrite ?eqxx.
  case: (eqVneq (i : nat) j.+1) => [E1|_] //. case: (eqVneq (j : nat) i.+1) => [E2|//].
  exfalso. move: E1 E2. clear. move: (nat_of_ord i) (nat_of_ord j) => *. lia. }
have E' : M *m v^T = 0 by rewrite -[M]trmxK Ms -trmx_mul E trmx0.
have E0 i : (M *m v^T) (inord i) 0 = 0 by rewrite E' mxE.
have [H1 [_ H2]] := @tri_solve v^T 0 (fun i _ => E0 i) (E0 n).
have v00 : v^T 0 0 = 0 by move/eqP: H2; rewrite oppr0 mul0r mulf_eq0 (negbTE px) => /eqP.
move/eqP: v0; apply. apply/rowP => k. have := H1 k. rewrite -ltnS ltn_ord inord_val v00 mulr0 !mxE => -> //.
Qed.
End Shift.

Section Lob.
Variable F : rcfType.
Add Field FFl3 : (mc_field_theory F).
Implicit Types (alpha beta : seq F).
Lemma nth_inner (v : seq F) i : (i < size v - 2)%N -> nth 0 (inner v) i = nth 0 v i.+1.
Proof. move=> H. by rewrite /inner nth_take // nth_behead. Qed.
Lemma lobJ n alpha beta c x : size alpha = n.+2 -> size beta = n.+2 -> (forall k, (k < n.+2)%N -> nth 0 alpha k = c) ->
  lobatto_J n.+1 alpha beta x = tridiag n.+1 (fun i => nth 0 alpha i - x) (rt beta).
Proof.
move=> Sa Sb Hc. apply/matrixP => i j. rewrite !mxE. have Hi := ltn_ord i. have Hj := ltn_ord j.
have I (k : nat) : (k.+1 < n.+1)%N -> nth 0 (inner [seq Num.sqrt b | b <- beta]) k = rt beta k.+1.
{ move=> Hk. rewrite nth_inner ?size_map ?Sb ?subn2 //= nth_sqrt //. }
rewrite nth_behead. case: (eqVneq (i : nat) j) => [E|Ne].
- rewrite -E -[_ == _.+1]negbK neq_ltn ltnSn /= add0r addr0 (nth_map 0) ?Sa ?ltnS // !Hc // ltnS ltnW //.
- case: (eqVneq (j : nat) i.+1) => [E|Ne2].
  + have -> : (i == j.+1 :> nat) = false by rewrite E ltn_eqF. rewrite !addr0 I -?E //.
  + rewrite !add0r. case: eqP => [E|//]. by rewrite I -?E.
Qed.
Lemma last_tri n (al be r : nat -> F) x : (forall i, (0 < i <= n)%N -> r i * r i = be i) -> (forall i, (0 < i <= n)%N -> r i != 0) ->
  (monic_p al be n.+1).[x] != 0 ->
  exists g : 'cV[F]_n.+1, np_solve (tridiag n.+1 (fun i => al i - x) r) (\col_i (if i.+1 == n.+1 then 1 else 0)) = Base.Ok g /\
    lastv g = - (monic_p al be n).[x] / (monic_p al be n.+1).[x].
Proof.
move=> rr r0 px. have U := tri_unit rr r0 px. rewrite /np_solve U. eexists; split; first by [].
set g := _ *m _. have Eg : tridiag n.+1 (fun i => al i - x) r *m g = \col_i (if i.+1 == n.+1 then 1 else 0) by rewrite /g mulKVmx.
have [|| _ [H _]] := @tri_solve F al be r n x rr r0 px g 1.
- move=> i Hi. rewrite Eg mxE inordK; last exact: ltnW. by rewrite eqSS ltn_eqF.
- by rewrite Eg mxE inordK // eqxx.
rewrite /lastv (big_pred1 (inord n)) ?H ?mulN1r // => i. apply/eqP/eqP => [[E]|->]; [by apply: val_inj; rewrite /= inordK|by rewrite inordK].
Qed.
End Lob.
