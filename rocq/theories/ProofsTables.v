(** Checking a table of rationals against the moments, and what the check means
    for arbitrary polynomials. *)
Set Warnings "-notation-overridden,-ambiguous-paths".
From Coq Require Import ZArith QArith Qabs Qreduction.
From mathcomp Require Import all_ssreflect all_algebra zify ssrZ.
From Verif Require Base.
From Verif Require Import FieldTac SpecJacobi ProofsJacobi SpecExpansion ModelQuad SpecQuad ProofsQuadMap ModelTables ModelScheme SpecScheme ProofsScheme ProofsBeta ProofsGaussReal.
Set Implicit Arguments. Unset Strict Implicit. Unset Printing Implicit Defensive.
Import Order.TTheory GRing.Theory Num.Theory.
Local Open Scope ring_scope.

Notation Q0 := (Qmake Z0 xH). Notation Q1 := (Qmake (Zpos xH) xH).
Section Alg.
Variable F : fieldType.
Add Field FTbl : (mc_field_theory F).
Lemma alg2 (a b c x y w : F) : x != 0 -> y != 0 -> w != 0 -> a * w * (b * x) * (c * y) / (w * x * y) = a * (b * c).
Proof. move=> ???. ffield. repeat split; nz. Qed.
Lemma alg3 (a b c d x y z w : F) : x != 0 -> y != 0 -> z != 0 -> w != 0 -> a * w * (b * x) * (c * y) * (d * z) / (w * x * y * z) = a * (b * c * d).
Proof. move=> ????. ffield. repeat split; nz. Qed.
End Alg.
Section QF.
Variable F : realFieldType.
Notation pF := (@posF F). Notation zF := (@zF F). Notation qF := (@qF F).
Lemma posFE p : pF p = (Pos.to_nat p)%:R.
Proof. elim: p => [p IH|p IH|] /=; rewrite ?IH ?Pos2Nat.inj_xI ?Pos2Nat.inj_xO -?natrD -?mulrS; [congr (_%:R); lia | congr (_%:R); lia | by []]. Qed.
Lemma posF_gt0 p : 0 < pF p. Proof. rewrite posFE ltr0n. lia. Qed.
Lemma posF_n0 p : pF p != 0. Proof. by rewrite gt_eqF ?posF_gt0. Qed.
Lemma zFE z : zF z = (int_of_Z z)%:~R.
Proof. case: z => [|p|p] //=; rewrite posFE //. rewrite NegzE prednK ?mulrNz //. lia. Qed.
Lemma zFD a b : zF (Z.add a b) = zF a + zF b. Proof. by rewrite !zFE (rmorphD [rmorphism of int_of_Z]) intrD. Qed.
Lemma zFM a b : zF (Z.mul a b) = zF a * zF b. Proof. by rewrite !zFE (rmorphM [rmorphism of int_of_Z]) intrM. Qed.
Lemma zFN a : zF (Z.opp a) = - zF a. Proof. by case: a => [|p|p] /=; rewrite ?oppr0 ?opprK. Qed.
Lemma zF_le a b : Z.le a b -> zF a <= zF b.
Proof. move=> H. rewrite !zFE ler_int. lia. Qed.
Lemma qF_eq a b : Qeq a b -> qF a = qF b.
Proof.
rewrite /Qeq /qF => E. have := congr1 zF E. rewrite !zFM => E'. 
apply/eqP. rewrite eqr_div ?posF_n0 //. exact/eqP.
Qed.
Lemma qFD a b : qF (Qplus a b) = qF a + qF b.
Proof.
rewrite /qF /= zFD !zFM addf_div ?posF_n0 //. congr (_ / _). rewrite !posFE. rewrite Pos2Nat.inj_mul -natrM. by [].
Qed.
Lemma qFM a b : qF (Qmult a b) = qF a * qF b.
Proof. rewrite /qF /= zFM mulf_div. congr (_ / _). rewrite !posFE Pos2Nat.inj_mul -natrM. by []. Qed.
Lemma qFN a : qF (Qopp a) = - qF a. Proof. by rewrite /qF /= zFN mulNr. Qed.
Lemma qFB a b : qF (Qminus a b) = qF a - qF b. Proof. by rewrite qFD qFN. Qed.
Lemma qFz z : qF (inject_Z z) = zF z. Proof. by rewrite /qF /= divr1. Qed.
Lemma qF_le a b : Qle a b -> qF a <= qF b.
Proof. rewrite /Qle /qF => H. rewrite ler_pdivr_mulr ?posF_gt0 // mulrAC ler_pdivl_mulr ?posF_gt0 //. have := zF_le H. by rewrite !zFM. Qed.
Lemma qF_red a : qF (Qred a) = qF a. Proof. apply: qF_eq. exact: Qred_correct. Qed.
Lemma qF_abs a b : Qle (Qabs a) b -> `|qF a| <= qF b.
Proof.
move=> H. rewrite ler_norml -qFN !qF_le //.
- exact: (Qle_trans _ _ _ (Qle_Qabs a)).
- have := Qopp_le_compat _ _ H. move/Qle_trans; apply. have := Qle_Qabs (Qopp a). rewrite Qabs_opp => H2. by have := Qopp_le_compat _ _ H2; rewrite Qopp_opp.
Qed.
Fixpoint qpow (x : Q) (n : nat) : Q := if n is n'.+1 then Qmult x (qpow x n') else Q1.
Lemma qF1 : qF Q1 = 1. Proof. by rewrite /qF /= divr1. Qed.
Lemma qF0 : qF Q0 = 0. Proof. by rewrite /qF /= mul0r. Qed.
Lemma qF_pow x n : qF (qpow x n) = qF x ^+ n. Proof. by elim: n => [|n IH] /=; rewrite ?qF1 // qFM IH exprS. Qed.
(** binary factorial *)
Fixpoint zfact (n : nat) : Z := if n is n'.+1 then Z.mul (Z.of_nat n) (zfact n') else (Zpos xH).
Lemma zF_nat n : zF (Z.of_nat n) = n%:R. Proof. rewrite zFE. have -> : int_of_Z (Z.of_nat n) = n by lia. by []. Qed.
Lemma zF_fact n : zF (zfact n) = n`!%:R. Proof. by elim: n => [|n IH] //; rewrite -[zfact n.+1]/(Z.mul (Z.of_nat n.+1) (zfact n)) zFM IH zF_nat factS natrM. Qed.
Lemma zfact_pos n : Z.lt Z0 (zfact n). Proof. elim: n => [|n IH] //. rewrite -[zfact n.+1]/(Z.mul (Z.of_nat n.+1) (zfact n)). lia. Qed.
Definition zratio (a b : Z) : Q := a # Z.to_pos b.
Lemma qF_ratio a b : Z.lt Z0 b -> qF (zratio a b) = zF a / zF b.
Proof. move=> H. rewrite /qF /=. congr (_ / _). rewrite -[pF (Z.to_pos b)]/(zF (Z.pos (Z.to_pos b))). by rewrite Z2Pos.id; last lia. Qed.
Definition qmom2 i j := zratio (Z.mul (zfact i) (zfact j)) (zfact (i + j + 2)%N).
Definition qmom3 i j k := zratio (Z.mul (Z.mul (zfact i) (zfact j)) (zfact k)) (zfact (i + j + k + 3)%N).
Lemma qmom2E i j : qF (qmom2 i j) = mom2 F i j. Proof. rewrite qF_ratio ?zFM ?zF_fact /mom2 ?natrM //. exact: zfact_pos. Qed.
Lemma qmom3E i j k : qF (qmom3 i j k) = mom3 F i j k. Proof. rewrite qF_ratio ?zFM ?zF_fact /mom3 ?natrM //. exact: zfact_pos. Qed.
(** Moments of a table, in integers: with [D] a common denominator of the
    coordinates and [W] one of the weights.  [chkpow] multiplies the weights by
    one coordinate at a time. *)
Definition scl (D : Z) (q : Q) : Z := Z.mul (Qnum q) (Z.div D (Zpos (Qden q))).
Definition okden (D : Z) (q : Q) : bool := Z.eqb (Z.modulo D (Zpos (Qden q))) Z0.
Lemma sclE D q : okden D q -> zF (scl D q) = qF q * zF D.
Proof.
move/Z.eqb_spec => H. have HD : D = Z.mul (Zpos (Qden q)) (Z.div D (Zpos (Qden q))).
{ have := Z.div_mod D (Zpos (Qden q)). lia. }
rewrite /scl zFM /qF [in RHS]HD zFM [zF (Zpos _)]/= mulrA divfK ?posF_n0 //.
Qed.
Fixpoint zmul2 (a b : seq Z) : seq Z := match a, b with x :: a', y :: b' => Z.mul x y :: zmul2 a' b' | _, _ => [::] end.
Fixpoint zsum (a : seq Z) : Z := if a is x :: a' then Z.add x (zsum a') else Z0.
Fixpoint zpow (x : Z) (n : nat) : Z := if n is n'.+1 then Z.mul x (zpow x n') else Zpos xH.
Lemma zF_pow x n : zF (zpow x n) = zF x ^+ n. Proof. elim: n => [|n IH] //. by rewrite -[zpow x n.+1]/(Z.mul x (zpow x n)) zFM IH exprS. Qed.
Lemma zF_sum (T : Type) (f : T -> Z) s : zF (zsum (map f s)) = \sum_(p <- s) zF (f p).
Proof. elim: s => [|p s IH]; first by rewrite big_nil. by rewrite -[zsum _]/(Z.add (f p) (zsum (map f s))) zFD IH big_cons. Qed.
Lemma zmul2E (T : Type) (f g : T -> Z) s : zmul2 (map f s) (map g s) = map (fun p => Z.mul (f p) (g p)) s.
Proof. by elim: s => [|p s IH] //=; rewrite IH. Qed.
Fixpoint chkpow (D : Z) (zs : seq Z) (test : nat -> Z -> seq Z -> bool) (n k : nat) (M : Z) (ws : seq Z) : bool :=
  test k M ws && (if n is n'.+1 then chkpow D zs test n' k.+1 (Z.mul M D) (zmul2 ws zs) else true).
Lemma chkpowP (T : Type) (s : seq T) D (f g : T -> Z) test n k M : chkpow D (map g s) test n k M (map f s) ->
  forall e, (e <= n)%N -> test (k + e)%N (Z.mul M (zpow D e)) (map (fun p => Z.mul (f p) (zpow (g p) e)) s).
Proof.
elim: n k M f => [|n IH] k M f /= /andP [H1 H2] [|e] He //.
- rewrite addn0 Z.mul_1_r. congr (is_true (test _ _ _)): H1. apply: eq_map => p. by rewrite Z.mul_1_r.
- rewrite addn0 Z.mul_1_r. congr (is_true (test _ _ _)): H1. apply: eq_map => p. by rewrite Z.mul_1_r.
- move: H2. rewrite zmul2E => /IH /(_ e He). rewrite addSnnS. 
  congr (is_true (test _ _ _)); first by rewrite /=; lia. apply: eq_map => p /=. lia.
Qed.
Definition near_mom (eps : Q) (S M g f : Z) : bool :=
  Z.leb (Z.mul (Z.abs (Z.sub (Z.mul S f) (Z.mul M g))) (Zpos (Qden eps))) (Z.mul (Z.mul (Qnum eps) M) f).
Lemma near_momE eps S M g f : Z.lt 0 M -> Z.lt 0 f -> near_mom eps S M g f -> `|zF S / zF M - zF g / zF f| <= qF eps.
Proof.
have pos z : Z.lt 0 z -> 0 < zF z by case: z => // p _; exact: posF_gt0.
move=> HM Hf /Z.leb_le H. have H' := zF_le H. move: H'. rewrite !zFM => H'.
have M0 := pos _ HM. have f0 := pos _ Hf.
have Habs z : zF (Z.abs z) = `|zF z|.
{ case: z => [|p|p] /=; rewrite ?normr0 ?normrN // gtr0_norm ?posF_gt0 //. }
rewrite Habs [zF (Z.sub _ _)]zFD zFN !zFM [zF (Zpos _)]/= in H'.
rewrite -mulNr addf_div ?gt_eqF // mulNr [zF g * _]mulrC normrM [X in _ * X]gtr0_norm ?invr_gt0 ?mulr_gt0 //.
rewrite ler_pdivr_mulr ?mulr_gt0 // /qF mulrAC ler_pdivl_mulr ?posF_gt0 //. by rewrite mulrA.
Qed.
Definition qlcm (l : seq Q) : Z := foldr (fun q D => Z.lcm (Zpos (Qden q)) D) (Zpos xH) l.
Definition mono2 i j (x : seq Q) : F := qF (nth Q0 x 0) ^+ i * qF (nth Q0 x 1) ^+ j.
Definition mono3 i j k (x : seq Q) : F := qF (nth Q0 x 0) ^+ i * qF (nth Q0 x 1) ^+ j * qF (nth Q0 x 2) ^+ k.
Lemma nth_qF x i : nth 0 [seq qF c | c <- x] i = qF (nth Q0 x i).
Proof. case: (ltnP i (size x)) => H; first by rewrite (nth_map Q0). by rewrite !nth_default ?size_map ?qF0. Qed.
Notation tbl := (seq (seq Q * Q)).
Definition wsum (f : seq Q -> F) (t : tbl) : F := \sum_(p <- t) qF p.2 * f p.1.
Lemma zip_qpts pts wts : zip (qpts F pts) (qwts F wts) = [seq ([seq qF c | c <- p.1], qF p.2) | p <- zip pts wts].
Proof. elim: pts wts => [|x ps IH] [|w ws] //=. by rewrite IH. Qed.
Definition denoms (n : nat) (D W : Z) (t : tbl) : bool :=
  all (fun p => okden W p.2 && all (fun i => okden D (nth Q0 p.1 i)) (iota 0 n)) t.
Definition check2Z (d : nat) (eps : Q) (D W : Z) (t : tbl) : bool :=
  [&& Z.ltb Z0 D, Z.ltb Z0 W, denoms 2 D W t &
  chkpow D [seq scl D (nth Q0 p.1 0) | p <- t] (fun i M ws =>
    chkpow D [seq scl D (nth Q0 p.1 1) | p <- t] (fun j M ws =>
      near_mom eps (zsum ws) M (Z.mul (zfact i) (zfact j)) (zfact (i + j + 2))) (d - i) 0 M ws) d 0 W [seq scl W p.2 | p <- t]].
Definition check3Z (d : nat) (eps : Q) (D W : Z) (t : tbl) : bool :=
  [&& Z.ltb Z0 D, Z.ltb Z0 W, denoms 3 D W t &
  chkpow D [seq scl D (nth Q0 p.1 0) | p <- t] (fun i M ws =>
    chkpow D [seq scl D (nth Q0 p.1 1) | p <- t] (fun j M ws =>
      chkpow D [seq scl D (nth Q0 p.1 2) | p <- t] (fun k M ws =>
        near_mom eps (zsum ws) M (Z.mul (Z.mul (zfact i) (zfact j)) (zfact k)) (zfact (i + j + k + 3))) (d - (i + j)) 0 M ws) (d - i) 0 M ws) d 0 W [seq scl W p.2 | p <- t]].
Definition check2 d eps pts wts := check2Z d eps (qlcm (flatten pts)) (qlcm wts) (zip pts wts).
Definition check3 d eps pts wts := check3Z d eps (qlcm (flatten pts)) (qlcm wts) (zip pts wts).
Lemma zpow_pos D n : Z.lt Z0 D -> Z.lt Z0 (zpow D n).
Proof. move=> H. elim: n => [|n IH] //. rewrite -[zpow D n.+1]/(Z.mul D (zpow D n)). lia. Qed.
Lemma zF_gt0 z : Z.lt 0 z -> 0 < zF z. Proof. case: z => // p _; exact: posF_gt0. Qed.
Lemma okden_nth D W n t : denoms n D W t -> all (fun p => okden W p.2) t /\ forall i, (i < n)%N -> all (fun p => okden D (nth Q0 p.1 i)) t.
Proof.
move=> H. split; first by apply: sub_all H => p /andP []. move=> i Hi. apply: sub_all H => p /andP [_ /allP H]. apply: H. by rewrite mem_iota.
Qed.
Lemma sum_all (T : Type) (a : pred T) (f g : T -> F) s : all a s -> (forall p, a p -> f p = g p) -> \sum_(p <- s) f p = \sum_(p <- s) g p.
Proof. move=> + H. elim: s => [|p s IH] //=; first by rewrite !big_nil. by move=> /andP [A B]; rewrite !big_cons IH // H. Qed.
Lemma check2P d eps pts wts i j : check2 d eps pts wts -> (i + j <= d)%N -> `|wsum (mono2 i j) (zip pts wts) - mom2 F i j| <= qF eps.
Proof.
rewrite /check2. move: (qlcm _) (qlcm wts) (zip pts wts) => D W t /and4P [/Z.ltb_lt D0 /Z.ltb_lt W0 /okden_nth [OW OD]] H Hij.
have Hi : (i <= d)%N by lia. have Hj : (j <= d - i)%N by lia.
move: H => /chkpowP /(_ i Hi) /chkpowP /(_ j Hj) /near_momE E.
have Z1 := zpow_pos i D0. have Z2 := zpow_pos j D0.
have {E} := E ltac:(nia) (zfact_pos _). rewrite -qmom2E /qmom2 qF_ratio; last exact: zfact_pos.
congr (is_true (`|_ - _| <= _)). rewrite zF_sum !zFM !zF_pow.
have D1 : zF D != 0 by rewrite gt_eqF ?zF_gt0. have W1 : zF W != 0 by rewrite gt_eqF ?zF_gt0.
rewrite /wsum mulr_suml. have A : all (fun p => [&& okden W p.2, okden D (nth Q0 p.1 0) & okden D (nth Q0 p.1 1)]) t by rewrite !all_predI OW !OD.
apply: (sum_all A) => p /and3P [A1 A2 A3]. rewrite 2!zFM !zF_pow !sclE // /mono2.
move: (qF p.2) (qF _) (qF _) (zF D) (zF W) D1 W1 => a b c dd w D1 W1. rewrite !exprMn.
have E1 : dd ^+ i != 0 by rewrite expf_neq0. have E2 : dd ^+ j != 0 by rewrite expf_neq0.
exact: alg2.
Qed.
Lemma check3P d eps pts wts i j k : check3 d eps pts wts -> (i + j + k <= d)%N -> `|wsum (mono3 i j k) (zip pts wts) - mom3 F i j k| <= qF eps.
Proof.
rewrite /check3. move: (qlcm _) (qlcm wts) (zip pts wts) => D W t /and4P [/Z.ltb_lt D0 /Z.ltb_lt W0 /okden_nth [OW OD]] H Hij.
have Hi : (i <= d)%N by lia. have Hj : (j <= d - i)%N by lia. have Hk : (k <= d - (i + j))%N by lia.
move: H => /chkpowP /(_ i Hi) /chkpowP /(_ j Hj) /chkpowP /(_ k Hk) /near_momE E.
have Z1 := zpow_pos i D0. have Z2 := zpow_pos j D0. have Z3 := zpow_pos k D0.
have {E} := E ltac:(by do ! apply: Z.mul_pos_pos) (zfact_pos _). rewrite -qmom3E /qmom3 qF_ratio; last exact: zfact_pos.
congr (is_true (`|_ - _| <= _)). rewrite zF_sum !zFM !zF_pow.
have D1 : zF D != 0 by rewrite gt_eqF ?zF_gt0. have W1 : zF W != 0 by rewrite gt_eqF ?zF_gt0.
rewrite /wsum mulr_suml. have A : all (fun p => [&& okden W p.2, okden D (nth Q0 p.1 0), okden D (nth Q0 p.1 1) & okden D (nth Q0 p.1 2)]) t by rewrite !all_predI OW !OD.
apply: (sum_all A) => p /and4P [A1 A2 A3 A4]. rewrite 3!zFM !zF_pow !sclE // /mono3.
move: (qF p.2) (qF _) (qF _) (qF _) (zF D) (zF W) D1 W1 => a b c e dd w D1 W1. rewrite !exprMn.
have E1 : dd ^+ i != 0 by rewrite expf_neq0. have E2 : dd ^+ j != 0 by rewrite expf_neq0. have E3 : dd ^+ k != 0 by rewrite expf_neq0.
exact: alg3.
Qed.
Let F0 := @num_char0 F.
Lemma integ_wsum c pts wts f g : (forall x, f x = g [seq qF c | c <- x]) ->
  integrate (Rule c (qpts F pts) (qwts F wts)) g = wsum f (zip pts wts).
Proof. move=> H. rewrite /integrate /= zip_qpts big_map /wsum. by apply: eq_bigr => p _; rewrite H. Qed.
Lemma table2 d eps pts wts c (P : {poly {poly F}}) : check2 d eps pts wts -> deg2_le d P ->
  `|integrate (Rule c (qpts F pts) (qwts F wts)) (fun x => ev2 P (nth 0 x 0) (nth 0 x 1)) - int_unit2 P| <= qF eps * norm2 P.
Proof.
move=> C D. rewrite (int_unit2E F0) /norm2.
have -> : integrate (Rule c (qpts F pts) (qwts F wts)) (fun x => ev2 P (nth 0 x 0) (nth 0 x 1)) =
  \sum_(i < size P) \sum_(j < size P`_i) P`_i`_j * wsum (mono2 i j) (zip pts wts).
{ rewrite (@integrate_ext _ _ _ (fun x => \sum_(i < size P) \sum_(j < size P`_i) P`_i`_j * nth 0 x 0 ^+ i * nth 0 x 1 ^+ j)); last by move=> x _; rewrite ev2_coef.
  rewrite integrate_sum. apply: eq_bigr => i _. rewrite integrate_sum. apply: eq_bigr => j _.
  rewrite -(@integ_wsum c _ _ _ (fun x => nth 0 x 0 ^+ i * nth 0 x 1 ^+ j)); last by move=> x; rewrite /mono2 !nth_qF.
  rewrite -integrateZ. apply: integrate_ext => x _. by rewrite mulrA. }
rewrite -sumrB mulr_sumr. apply: (le_trans (ler_norm_sum _ _ _)). apply: ler_sum => i _.
rewrite -sumrB mulr_sumr. apply: (le_trans (ler_norm_sum _ _ _)). apply: ler_sum => j _.
rewrite -mulrBr normrM mulrC. case: (leqP (i + j) d) => Hij; last by rewrite (D i j Hij) normr0 !mulr0.
rewrite ler_wpmul2r ?normr_ge0 //. exact: check2P C Hij.
Qed.
Lemma table3 d eps pts wts c (P : {poly {poly {poly F}}}) : check3 d eps pts wts -> deg3_le d P ->
  `|integrate (Rule c (qpts F pts) (qwts F wts)) (fun x => ev3 P (nth 0 x 0) (nth 0 x 1) (nth 0 x 2)) - int_unit3 P| <= qF eps * norm3 P.
Proof.
move=> C D. rewrite (int_unit3E F0) /norm3.
have -> : integrate (Rule c (qpts F pts) (qwts F wts)) (fun x => ev3 P (nth 0 x 0) (nth 0 x 1) (nth 0 x 2)) =
  \sum_(i < size P) \sum_(j < size P`_i) \sum_(k < size P`_i`_j) P`_i`_j`_k * wsum (mono3 i j k) (zip pts wts).
{ rewrite (@integrate_ext _ _ _ (fun x => \sum_(i < size P) \sum_(j < size P`_i) \sum_(k < size P`_i`_j) P`_i`_j`_k * nth 0 x 0 ^+ i * nth 0 x 1 ^+ j * nth 0 x 2 ^+ k)); last by move=> x _; rewrite ev3_coef.
  rewrite integrate_sum. apply: eq_bigr => i _. rewrite integrate_sum. apply: eq_bigr => j _. rewrite integrate_sum. apply: eq_bigr => k _.
  rewrite -(@integ_wsum c _ _ _ (fun x => nth 0 x 0 ^+ i * nth 0 x 1 ^+ j * nth 0 x 2 ^+ k)); last by move=> x; rewrite /mono3 !nth_qF.
  rewrite -integrateZ. apply: integrate_ext => x _. by rewrite !mulrA. }
rewrite -sumrB mulr_sumr. apply: (le_trans (ler_norm_sum _ _ _)). apply: ler_sum => i _.
rewrite -sumrB mulr_sumr. apply: (le_trans (ler_norm_sum _ _ _)). apply: ler_sum => j _.
rewrite -sumrB mulr_sumr. apply: (le_trans (ler_norm_sum _ _ _)). apply: ler_sum => k _.
rewrite -mulrBr normrM mulrC. case: (leqP (i + j + k) d) => Hij; last by rewrite (D i j k Hij) normr0 !mulr0.
rewrite ler_wpmul2r ?normr_ge0 //. exact: check3P C Hij.
Qed.
End QF.
