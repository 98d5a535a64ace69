(** The decompositions that [numpy.linalg.svd] and [numpy.linalg.qr] promise exist
    over every real closed field: the hypotheses [svd_correct] and [qr_correct] of
    the theorems about normals can be met. *)
Set Warnings "-notation-overridden,-ambiguous-paths".
From mathcomp Require Import all_ssreflect all_algebra.
From mathcomp Require Import complex.
From Verif Require Import SpecNormal FieldTac.
Set Implicit Arguments. Unset Strict Implicit. Unset Printing Implicit Defensive.
Import Order.TTheory GRing.Theory Num.Theory.
Local Open Scope ring_scope.

Section Svd.
Variable R : rcfType.
Add Field FFsvd : (mc_field_theory R).

Definition sq n (v : 'rV[R]_n) : R := (v *m v^T) 0 0.
Lemma sqE n (v : 'rV[R]_n) : sq v = \sum_(k < n) v 0 k ^+ 2.
Proof. rewrite /sq mxE. apply: eq_bigr => k _. by rewrite [X in _ * X]mxE expr2. Qed.
Lemma sq_ge0 n (v : 'rV[R]_n) : 0 <= sq v.
Proof. rewrite sqE. apply: sumr_ge0 => k _. exact: sqr_ge0. Qed.
Lemma sq_eq0 n (v : 'rV[R]_n) : (sq v == 0) = (v == 0).
Proof.
apply/eqP/eqP => [|->]; last by rewrite /sq mul0mx mxE.
rewrite sqE => Hs. apply/rowP => j. rewrite [RHS]mxE. apply/eqP. rewrite -sqrf_eq0. apply/eqP.
by apply: (psumr_eq0P (F := fun k => v 0 k ^+ 2)) Hs j isT => k _; apply: sqr_ge0.
Qed.
Lemma mx11E (M : 'M[R]_1) : M = (M 0 0)%:M. Proof. exact: mx11_scalar. Qed.
Lemma sqM n (v : 'rV[R]_n) : v *m v^T = (sq v)%:M. Proof. by rewrite [LHS]mx11E. Qed.
Lemma normalize n (v : 'rV[R]_n) : v != 0 -> exists t, t != 0 /\ (t *: v) *m (t *: v)^T = 1%:M.
Proof.
move=> Hv. have H0 : 0 < sq v by rewrite lt_neqAle sq_ge0 eq_sym sq_eq0 Hv.
exists (Num.sqrt (sq v))^-1. split; first by rewrite invr_eq0 sqrtr_eq0 -ltNge.
rewrite linearZ /= -scalemxAl -scalemxAr scalerA sqM scale_scalar_mx -invfM -expr2 sqr_sqrtr ?sq_ge0 // mulVf // gt_eqF //.
Qed.

(** a symmetric matrix has a real eigenvector *)
Lemma sym_eig n (S : 'M[R]_n.+1) : S^T = S -> exists l (v : 'rV_n.+1), v *m v^T = 1%:M /\ v *m S = l *: v.
Proof.
move=> Hs. pose SC := map_mx (real_complex R) S.
have /closed_rootP [l Hl] : size (char_poly SC) != 1%N by rewrite size_char_poly.
rewrite -eigenvalue_root_char in Hl. have [w Hw Hw0] := eigenvalueP Hl.
pose a := map_mx (@complex.Re R) w. pose b := map_mx (@complex.Im R) w.
have key : forall j, \sum_i w 0 i * (S i j)%:C%C = l * w 0 j.
{ move=> j. have := congr1 (fun X : 'rV_n.+1 => X 0 j) Hw. rewrite !mxE => <-. apply: eq_bigr => i _. by rewrite !mxE. }
have ReS : forall (f : 'I_n.+1 -> R[i]), complex.Re (\sum_i f i) = \sum_i complex.Re (f i) by move=> f; rewrite raddf_sum.
have ImS : forall (f : 'I_n.+1 -> R[i]), complex.Im (\sum_i f i) = \sum_i complex.Im (f i) by move=> f; rewrite raddf_sum.
have Ea : a *m S = complex.Re l *: a - complex.Im l *: b.
{ apply/rowP => j. have := congr1 (@complex.Re R) (key j). rewrite ReS !mxE. case: (l) (w 0 j) => la lb [wa wb] /= <-.
  apply: eq_bigr => i _. rewrite !mxE. by case: (w 0 i) => x y /=; rewrite mulr0 subr0. }
have Eb : b *m S = complex.Re l *: b + complex.Im l *: a.
{ apply/rowP => j. have := congr1 (@complex.Im R) (key j). rewrite ImS !mxE. case: (l) (w 0 j) => la lb [wa wb] /= <-.
  apply: eq_bigr => i _. rewrite !mxE. by case: (w 0 i) => x y /=; rewrite mulr0 add0r. }
have tr11 : forall M : 'M[R]_1, M^T = M by move=> M; rewrite [M]mx11E tr_scalar_mx.
have Hsym : a *m S *m b^T = b *m S *m a^T.
{ rewrite -[LHS]tr11 !trmx_mul trmxK Hs mulmxA //. }
have Hab : b *m a^T = a *m b^T by rewrite -[LHS]tr11 trmx_mul trmxK.
have Hsq : sq a + sq b != 0.
{ apply: contra Hw0 => H0. have [H1 H2] : sq a == 0 /\ sq b == 0.
  { have := H0. rewrite paddr_eq0 ?sq_ge0 //. by case/andP. }
  rewrite sq_eq0 in H1. rewrite sq_eq0 in H2. apply/eqP/rowP => j. rewrite [RHS]mxE.
  have := congr1 (fun X : 'rV_n.+1 => X 0 j) (eqP H1). have := congr1 (fun X : 'rV_n.+1 => X 0 j) (eqP H2).
  rewrite !mxE. by case: (w 0 j) => x y /= -> ->. }
have Hl0 : complex.Im l = 0.
{ have : complex.Im l * (sq a + sq b) == 0.
  { have := congr1 (fun X : 'M_1 => X 0 0) Hsym. rewrite Ea Eb !mulmxDl mulNmx -!scalemxAl Hab !sqM !mxE eqxx !mulr1n => E.
    have X : forall x y z : R, x - y = x + z -> z + y = 0 by move=> x y z /addrI <-; rewrite addNr.
    by rewrite mulrDr (X _ _ _ E). }
  rewrite mulf_eq0 (negbTE Hsq) orbF. by move/eqP. }
rewrite Hl0 scale0r subr0 in Ea. rewrite Hl0 scale0r addr0 in Eb.
have [a0|a0] := boolP (a == 0); last first.
{ have [t [_ Ht]] := normalize a0. exists (complex.Re l), (t *: a). split=> //. by rewrite -scalemxAl Ea scalerA mulrC -scalerA. }
have b0 : b != 0. { apply: contra Hsq => /eqP ->. rewrite (eqP a0) /sq !mul0mx !mxE addr0 //. }
have [t [_ Ht]] := normalize b0. exists (complex.Re l), (t *: b). split=> //. by rewrite -scalemxAl Eb scalerA mulrC -scalerA.
Qed.

(** Householder: a unit row is the first row of an orthogonal matrix *)
Lemma house n (u : 'rV[R]_n.+1) : u *m u^T = 1%:M -> exists Q : 'M[R]_n.+1, Q *m Q^T = 1%:M /\ row 0 Q = u.
Proof.
move=> Hu. pose e : 'rV[R]_n.+1 := delta_mx 0 0.
have He : e *m e^T = 1%:M by rewrite /e trmx_delta mul_delta_mx [RHS]mx11E; apply/matrixP => i j; rewrite !ord1 !mxE.
have [->|Hn] := eqVneq u e.
{ exists 1%:M. rewrite trmx1 mulmx1. split=> //. by rewrite rowE mulmx1. }
pose w := u - e. have Hw : sq w != 0 by rewrite sq_eq0 subr_eq0.
pose c := 2%:R / sq w. pose Q : 'M[R]_n.+1 := 1%:M - c *: (w^T *m w).
have Qt : Q^T = Q by rewrite /Q linearB /= trmx1 linearZ /= trmx_mul trmxK.
have Hww : w^T *m w *m (w^T *m w) = sq w *: (w^T *m w).
{ by rewrite mulmxA -(mulmxA _ w) sqM mul_mx_scalar -scalemxAl. }
exists Q. split.
{ rewrite Qt /Q. move: Hww. move: (w^T *m w) => W HW. rewrite mulmxBl mul1mx mulmxBr mulmx1 -scalemxAl -scalemxAr HW.
  rewrite !scalerA -[RHS]subr0 -addrA -opprD. congr (_ - _). rewrite addrA -scalerDl -scalerBl (_ : _ - _ = 0) ?scale0r //.
  rewrite /c -mulrA divfK // -mulr2n -mulr_natr subrr //. }
rewrite rowE -/e /Q. rewrite [LHS]mulmxBr mulmx1 -scalemxAr mulmxA.
have Hcu : forall M : 'M[R]_1, M^T = M by move=> M; rewrite [M]mx11E tr_scalar_mx.
have Hew : e *m w^T = (- sq w / 2%:R)%:M.
{ rewrite [LHS]mx11E. congr (_%:M). rewrite /sq /w linearB /= mulmxBl !mulmxBr Hu He -[u *m e^T]Hcu trmx_mul trmxK.
  move: (e *m u^T) => M. rewrite !mxE eqxx mulr1n. move: (M 0 0) => y. have n2 : (1 + 1 : R) != 0 by rewrite -mulr2n pnatr_eq0.
  rewrite -[2%:R]/(1 + 1). ffield. repeat split; nz. }
have Hc : c * (- sq w / 2%:R) = -1 by rewrite mulNr mulrN /c mulrA divfK // divff // pnatr_eq0.
rewrite Hew mul_scalar_mx scalerA Hc scaleN1r opprK /w addrC. exact: subrK.
Qed.

(** diagonal part of the decomposition *)
Definition Dg m n (s : nat -> R) : 'M[R]_(m, n) := \matrix_(i, j) (if i == j :> nat then s i else 0).
Lemma Dg_block m n (s : nat -> R) : Dg m.+1 n.+1 s = block_mx (s 0%N)%:M 0 0 (Dg m n (s \o succn)) :> 'M_(1 + m, 1 + n).
Proof.
apply/matrixP => i j. rewrite [LHS]mxE.
case: (split_ordP i) => i' ->; case: (split_ordP j) => j' ->; rewrite ?(block_mxEul, block_mxEur, block_mxEdl, block_mxEdr) !mxE ?ord1 //=.
Qed.

Lemma pair_step m n (A : 'M[R]_(m.+1, n.+1)) : (n <= m)%N -> exists (u : 'rV_m.+1) (v : 'rV_n.+1) t,
  [/\ u *m u^T = 1%:M, v *m v^T = 1%:M, 0 <= t, u *m A = t *: v & v *m A^T = t *: u].
Proof.
move=> Hnm. have [|l [v [Hv Hl]]] := @sym_eig n (A^T *m A); first by rewrite trmx_mul trmxK.
pose y := v *m A^T. have Ey : sq y = l.
{ rewrite /sq /y trmx_mul trmxK mulmxA -(mulmxA v) Hl -scalemxAl Hv !mxE eqxx mulr1 //. }
have [y0|y0] := eqVneq y 0.
- have Hr : (\rank A < m.+1)%N.
  { rewrite ltnNge. apply/negP => Hr. have Hc : (\rank A <= n.+1)%N := rank_leq_col A.
    have Er : \rank A = n.+1. { apply/eqP. rewrite eqn_leq Hc. apply: leq_trans Hr. by rewrite ltnS. }
    have : row_free A^T by rewrite /row_free mxrank_tr Er.
    move/row_free_inj => Hi. have : v = 0 by apply: Hi; rewrite mul0mx. move=> v0. move: Hv. rewrite v0 mul0mx => /matrixP /(_ 0 0) /eqP.
    by rewrite !mxE eqxx eq_sym oner_eq0. }
  have : kermx A != 0. { rewrite -mxrank_eq0 mxrank_ker subn_eq0 -ltnNge //. }
  case/rowV0Pn => u0 Hu0 Hn0. have [t [_ Ht]] := normalize Hn0. exists (t *: u0), v, 0.
  have Hu1 : u0 *m A = 0 by apply/sub_kermxP. rewrite !scale0r. split=> //. by rewrite -scalemxAl Hu1 scaler0.
- have l0 : 0 < l by rewrite -Ey lt_neqAle sq_ge0 eq_sym sq_eq0 y0.
  pose t := Num.sqrt l. have t0 : t != 0 by rewrite sqrtr_eq0 -ltNge.
  have tt : t * t = l by rewrite -expr2 sqr_sqrtr // ltW.
  exists (t^-1 *: y), v, t. split=> //.
  + rewrite linearZ /= -scalemxAl -scalemxAr scalerA sqM Ey scale_scalar_mx -invfM tt mulVf // gt_eqF //.
  + exact: sqrtr_ge0.
  + by rewrite -scalemxAl /y -mulmxA Hl scalerA -tt mulKf.
  + by rewrite scalerA divff // scale1r.
Qed.

Definition has_svd m n (A : 'M[R]_(m, n)) : Prop := exists (U : 'M_m) (V : 'M_n) s,
  [/\ U^T *m U = 1%:M, V^T *m V = 1%:M, forall i, 0 <= s i & A = U *m Dg m n s *m V].

Lemma block_prod m n (U : 'M[R]_m) (V : 'M[R]_n) (D : 'M[R]_(m, n)) t :
  (block_mx 1%:M 0 0 U : 'M_(1 + m)) *m ((block_mx t%:M 0 0 D : 'M_(1 + m, 1 + n)) *m (block_mx 1%:M 0 0 V : 'M_(1 + n))) =
  block_mx t%:M 0 0 (U *m D *m V).
Proof. by rewrite !mulmx_block !mulmx0 !mul0mx !addr0 !add0r !mulmx1 !mul1mx !mulmx0 mulmxA. Qed.

Lemma svd_tall n : forall m (A : 'M[R]_(m, n)), (n <= m)%N -> has_svd A.
Proof.
elim: n => [|n IH] m A Hm.
{ exists 1%:M, 1%:M, (fun=> 0). rewrite !trmx1 !mulmx1. split=> //. by rewrite [LHS]thinmx0 [RHS]thinmx0. }
case: m A Hm => [//|m] A Hm. have [u [v [t [Hu Hv Ht HuA HvA]]]] := pair_step A Hm.
have [P [HP Pu]] := house Hu. have [Q [HQ Qv]] := house Hv.
have P' := mulmx1C HP. have Q' := mulmx1C HQ.
pose B : 'M_(1 + m, 1 + n) := P *m A *m Q^T.
have EA : A = P^T *m B *m Q by rewrite /B !mulmxA P' mul1mx -mulmxA Q' mulmx1.
have Brow : row 0 B = t *: delta_mx 0 0.
{ rewrite /B !row_mul Pu HuA -scalemxAl -Qv -row_mul HQ rowE mulmx1 //. }
have Bcol : col 0 B = t *: delta_mx 0 0.
{ rewrite -[LHS]trmxK tr_col /B !trmx_mul trmxK row_mul Qv mulmxA HvA -scalemxAl -Pu -row_mul HP rowE mulmx1 linearZ /= trmx_delta //. }
have EB : B = block_mx t%:M 0 0 (drsubmx B).
{ clear EA. move: B Brow Bcol => B Brow Bcol. rewrite -[LHS]submxK. congr block_mx; apply/matrixP => i j; rewrite !mxE ?ord1 ?mulr1n.
  - have := congr1 (fun X : 'rV_n.+1 => X 0 0) Brow. rewrite !mxE eqxx mulr1 => <-. congr (B _ _); exact: val_inj.
  - have := congr1 (fun X : 'rV_n.+1 => X 0 (rshift 1 j)) Brow. rewrite !mxE /= mulr0 => <-. congr (B _ _); exact: val_inj.
  - have := congr1 (fun X : 'cV_m.+1 => X (rshift 1 i) 0) Bcol. rewrite !mxE /= mulr0 => <-. congr (B _ _); exact: val_inj. }
clearbody B.
have [U' [V' [s [HU HV Hs EC]]]] := IH m (drsubmx B) Hm.
pose U2 : 'M_(1 + m) := block_mx 1%:M 0 0 U'. pose V2 : 'M_(1 + n) := block_mx 1%:M 0 0 V'.
exists (P^T *m U2), (V2 *m Q), (fun k => if k is k'.+1 then s k' else t).
have B1 : forall k (X : 'M[R]_k), X^T *m X = 1%:M -> (block_mx 1%:M 0 0 X : 'M_(1 + k))^T *m block_mx 1%:M 0 0 X = 1%:M.
{ move=> k X HX. rewrite tr_block_mx !trmx0 trmx1 mulmx_block !mulmx0 !mul0mx !mulmx1 !addr0 !add0r HX -scalar_mx_block //. }
split.
- rewrite trmx_mul trmxK mulmxA -(mulmxA U2^T) HP mulmx1. exact: B1.
- rewrite trmx_mul mulmxA -(mulmxA Q^T) B1 // mulmx1 //.
- by case.
- rewrite [LHS]EA Dg_block !mulmxA. congr (_ *m _). rewrite -!mulmxA. congr (_ *m _). rewrite [LHS]EB EC /U2 /V2.
  by rewrite -block_prod.
Qed.

Lemma svd_exists m n (A : 'M[R]_(m, n)) : has_svd A.
Proof.
have [H|H] := leqP n m; first exact: svd_tall. have [U [V [s [HU HV Hs E]]]] := @svd_tall m n A^T (ltnW H).
exists V^T, U^T, s. rewrite !trmxK. split; [exact: mulmx1C|exact: mulmx1C|by []|].
rewrite -[LHS]trmxK E !trmx_mul mulmxA. congr (_ *m _ *m _). apply/matrixP => i j. rewrite !mxE eq_sym. by case: eqP => // ->.
Qed.

(** ** as functions on lists of rows *)
Notation arr := (seq (seq R)).
Definition rows m n (A : 'M[R]_(m, n)) : arr := [seq [seq A i j | j <- enum 'I_n] | i <- enum 'I_m].
Lemma rows_shape m n (A : 'M[R]_(m, n)) : has_shape m n (rows A).
Proof. split; first by rewrite size_map size_enum_ord. move=> r /mapP [i _ ->]. by rewrite size_map size_enum_ord. Qed.
Lemma mx_rows m n (A : 'M[R]_(m, n)) : mx m n (rows A) = A.
Proof.
apply/matrixP => i j. rewrite mxE (nth_map i) ?size_enum_ord // (nth_map j) ?size_enum_ord //. by rewrite !nth_ord_enum.
Qed.
Definition shapeb (m n : nat) (M : arr) : bool := (size M == m) && all (fun r => size r == n) M.
Lemma shapeP m n M : reflect (has_shape m n M) (shapeb m n M).
Proof.
apply: (iffP andP) => [] [H1 H2]; split; [exact/eqP| |exact/eqP|].
- move=> r Hr. apply/eqP. exact: (allP H2).
- apply/allP => r Hr. apply/eqP. exact: H2.
Qed.
Definition svdb m n (M : arr) (d : arr * seq R * arr) : bool :=
  let: (u, s, vt) := d in
  [&& shapeb m m u, shapeb n n vt, size s == minn m n, all (fun x => 0 <= x) s, (mx m m u)^T *m mx m m u == 1%:M,
   (mx n n vt)^T *m mx n n vt == 1%:M & mx m n M == mx m m u *m (\matrix_(i, j) (if i == j :> nat then nth 0 s i else 0)) *m mx n n vt].
Lemma svdb_is m n M d : svdb m n M d -> is_svd m n M d.
Proof.
case: d => [[u s] vt] /and5P [H1 H2 H3 H4 /and3P [H5 H6 H7]].
split; split; try (exact/shapeP); try exact/eqP. exact/allP.
Qed.
Lemma svdb_ex (M : arr) : exists d, svdb (size M) (size (head [::] M)) M d.
Proof.
set m := size M. set n := size _. have [U [V [s [HU HV Hs E]]]] := svd_exists (mx m n M).
exists (rows U, mkseq s (minn m n), rows V). rewrite /svdb !mx_rows HU HV !eqxx size_mkseq eqxx /=.
have -> : shapeb m m (rows U) by apply/shapeP/rows_shape. have -> : shapeb n n (rows V) by apply/shapeP/rows_shape.
rewrite /=. apply/andP; split; first by apply/allP => x /mapP [k _ ->].
apply/eqP. rewrite [LHS]E. congr (_ *m _ *m _). apply/matrixP => i j. rewrite !mxE. case: eqP => // Hij.
rewrite nth_mkseq // leq_min ltn_ord /= Hij ltn_ord //.
Qed.
Definition svd0 (M : arr) : arr * seq R * arr := xchoose (svdb_ex M).
Lemma shape_dims m n (M : arr) : (0 < m)%N -> has_shape m n M -> m = size M /\ n = size (head [::] M).
Proof. move=> Hm [H1 H2]. split=> //. rewrite H2 //. case: (M) H1 => [H1|r M' _]; last exact: mem_head. by rewrite -H1 in Hm. Qed.
Theorem svd0_correct : svd_correct svd0.
Proof.
move=> m n M Hm _ Hs. apply: svdb_is. have [-> ->] := shape_dims Hm Hs. exact: (xchooseP (svdb_ex M)).
Qed.

Definition qrb m p (A : arr) (d : arr * arr) : bool :=
  let: (q, r) := d in [&& shapeb m p q, shapeb p p r, (mx m p q)^T *m mx m p q == 1%:M & mx m p A == mx m p q *m mx p p r].
Lemma qrb_is m p A d : qrb m p A d -> is_qr m p A d.
Proof. case: d => q r /and4P [H1 H2 H3 H4]. split; try exact/shapeP; exact/eqP. Qed.
Lemma qrb_ex (M : arr) : exists d, (size (head [::] M) <= size M)%N ==> qrb (size M) (size (head [::] M)) M d.
Proof.
set m := size M. set p := size _. have [Hp|_] := boolP (p <= m)%N; last by exists ([::], [::]).
have [U [V [s [HU HV Hs E]]]] := svd_exists (mx m p M).
pose J : 'M[R]_(m, p) := \matrix_(i, j) (i == j :> nat)%:R. pose D : 'M[R]_p := Dg p p s.
have HJ : J^T *m J = 1%:M.
{ apply/matrixP => i j. rewrite mxE [RHS]mxE (bigD1 (widen_ord Hp i)) //= big1 => [|k Hk].
  - by rewrite !mxE /= eqxx mul1r addr0.
  - rewrite !mxE. case: eqP => [Hk'|]; last by rewrite mul0r. by move: Hk; rewrite -val_eqE /= Hk' eqxx. }
have HD : J *m D = Dg m p s.
{ apply/matrixP => i j. rewrite mxE [RHS]mxE. rewrite (eq_bigr (fun k : 'I_p => if k == j then (i == j :> nat)%:R * s j else 0)) => [|k _].
  - rewrite -big_mkcond big_pred1_eq. by case: eqP => [->|]; rewrite ?mul1r ?mul0r.
  - rewrite !mxE -(val_eqE k j) /=. case: (val k =P val j) => [->|_] //; by rewrite mulr0. }
exists (rows (U *m J), rows (D *m V)) => /=. rewrite !mx_rows.
have -> : shapeb m p (rows (U *m J)) by apply/shapeP/rows_shape. have -> : shapeb p p (rows (D *m V)) by apply/shapeP/rows_shape.
rewrite /= trmx_mul mulmxA -(mulmxA J^T) HU mulmx1 HJ eqxx /= -mulmxA (mulmxA J) HD mulmxA. by apply/eqP.
Qed.
Definition qr0 (M : arr) : arr * arr := xchoose (qrb_ex M).
Theorem qr0_correct : qr_correct qr0.
Proof.
move=> m p M Hp Hmp Hs. have Hm : (0 < m)%N by apply: leq_trans Hp Hmp. apply: qrb_is.
have [E1 E2] := shape_dims Hm Hs. have := xchooseP (qrb_ex M). rewrite -/(qr0 M) -E1 -E2 Hmp. by [].
Qed.
Theorem head_pop_correct : pop_correct (head 0%N).
Proof. case=> // a l _. exact: mem_head. Qed.
End Svd.
Print Assumptions svd0_correct.
Print Assumptions qr0_correct.
