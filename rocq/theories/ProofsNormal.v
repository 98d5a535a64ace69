Set Warnings "-notation-overridden,-ambiguous-paths".
From mathcomp Require Import all_ssreflect all_algebra.
From Verif Require Base ModelCell.
From Verif Require Import SpecNormal ModelAffine ProofsSerPlace ModelNormal.
Set Implicit Arguments. Unset Strict Implicit. Unset Printing Implicit Defensive.
Import Order.TTheory GRing.Theory Num.Theory.
Local Open Scope ring_scope.

Section P.
Variable R : rcfType.
Notation arr := (seq (seq R)).
Implicit Types (M : arr).

Lemma orth_rows n (U : 'M[R]_n) : orthonormal_columns U -> U *m U^T = 1%:M.
Proof. exact: mulmx1C. Qed.

Lemma shape_row m n M i : has_shape m n M -> (i < m)%N -> size (nth [::] M i) = n.
Proof. by move=> [Hs Hr] Hi; apply: Hr; rewrite mem_nth // Hs. Qed.

Lemma tol_gt0 : 0 < tol R.
Proof. by rewrite invr_gt0 exprn_gt0 // ltr0n. Qed.

Lemma mx11 (A B : 'M[R]_1) : A 0 0 = B 0 0 -> A = B.
Proof. by move=> H; apply/matrixP => i j; rewrite !ord1. Qed.

(** conditioning makes every singular value exceed the tolerance *)
Lemma svd_large m n M u s vt : is_svd m n M (u, s, vt) -> (m <= n)%N -> well_conditioned m n M ->
  count (fun si => tol R < si) s = m.
Proof.
move=> [[Hu Hvt Hs Hpos] [Ou Ov E]] Hmn Hw. have Hsz : size s = m by rewrite Hs (minn_idPl Hmn).
rewrite -Hsz -[RHS]count_predT. apply: eq_in_count => x Hx /=. case/(nthP 0): Hx => l Hl Hx.
have Hlm : (l < m)%N by rewrite -Hsz. have Hln : (l < n)%N := leq_trans Hlm Hmn.
pose U := mx m m u. pose V := mx n n vt.
have H := Hw (row (Ordinal Hlm) U^T).
have H1 : row (Ordinal Hlm) U^T *m (row (Ordinal Hlm) U^T)^T = 1%:M.
{ apply: mx11. have := congr1 (fun A : 'M_m => A (Ordinal Hlm) (Ordinal Hlm)) Ou. rewrite mxE [X in _ = X]mxE eqxx => H0.
  rewrite [RHS]mxE eqxx -[RHS]H0 mxE. apply: eq_bigr => k _. by rewrite !mxE. }
have H2 : row (Ordinal Hlm) U^T *m mx m n M = x *: row (Ordinal Hln) V.
{ rewrite -row_mul E !mulmxA Ou mul1mx. apply/rowP => j. rewrite !mxE (bigD1 (Ordinal Hln)) //= !mxE /= eqxx Hx big1 ?addr0 // => k Hk.
  rewrite mxE /=. case: eqP => [Ek|_]; last by rewrite mul0r. case/eqP: Hk. exact: val_inj. }
move: (H H1). rewrite H2 linearZ /= -scalemxAl -scalemxAr !mxE.
have -> : \sum_j row (Ordinal Hln) V 0 j * (row (Ordinal Hln) V)^T j 0 = 1.
{ have := congr1 (fun A : 'M_n => A (Ordinal Hln) (Ordinal Hln)) (orth_rows Ov). rewrite mxE [X in _ = X]mxE eqxx => H0. rewrite -[RHS]H0. 
  apply: eq_bigr => k _. by rewrite !mxE. }
rewrite mulr1 -exprVn -expr2 => Hlt. rewrite /tol.
have Hx0 : 0 <= x by apply: Hpos; rewrite -Hx mem_nth.
have Ht : 0 <= (10 ^+ 10)^-1 :> R by rewrite ltW // tol_gt0.
by rewrite ltr_sqr ?nnegrE in Hlt.
Qed.

(** the last right singular vector of k independent rows of k+1 entries *)
Lemma svd_null k M u s vt : is_svd k k.+1 M (u, s, vt) ->
  let w := nth [::] vt k in
  [/\ size w = k.+1, \sum_(j < k.+1) nth 0 w j * nth 0 w j = 1 &
   forall i, (i < k)%N -> \sum_(j < k.+1) nth 0 (nth [::] M i) j * nth 0 w j = 0].
Proof.
move=> [[Hu Hvt Hs Hpos] [Ou Ov E]] w.
have Hw : size w = k.+1 by apply: (shape_row Hvt).
pose V := mx k.+1 k.+1 vt. pose l : 'I_k.+1 := ord_max.
have OV := orth_rows Ov.
split=> //.
- have := congr1 (fun A : 'M_k.+1 => A l l) OV. rewrite mxE [X in _ = X]mxE eqxx => H0. rewrite -[RHS]H0.
  apply: eq_bigr => j _. by rewrite !mxE.
- move=> i Hi. have H : mx k k.+1 M *m (row l V)^T = 0.
  { rewrite E tr_row colE mulmxA -[X in X *m _]mulmxA OV mulmx1 -mulmxA.
    have -> : (\matrix_(i < k, j < k.+1) (if i == j :> nat then nth 0 s i else 0)) *m delta_mx l 0 = 0 :> 'cV[R]_k.
    { apply/colP => a. rewrite !mxE big1 // => b _. rewrite !mxE. case: eqP => [Eab|_]; last by rewrite mul0r.
      case: eqP => [Ebl|_]; last by rewrite mulr0. have := ltn_ord a. by rewrite Eab Ebl /= ltnn. }
    by rewrite mulmx0. }
  have := congr1 (fun A : 'cV_k => A (Ordinal Hi) 0) H. rewrite mxE [X in _ = X]mxE => H0. rewrite -[RHS]H0.
  apply: eq_bigr => j _. by rewrite !mxE.
Qed.

Lemma entry_matmul m p q (A B : arr) i j : size A = m -> has_shape p q B -> (0 < p)%N -> (i < m)%N -> (j < q)%N ->
  entry (matmul A B) i j = \sum_(k < p) entry A i k * entry B k j.
Proof.
move=> HA HB Hp Hi Hj. rewrite /entry /matmul (nth_map [::]) ?HA //.
have Hnc : ncols B = q. { rewrite /ncols -nth0. exact: (shape_row HB). }
rewrite Hnc (nth_map 0%N) ?size_iota // nth_iota // add0n (proj1 HB) -{1}[p]subn0 -/(index_iota 0 p) big_mkord. by [].
Qed.
Lemma shape_matmul m p q (A B : arr) : size A = m -> has_shape p q B -> (0 < p)%N -> has_shape m q (matmul A B).
Proof.
move=> HA HB Hp. split; first by rewrite size_map. move=> r /mapP [x _ ->]. rewrite size_map size_iota /ncols -nth0. exact: (shape_row HB).
Qed.
Lemma entry_transpose m n (M : arr) i j : size M = m -> (i < n)%N -> (j < m)%N -> entry (transpose n M) i j = entry M j i.
Proof.
move=> HM Hi Hj. rewrite /entry /transpose (nth_map 0%N) ?size_iota // nth_iota // add0n (nth_map [::]) ?HM //.
Qed.
Lemma shape_transpose m n (M : arr) : size M = m -> has_shape n m (transpose n M).
Proof. move=> HM. split; first by rewrite size_map size_iota. move=> r /mapP [x _ ->]. by rewrite size_map. Qed.
Lemma mx_matmul m p q (A B : arr) : size A = m -> has_shape p q B -> (0 < p)%N -> mx m q (matmul A B) = mx m p A *m mx p q B.
Proof.
move=> HA HB Hp. apply/matrixP => i j. rewrite !mxE. apply: etrans (entry_matmul HA HB Hp _ _) _ => //.
apply: eq_bigr => k _. by rewrite !mxE.
Qed.
Lemma mx_transpose m n (M : arr) : size M = m -> mx n m (transpose n M) = (mx m n M)^T.
Proof. move=> HM. apply/matrixP => i j. rewrite !mxE. exact: (entry_transpose HM). Qed.

(** intersecting a line with the whole space gives the line *)
Lemma intersection_line d svd qr (w : seq R) (B : arr) : (0 < d)%N -> svd_correct svd -> qr_correct qr ->
  size w = d -> \sum_(j < d) nth 0 w j * nth 0 w j = 1 -> has_shape d d B ->
  exists t, t * t = 1 /\ subspace_intersection svd qr [seq [:: x] | x <- w] B = Ok [seq [:: t * x] | x <- w].
Proof.
move=> Hd Hsvd Hqr Hw Hn HB. set A := [seq [:: x] | x <- w].
have HA : has_shape d 1 A. { split; first by rewrite size_map. by move=> r /mapP [x _ ->]. }
rewrite /subspace_intersection size_map Hw (proj1 HB) eqxx /=.
move: (Hqr d 1%N A isT Hd HA). case: (qr A) => qa ra [Sqa Sra Oa EA] /=.
move: (Hqr d d B Hd (leqnn d) HB). case: (qr B) => qb rb [Sqb Srb Ob EB] /=.
have Hnc : ncols qa = 1%N by rewrite /ncols -nth0; exact: (shape_row Sqa).
rewrite Hnc. set C := matmul _ qb.
have St : has_shape 1 d (transpose 1 qa) := shape_transpose 1 (proj1 Sqa).
have SC : has_shape 1 d C := shape_matmul (proj1 St) Sqb Hd.
move: (Hsvd 1%N d C isT Hd SC). case: (svd C) => [[y c] zt] [[Sy Sz Sc Hc] [Oy Oz EC]].

pose r0 := entry ra 0 0. pose y0 := entry y 0 0.
have Wq : forall j, (j < d)%N -> nth 0 w j = entry qa j 0 * r0.
{ move=> j Hj. have := congr1 (fun X : 'M_(d, 1) => X (Ordinal Hj) 0) EA. rewrite !mxE big_ord1 !mxE /A (nth_map 0) ?Hw //. }
have Q1 : \sum_(j < d) entry qa j 0 * entry qa j 0 = 1.
{ have := congr1 (fun X : 'M_1 => X 0 0) Oa. rewrite mxE [X in _ = X]mxE eqxx => H0. rewrite -[RHS]H0. apply: eq_bigr => j _. by rewrite !mxE. }
have r1 : r0 * r0 = 1.
{ rewrite -Hn -[LHS]mul1r -Q1 mulr_suml. apply: eq_bigr => j _. by rewrite Wq // mulrACA. }
have Qw : forall j, (j < d)%N -> entry qa j 0 = r0 * nth 0 w j.
{ move=> j Hj. by rewrite Wq // mulrCA r1 mulr1. }
have y1 : y0 * y0 = 1.
{ have := congr1 (fun X : 'M_1 => X 0 0) Oy. by rewrite mxE [X in _ = X]mxE eqxx big_ord1 !mxE. }
have HC : mx 1 d C = (mx d 1 qa)^T *m mx d d qb by rewrite /C (mx_matmul (proj1 St) Sqb Hd) (mx_transpose 1 (proj1 Sqa)).
have C1 : mx 1 d C *m (mx 1 d C)^T = 1%:M.
{ rewrite {1 2}HC trmx_mul trmxK mulmxA -[_ *m mx d d qb *m _]mulmxA (orth_rows Ob) mulmx1. exact: Oa. }
have Hsc : size c = 1%N by rewrite Sc; apply/minn_idPl.
pose c0 := nth 0 c 0.
have c1 : c0 * c0 = 1.
{ move: EC. set S := \matrix_(i, j) _ => EC.
  have Ey : mx 1 1 y = y0%:M by apply: mx11; rewrite !mxE eqxx mulr1n.
  have H : S *m S^T = 1%:M.
  { rewrite -C1 EC Ey mul_scalar_mx -scalemxAl linearZ /= -scalemxAl -scalemxAr scalerA y1 scale1r trmx_mul !mulmxA.
    by rewrite -(mulmxA S) (orth_rows Oz) mulmx1. }
  have := congr1 (fun X : 'M_1 => X 0 0) H. rewrite mxE [X in _ = X]mxE eqxx => H0. rewrite -[RHS]H0 (bigD1 (Ordinal Hd)) //= !mxE /=.
  rewrite big1 ?addr0 // => k Hk. rewrite !mxE /=. case: eqP => [Ek|_]; last by rewrite mul0r. case/eqP: Hk. exact: val_inj. }
have c01 : c0 = 1.
{ have : 0 <= c0 by apply: Hc; rewrite mem_nth // Hsc. have : (c0 - 1) * (c0 + 1) = 0 by rewrite -subr_sqr expr2 c1 expr1n subrr.
  move/eqP. rewrite mulf_eq0 subr_eq0 => /orP [/eqP //|]. rewrite addr_eq0 => /eqP ->. by rewrite oppr_ge0 ler10. }
have -> : count (fun s : R => `|1 - s| < tol R) c = 1%N.
{ move: Hsc c01. rewrite /c0. case: c {Sc Hc EC c0 c1} => // x [|//] _ /= ->. by rewrite subrr normr0 tol_gt0. }
exists (r0 * y0). split; first by rewrite mulrACA r1 y1 mulr1.
congr Ok. rewrite /matmul. 
apply: (@eq_from_nth _ [::]); first by rewrite !size_map (proj1 Sqa).
move=> j. rewrite !size_map (proj1 Sqa) => Hj. rewrite -map_comp (nth_map [::]) ?(proj1 Sqa) //= (nth_map 0) ?Hw //.
have -> : ncols y = 1%N by rewrite /ncols -nth0; exact: (shape_row Sy).
rewrite (proj1 Sy) /= big_seq1. congr [:: _]. rewrite -/(entry qa j 0) Qw // -/y0. by rewrite mulrAC.
Qed.
End P.
