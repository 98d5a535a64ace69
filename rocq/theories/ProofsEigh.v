(** Every symmetric matrix has an ascending orthogonal eigendecomposition. *)
Set Warnings "-notation-overridden,-ambiguous-paths".
From mathcomp Require Import all_ssreflect all_algebra all_fingroup.
From mathcomp Require Import complex.
From Verif Require Base.
From Verif Require Import FieldTac SpecGauss ProofsSvd.
Set Implicit Arguments. Unset Strict Implicit. Unset Printing Implicit Defensive.
Import Order.TTheory GRing.Theory Num.Theory.
Local Open Scope ring_scope.

Section E.
Variable R : rcfType.
Lemma sym_upper_sym n (A : 'M[R]_n) : (sym_upper A)^T = sym_upper A.
Proof.
apply/matrixP => i j. rewrite !mxE. case: (ltngtP i j) => // E. by rewrite (val_inj E).
Qed.
Lemma spectral n : forall S : 'M[R]_n, S^T = S -> exists (x : 'rV[R]_n) (V : 'M[R]_n), S *m V = V *m diag_mx x /\ V^T *m V = 1%:M.
Proof.
elim: n => [|n IH] S HS.
{ exists 0, 1%:M. by split; rewrite [LHS]thinmx0 [RHS]thinmx0. }
have [l [v [Hv Hl]]] := sym_eig HS. have [Q [HQ Qv]] := house Hv. have Q' := mulmx1C HQ.
pose B : 'M_(1 + n) := Q *m S *m Q^T.
have Bsym : B^T = B by rewrite /B !trmx_mul trmxK HS mulmxA.
have Brow : row 0 B = l *: delta_mx 0 0.
{ rewrite /B !row_mul Qv Hl -scalemxAl -Qv -row_mul HQ rowE mulmx1 //. }
have Bcol : col 0 B = l *: delta_mx 0 0 by rewrite -[LHS]trmxK tr_col Bsym Brow linearZ /= trmx_delta.
have ES : S = Q^T *m B *m Q by rewrite /B !mulmxA Q' mul1mx -mulmxA Q' mulmx1.
have EB : B = block_mx l%:M 0 0 (drsubmx B).
{ clear ES Bsym. move: B Brow Bcol => B Brow Bcol. rewrite -[LHS]submxK. congr block_mx; apply/matrixP => i j; rewrite !mxE ?ord1 ?mulr1n.
  - have := congr1 (fun X : 'rV_n.+1 => X 0 0) Brow. rewrite !mxE eqxx mulr1 => <-. congr (B _ _); exact: val_inj.
  - have := congr1 (fun X : 'rV_n.+1 => X 0 (rshift 1 j)) Brow. rewrite !mxE /= mulr0 => <-. congr (B _ _); exact: val_inj.
  - have := congr1 (fun X : 'cV_n.+1 => X (rshift 1 i) 0) Bcol. rewrite !mxE /= mulr0 => <-. congr (B _ _); exact: val_inj. }
have Dsym : (drsubmx B)^T = drsubmx B by rewrite trmx_drsub Bsym.
have [x [V [EV OV]]] := IH (drsubmx B) Dsym.
clearbody B.
pose V2 : 'M_(1 + n) := block_mx 1%:M 0 0 V. pose x2 : 'rV_(1 + n) := row_mx l%:M x.
exists x2, (Q^T *m V2). split.
- rewrite ES. have -> : Q^T *m B *m Q *m (Q^T *m V2) = Q^T *m (B *m V2).
  { rewrite -!mulmxA. congr (_ *m (_ *m _)). by rewrite mulmxA HQ mul1mx. }
  rewrite -mulmxA. congr (_ *m _). have Dx : diag_mx x2 = block_mx (diag_mx l%:M) 0 0 (diag_mx x) by exact: diag_mx_row.
  rewrite [diag_mx x2]Dx EB /V2.
  have Hm : (block_mx l%:M 0 0 (drsubmx B) : 'M_(1 + n)) *m (block_mx 1%:M 0 0 V : 'M_(1 + n)) =
    (block_mx 1%:M 0 0 V : 'M_(1 + n)) *m (block_mx (diag_mx l%:M) 0 0 (diag_mx x) : 'M_(1 + n)).
  { rewrite !mulmx_block !mulmx0 !mul0mx !addr0 !add0r mul1mx mulmx1 EV. congr (block_mx _ _ _ _).
    apply/matrixP => i j. rewrite !ord1 !mxE eqxx //. }
  exact: Hm.
- have Hm : (block_mx 1%:M 0 0 V : 'M_(1 + n))^T *m (block_mx 1%:M 0 0 V : 'M_(1 + n)) = 1%:M.
  { rewrite tr_block_mx !trmx0 trmx1 mulmx_block !mulmx0 !mul0mx !mulmx1 !addr0 !add0r OV -scalar_mx_block //. }
  rewrite trmx_mul trmxK mulmxA -(mulmxA V2^T) HQ mulmx1. exact: Hm.
Qed.
Lemma spectral_sorted n (S : 'M[R]_n) : S^T = S -> exists (x : 'rV[R]_n) (V : 'M[R]_n),
  [/\ S *m V = V *m diag_mx x, V^T *m V = 1%:M & forall i j : 'I_n, (i <= j)%N -> x 0 i <= x 0 j].
Proof.
move=> HS. have [x [V [EV OV]]] := spectral HS.
pose t : n.-tuple R := [tuple x 0 i | i < n].
have [s Es] := tuple_permP (permEl (perm_sort <=%O t)).
have Hs (i : 'I_n) : nth 0 (sort <=%O t) i = x 0 (s i).
{ rewrite Es -(tnth_nth 0 (mktuple (fun i => tnth t (s i)))) !tnth_mktuple //. }
exists (\row_i x 0 (s i)), (\matrix_(i, j) V i (s j)). split.
- apply/matrixP => i j. rewrite mul_mx_diag !mxE.
  have := congr1 (fun M : 'M_n => M i (s j)) EV. rewrite mul_mx_diag !mxE => <-. apply: eq_bigr => k _. by rewrite !mxE.
- apply/matrixP => i j. rewrite !mxE. have := congr1 (fun M : 'M_n => M (s i) (s j)) OV. rewrite !mxE (inj_eq perm_inj) => <-.
  apply: eq_bigr => k _. by rewrite !mxE.
- move=> i j Hij. rewrite !mxE -!Hs. have T : transitive (<=%O : rel R) by exact: le_trans.
  have Rf : reflexive (<=%O : rel R) by move=> y; exact: lexx.
  have So : sorted (<=%O : rel R) (sort <=%O t) by apply: sort_sorted; exact: le_total.
  apply: (sorted_leq_nth T Rf 0 So) => //; by rewrite inE size_sort size_tuple.
Qed.
Definition eighb n (A : 'M[R]_n) (d : 'rV[R]_n * 'M[R]_n) : bool :=
  [&& sym_upper A *m d.2 == d.2 *m diag_mx d.1, d.2^T *m d.2 == 1%:M & [forall i : 'I_n, forall j : 'I_n, (i <= j)%N ==> (d.1 0 i <= d.1 0 j)]].
Lemma eighb_ex n (A : 'M[R]_n) : exists d, eighb A d.
Proof.
have [x [V [E O S]]] := spectral_sorted (sym_upper_sym A). exists (x, V). apply/and3P. split; [exact/eqP|exact/eqP|].
apply/forallP => i. apply/forallP => j. apply/implyP. exact: S.
Qed.
Definition eigh0 n (A : 'M[R]_n) := xchoose (eighb_ex A).
(** the hypothesis [eigh_correct] can be met *)
Theorem eigh0_correct : eigh_correct eigh0.
Proof.
move=> n A. have /and3P [/eqP E /eqP O S] := xchooseP (eighb_ex A). split=> // i j.
by have /forallP/(_ i)/forallP/(_ j)/implyP := S.
Qed.
End E.
