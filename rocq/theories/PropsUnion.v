(** C49: the union of two polynomial sets. *)
Set Warnings "-notation-overridden,-ambiguous-paths".
From mathcomp Require Import all_ssreflect all_fingroup all_algebra zify.
From Verif Require Base.
From Verif Require Import ModelDual SpecDual ProofsDual ModelNormal SpecNormal ProofsNormal ProofsSvd ModelRT ProofsUnion.
Set Implicit Arguments. Unset Strict Implicit. Unset Printing Implicit Defensive.
Import Order.TTheory GRing.Theory Num.Theory.
Local Open Scope ring_scope.

Section C49.
Variable R : rcfType.
Variable P : eqType.
Notation arr := (seq (seq R)).
(** [f] agrees with a linear combination of members of [A] and of [B] in all the
    components of the shape, with all derivatives *)
Definition in_union_span (E : expansion R P) (A B : polyset R) (f : func R P) : Prop :=
  exists a b : nat -> R, forall cc, cc \in comps (pshape A) ->
    (forall x, fval f cc x = \sum_(j < num_members A) a j * fval (member E A j) cc x + \sum_(j < num_members B) b j * fval (member E B j) cc x) /\
    (forall al x, fder f cc al x = \sum_(j < num_members A) a j * fder (member E A j) cc al x + \sum_(j < num_members B) b j * fder (member E B j) cc al x).
Definition in_span (E : expansion R P) (U : polyset R) (f : func R P) : Prop :=
  exists a : nat -> R, forall cc, cc \in comps (pshape U) ->
    (forall x, fval f cc x = \sum_(j < num_members U) a j * fval (member E U j) cc x) /\
    (forall al x, fder f cc al x = \sum_(j < num_members U) a j * fder (member E U j) cc al x).
(** numpy.linalg.svd returns the singular values in descending order *)
Definition svd_sorted (svd : arr -> arr * seq R * arr) : Prop := forall M, sorted (fun x y : R => y <= x) (svd M).1.2.

Variables (svd : arr -> arr * seq R * arr) (E : expansion R P) (A B : polyset R).
Hypothesis Hsvd : svd_correct svd.
Hypothesis HAB : pshape A = pshape B.
Hypothesis m0 : (0 < num_members A + num_members B)%N.
Hypothesis n0 : (0 < size (comps (pshape A)) * nexp E)%N.
Notation m := (num_members A + num_members B)%N.
Notation n := (size (comps (pshape A)) * nexp E)%N.

Lemma expand_lin (cc : seq nat) p (r : rowT R) (a : nat -> R) (q : nat -> rowT R) :
  (forall k, (k < nexp E)%N -> r cc k = \sum_(j < p) a j * q j cc k) ->
  (forall x, fval (expand E r) cc x = \sum_(j < p) a j * fval (expand E (q j)) cc x) /\
  (forall al x, fder (expand E r) cc al x = \sum_(j < p) a j * fder (expand E (q j)) cc al x).
Proof.
move=> H. split=> [x|al x] /=.
- rewrite (eq_bigr (fun k : 'I_(nexp E) => \sum_(j < p) a j * (q j cc k * phi E k x))); last by move=> k _; rewrite H // mulr_suml; apply: eq_bigr => j _; rewrite mulrA.
  rewrite exchange_big /=. apply: eq_bigr => j _. by rewrite mulr_sumr.
- rewrite (eq_bigr (fun k : 'I_(nexp E) => \sum_(j < p) a j * (q j cc k * dphi E al k x))); last by move=> k _; rewrite H // mulr_suml; apply: eq_bigr => j _; rewrite mulrA.
  rewrite exchange_big /=. apply: eq_bigr => j _. by rewrite mulr_sumr.
Qed.
Lemma row_split (T : nat -> R) (g : rowT R -> R) : \sum_(l < m) T l * g (row_of A B l) =
  \sum_(j < num_members A) T j * g (coeffs A j) + \sum_(j < num_members B) T (num_members A + j)%N * g (coeffs B j).
Proof.
rewrite big_split_ord /=. congr (_ + _); apply: eq_bigr => j _; first by rewrite /row_of ltn_ord.
by rewrite /row_of ltnNge leq_addr /= addKn.
Qed.

(** The construction returns members whose coefficient arrays are orthonormal;
    there are at most [dim A + dim B] of them. *)
Theorem C49_union_orthonormal : exists U, [/\ union_normalized svd (nexp E) A B = Ok U, pshape U = pshape A, (num_members U <= m)%N &
  forall i j, (i < num_members U)%N -> (j < num_members U)%N ->
    \sum_(cc <- comps (pshape U)) \sum_(k < nexp E) coeffs U i cc k * coeffs U j cc k = (i == j)%:R].
Proof.
have [U [HU H1 H2 _]] := union_ok svd (nexp E) HAB. exists U. split=> //; last by move=> i j Hi Hj; rewrite H1; exact: (U_orth Hsvd HAB m0 n0 HU).
rewrite H2. apply: (leq_trans (sing_count Hsvd HAB m0 n0)). exact: geq_minl.
Qed.
(** Every member of the union lies in span A + span B. *)
Theorem C49_union_members U : svd_sorted svd -> union_normalized svd (nexp E) A B = Ok U -> forall j, (j < num_members U)%N -> in_union_span E A B (member E U j).
Proof.
move=> Hso HU j Hj. have [a Ha] := U_members Hsvd HAB m0 n0 HU (Hso _) Hj. exists a, (fun j => a (num_members A + j)%N) => cc Hcc.
have [H1 H2] := @expand_lin cc _ (coeffs U j) a (row_of A B) (fun k Hk => Ha cc k Hcc Hk). split=> [x|al x].
- rewrite [LHS]H1. exact: (row_split a (fun r => fval (expand E r) cc x)).
- rewrite [LHS]H2. exact: (row_split a (fun r => fder (expand E r) cc al x)).
Qed.
Lemma row_in_span U : union_normalized svd (nexp E) A B = Ok U -> svd_sorted svd -> (forall s, s \in (svd (union_rows (nexp E) A B)).1.2 -> s = 0 \/ tol R < s) ->
  forall l, (l < m)%N -> in_span E U (expand E (row_of A B l)).
Proof.
move=> HU Hso Hgap l Hl. have [HU1 HU2 _] := U_spec HAB HU.
have Hz : forall j, (num_members U <= j < minn m n)%N -> nth 0 (sing svd (nexp E) A B) j = 0.
{ move=> j /andP [Hj1 Hj2]. move: Hj1. rewrite HU2. move: Hgap (Hso (union_rows (nexp E) A B)). have := rows_svd Hsvd HAB m0 n0.
  rewrite /sing. case: (svd _) => [[u s] vt] /= [[_ _ Hs Hp] _] Hgap Hs' Hj1. rewrite -Hs in Hj2. clear -Hgap Hs' Hj1 Hj2 Hp.
  case: (Hgap _ (mem_nth 0 Hj2)) => // Hlt. exfalso. move: Hj1. apply/negP. rewrite -ltnNge.
  elim: s Hs' j Hj2 Hlt Hp {Hgap} => [|x l IH] //= Hso [|j] /= Hj Hlt Hp.
  - by rewrite ger0_norm ?Hp ?inE ?eqxx // Hlt.
  - have Hx : nth 0 l j <= x. { have := order_path_min (fun y z w (H1 : y <= z) (H2 : w <= y) => le_trans H2 H1) Hso. move/allP/(_ _ (mem_nth 0 Hj)). by []. }
    rewrite ger0_norm ?Hp ?inE ?eqxx // (lt_le_trans Hlt Hx) add1n ltnS. apply: IH => //; first exact: (path_sorted Hso).
    move=> y Hy. apply: Hp. by rewrite inE Hy orbT. }
have [a Ha] := U_rows Hsvd HAB m0 n0 HU erefl Hz Hl. exists a => cc. rewrite HU1 => Hcc.
exact: (@expand_lin cc _ (row_of A B l) a (coeffs U) (fun k Hk => Ha cc k Hcc Hk)).
Qed.
(** If no singular value of the stacked coefficients lies in (0, 1e-10], every
    member of A and of B is a combination of the members of the union: the
    spans agree. *)
Theorem C49_union_span U : svd_sorted svd -> union_normalized svd (nexp E) A B = Ok U -> (forall s, s \in (svd (union_rows (nexp E) A B)).1.2 -> s = 0 \/ tol R < s) ->
  (forall j, (j < num_members A)%N -> in_span E U (member E A j)) /\ (forall j, (j < num_members B)%N -> in_span E U (member E B j)).
Proof.
move=> Hso HU Hgap. split=> j Hj.
- have := row_in_span HU Hso Hgap (leq_trans Hj (leq_addr _ _)). by rewrite /row_of Hj.
- have Hl : (num_members A + j < m)%N by rewrite ltn_add2l. have := row_in_span HU Hso Hgap Hl. by rewrite /row_of ltnNge leq_addr /= addKn.
Qed.
(** The number of members is dim A + dim B exactly when the members of A and B
    together are linearly independent with a margin. *)
Theorem C49_union_dimension U : (m <= n)%N -> union_normalized svd (nexp E) A B = Ok U -> (num_members U = m <-> well_conditioned m n (union_rows (nexp E) A B)).
Proof. move=> Hmn HU. exact: (U_full_iff Hsvd HAB m0 n0 HU Hmn). Qed.
End C49.

(** The documented promise, "span is the same as that of span(A) union span(B)",
    fails for sets of small members: with any correct svd, the union of twice
    the set {eps phi_0}, 0 < eps <= 1e-10 / 2, is empty. *)
Theorem C49_union_same_span_refuted (R : rcfType) (P : eqType) (E : expansion R P) : nexp E = 1%N -> exists A : polyset R,
  [/\ num_members A = 1%N, pshape A = [::], coeffs A 0%N [::] 0%N != 0 &
   forall svd, svd_correct svd -> exists U, union_normalized svd (nexp E) A A = Ok U /\ num_members U = 0%N].
Proof.
move=> HE. have T0 := tol_gt0 R.
have [e e0 He] : exists2 e : R, e != 0 & e ^+ 2 + e ^+ 2 <= tol R ^+ 2.
{ move: (tol R) T0 => T T0. exists (T / 2%:R); first by rewrite mulf_neq0 ?gt_eqF // invr_gt0 ltr0n.
  rewrite exprMn -mulrDr ler_pimulr ?sqr_ge0 // exprVn. have -> : 2%:R ^+ 2 = 4%:R :> R by rewrite -natrX.
  rewrite -mulr2n -[X in X *+ _]mul1r -mulrnAl ler_pdivr_mulr ?ltr0n // mul1r ler_nat. by []. }
exists (mkPolySet 1 [::] (fun _ _ _ => e)). split=> //.
move=> svd Hsvd. set A := mkPolySet _ _ _. have [U [HU _ H2 _]] := @union_ok R svd (nexp E) A A erefl. exists U. split=> //. rewrite H2.
have D := @rows_svd R svd (nexp E) A A Hsvd erefl isT. rewrite HE in D. have D1 := D isT. clear HU H2 D. move: D1. rewrite HE /sing.
move: (tol R) T0 He => T T0 He.
case: (svd _) => [[u s] vt] [[Hu Hvt Hs Hp] [Ou Ov EM]]. have Hs1 : size s = 1%N by rewrite Hs.
case: s Hs1 Hp EM {Hs} => [|s0 [|]] // _ Hp EM. have s0p : 0 <= s0 by apply: Hp; rewrite inE.
suff H : s0 ^+ 2 = e ^+ 2 + e ^+ 2.
{ rewrite /= ltNge. suff -> : `|s0| <= T by []. rewrite ger0_norm // -ler_sqr ?nnegrE ?(ltW T0) // H. exact: He. }
set S := (\matrix_(i < 2, j < 1) _) in EM.
have := congr1 (fun X : 'M_(2, 1) => (X^T *m X) 0 0) EM. rewrite !trmx_mul !mulmxA -[_ *m (mx 2 2 u)^T *m _]mulmxA Ou mulmx1.
rewrite [X in _ = fun_of_matrix X _ _](_ : _ = (s0 ^+ 2)%:M); last first.
{ rewrite -[_ *m S^T *m S]mulmxA. have -> : (S^T *m S) = (s0 ^+ 2)%:M. { apply/matrixP => i j. rewrite !ord1 !mxE big_ord_recl big_ord1 !mxE /= mulr0 addr0 mulr1n expr2. by []. }
  by rewrite -scalemx1 -scalemxAr mulmx1 -scalemxAl Ov. }
rewrite [RHS]mxE eqxx mulr1n => <-. rewrite mxE big_ord_recl big_ord1 !mxE /= !expr2. by [].
Qed.

(** The hypotheses are met: an exact svd with sorted singular values exists, and
    the union of {phi_0} and {phi_1} computed with it has two members. *)
Section Sorted.
Variable R : rcfType.
Notation arr := (seq (seq R)).
Lemma svd_sort m n (A : 'M[R]_(m, n)) : exists U V s, [/\ U^T *m U = 1%:M, V^T *m V = 1%:M, (forall k, 0 <= s k), (forall k, (k.+1 < minn m n)%N -> s k.+1 <= s k) & A = U *m Dg m n s *m V].
Proof.
have [U [V [s [HU HV Hs E]]]] := svd_exists A. set k := minn m n.
pose t := [tuple s i | i < k]. pose t' := sort_tuple (fun x y : R => y <= x) t.
have /tuple_permP [sg Hsg] : perm_eq t' t by rewrite perm_sort.
pose g i := if insub i is Some i' then val (sg (i' : 'I_k)) else i.
have gE (i : 'I_k) : g i = sg i by rewrite /g valK.
have gG i : (k <= i)%N -> g i = i by move=> Hi; rewrite /g insubF // ltnNge Hi.
have gi : injective g.
{ have gE' i (Hi : (i < k)%N) : g i = sg (Ordinal Hi) by exact: (gE (Ordinal Hi)).
  move=> i j. case: (ltnP i k) => Hi; case: (ltnP j k) => Hj.
  - rewrite (gE' _ Hi) (gE' _ Hj) => /val_inj /perm_inj H. exact: (congr1 val H).
  - rewrite (gE' _ Hi) (gG _ Hj) => Eij. by have := ltn_ord (sg (Ordinal Hi)); rewrite Eij ltnNge Hj.
  - rewrite (gE' _ Hj) (gG _ Hi) => Eij. by have := ltn_ord (sg (Ordinal Hj)); rewrite -Eij ltnNge Hi.
  - by rewrite !gG. }
have gl d (i : 'I_d) : (k <= d)%N -> (g i < d)%N.
{ move=> Hd. case: (ltnP i k) => Hi; last by rewrite gG. have -> : g i = sg (Ordinal Hi) by exact: (gE (Ordinal Hi)). exact: leq_trans (ltn_ord _) Hd. }
have Hm : (k <= m)%N by exact: geq_minl. have Hn : (k <= n)%N by exact: geq_minr.
pose fm (i : 'I_m) := Ordinal (gl m i Hm). pose fn (i : 'I_n) := Ordinal (gl n i Hn).
have fmi : injective fm by move=> i j /(congr1 val) /gi /val_inj. have fni : injective fn by move=> i j /(congr1 val) /gi /val_inj.
exists (\matrix_(i, j) U i (fm j)), (\matrix_(i, j) V (fn i) j), (fun i => s (g i)). split.
- apply/matrixP => i j. have := congr1 (fun X : 'M_m => X (fm i) (fm j)) HU. rewrite !mxE (inj_eq fmi) => <-. apply: eq_bigr => a _. by rewrite !mxE.
- apply: mulmx1C. apply/matrixP => i j. have := congr1 (fun X : 'M_n => X (fn i) (fn j)) (mulmx1C HV). rewrite !mxE (inj_eq fni) => <-. apply: eq_bigr => a _. by rewrite !mxE.
- by move=> i; exact: Hs.
- move=> i Hi. have Hi' : (i < k)%N := ltnW Hi. have Hst : sorted (fun x y : R => y <= x) t' by apply: sort_sorted => x y; exact: le_total.
  have En j (Hj : (j < k)%N) : s (g j) = nth 0 t' j.
  { have -> : g j = sg (Ordinal Hj) by exact: (gE (Ordinal Hj)). rewrite Hsg. have := nth_mktuple (fun i => tnth t (sg i)) 0 (Ordinal Hj). rewrite tnth_mktuple => H. exact: esym H. }
  rewrite (En _ Hi) (En _ Hi'). have Htr : transitive (fun x y : R => y <= x) by move=> y z w H1 H2; exact: le_trans H2 H1.
  apply: (sorted_leq_nth Htr) => //; rewrite ?inE ?size_tuple //.
- rewrite [LHS]E. apply/matrixP => i j. rewrite !mxE (reindex_inj fni) /=. apply: eq_bigr => b _. rewrite [X in _ = _ * X]mxE. congr (_ * _).
  rewrite !mxE (reindex_inj fmi) /=. apply: eq_bigr => a _. rewrite !mxE. congr (_ * _). by rewrite /= (inj_eq gi).
Qed.
Lemma svds_ex (M : arr) : exists d, svdb (size M) (size (head [::] M)) M d && sorted (fun x y : R => y <= x) d.1.2.
Proof.
set m := size M. set n := size _. have [U [V [s [HU HV Hs Hso E]]]] := svd_sort (mx m n M).
exists (rows U, mkseq s (minn m n), rows V). apply/andP; split.
- rewrite /svdb !mx_rows HU HV !eqxx size_mkseq eqxx /=.
  have -> : shapeb m m (rows U) by apply/shapeP/ProofsSvd.rows_shape. have -> : shapeb n n (rows V) by apply/shapeP/ProofsSvd.rows_shape.
  rewrite /=. apply/andP; split; first by apply/allP => x /mapP [k _ ->].
  apply/eqP. rewrite [LHS]E. congr (_ *m _ *m _). apply/matrixP => i j. rewrite !mxE. case: eqP => // Hij.
  rewrite nth_mkseq // leq_min ltn_ord /= Hij ltn_ord //.
- apply/(sortedP 0) => k. rewrite size_mkseq => Hk /=. rewrite !nth_mkseq //; last exact: ltnW. exact: Hso.
Qed.
Definition svd1 (M : arr) : arr * seq R * arr := xchoose (svds_ex M).
Lemma svd1_correct : svd_correct svd1.
Proof. move=> m n M Hm _ Hs. apply: svdb_is. have [-> ->] := shape_dims Hm Hs. by case/andP: (xchooseP (svds_ex M)). Qed.
Lemma svd1_sorted : svd_sorted svd1.
Proof. move=> M. by case/andP: (xchooseP (svds_ex M)). Qed.
End Sorted.
Example C49_example (R : rcfType) : exists U, [/\ svd_correct (@svd1 R), svd_sorted (@svd1 R),
  union_normalized (@svd1 R) 2 (mkPolySet 1 [::] (fun _ _ k => (k == 0%N)%:R)) (mkPolySet 1 [::] (fun _ _ k => (k == 1%N)%:R)) = Ok U & num_members U = 2%N].
Proof.
set A := mkPolySet _ _ _. set B := mkPolySet _ _ _. have [U [HU _ _ _]] := @union_ok R (@svd1 R) 2 A B erefl. exists U.
split=> //; [exact: svd1_correct|exact: svd1_sorted|].
apply: (proj2 (@U_full_iff R (@svd1 R) 2 A B (@svd1_correct R) erefl isT isT U HU isT)) => x Hx.
have -> : mx 2 2 (union_rows 2 A B) = 1%:M.
{ apply/matrixP => i j. rewrite !mxE. case: i => [[|[|i]] Hi] //; case: j => [[|[|j]] Hj] //. }
rewrite mulmx1 Hx mxE eqxx mulr1n. rewrite invf_lt1 ?exprn_gt0 ?ltr0n // -exprM. apply: exprn_egt1 => //. by rewrite ltr1n.
Qed.
Print Assumptions C49_union_orthonormal.
Print Assumptions C49_union_members.
Print Assumptions C49_union_span.
Print Assumptions C49_union_dimension.
Print Assumptions C49_union_same_span_refuted.
