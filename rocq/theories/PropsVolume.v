(** C41: the volume of a simplex. *)
Set Warnings "-notation-overridden,-ambiguous-paths".
From mathcomp Require Import all_ssreflect all_algebra.
From Verif Require Base ModelCell.
From Verif Require Import SpecNormal SpecAffine ModelAffine PropsAffine ProofsSerPlace ModelNormal ProofsNormal PropsNormal ProofsSvd.
Set Implicit Arguments. Unset Strict Implicit. Unset Printing Implicit Defensive.
Import Order.TTheory GRing.Theory Num.Theory.
Local Open Scope ring_scope.

Section C41.
Variable R : rcfType.
Notation arr := (seq (seq R)).

Lemma Dg_gram d n (s : seq R) : (d <= n)%N -> size s = d ->
  \det ((\matrix_(i < n, j < d) (if i == j :> nat then nth 0 s i else 0))^T *m \matrix_(i < n, j < d) (if i == j :> nat then nth 0 s i else 0)) = (\prod_(x <- s) x) ^+ 2.
Proof.
move=> Hd Hs. set D := \matrix_(i, j) _. have -> : D^T *m D = diag_mx (\row_j (nth 0 s j ^+ 2)).
{ apply/matrixP => i j. rewrite mxE [RHS]mxE (bigD1 (widen_ord Hd i)) //= big1 => [|k Hk].
  - rewrite !mxE /= eqxx addr0 -val_eqE. case: eqP => _; by rewrite ?mulr0 ?mulr1n ?expr2 ?mulr0n.
  - rewrite !mxE. case: eqP => [Hk'|]; last by rewrite mul0r. by move: Hk; rewrite -val_eqE /= Hk' eqxx. }
rewrite det_diag. rewrite -prodrXl (big_nth 0) big_mkord Hs. apply: eq_bigr => j _. by rewrite mxE.
Qed.

Lemma svd_tr m n (M : arr) u s vt (M' : arr) : is_svd m n M (u, s, vt) -> mx n m M' = (mx m n M)^T ->
  is_svd n m M' (rows (mx n n vt)^T, s, rows (mx m m u)^T).
Proof.
move=> [[Hu Hvt Hs Hpos] [Ou Ov E]] E'. split; split.
- exact: rows_shape.
- exact: rows_shape.
- by rewrite minnC.
- by [].
- rewrite mx_rows /orthonormal_columns trmxK. exact: orth_rows.
- rewrite mx_rows /orthonormal_columns trmxK. exact: orth_rows.
- rewrite !mx_rows E' E !trmx_mul mulmxA. congr (_ *m _ *m _). apply/matrixP => i j. rewrite !mxE eq_sym. by case: eqP => // ->.
Qed.

Variable svd : arr -> arr * seq R * arr.
Hypothesis Hsvd : svd_correct svd.

(** [volume]: for d+1 points in n-space, 1 <= d <= 3, d <= n, not too flat, the
    result is the d-dimensional volume: d! times it squares to the Gram
    determinant of the edge vectors. *)
Theorem C41_volume d n (vs : arr) : (0 < d)%N -> (d <= 3)%N -> (d <= n)%N -> has_shape d.+1 n vs ->
  well_conditioned d n (edges_from_first n vs) ->
  let E := mx d n (edges_from_first n vs) in
  exists v, [/\ volume svd vs = Ok v, 0 < v & (d`!%:R * v) ^+ 2 = \det (E *m E^T)].
Proof.
move=> d0 d3 Hdn Hv Hw E. have n0 : (0 < n)%N by apply: leq_trans Hdn.
rewrite /volume (proj1 Hv) /= ltnNge d3 /= (gtn_eqF d0).
have -> : unit_verts R d = unit_simplex R d.
{ by []. }
have Hsv : size vs = size (unit_simplex R d) by rewrite (proj1 Hv) /= size_map size_iota.
have [A [b [-> [HA1 [HA2 Hb]] Hmap _]]] := C19_vertices_to_vertices n0 (C19_unit_simplex R d) Hsv (proj2 Hv).
rewrite /=. have EA : mx n d A = E^T.
{ have S1 : forall k, (k < d)%N -> nth [::] (unit_simplex R d) k.+1 = mkseq (fun j => (j == k)%:R) d.
  { move=> k Hk. by rewrite /= (nth_map 0%N) ?size_iota // nth_iota. }
  have Sz : size (unit_simplex R d) = d.+1 by rewrite /= size_map size_iota.
  apply/matrixP => j k. rewrite !mxE. rewrite (nth_map [::]) ?size_behead ?(proj1 Hv) // nth_mkseq // nth_behead.
  have <- := Hmap k.+1 _; last by rewrite Sz ltnS. have -> : head [::] vs = nth [::] vs 0 by rewrite nth0.
  have <- := Hmap 0%N _; last by rewrite Sz. rewrite S1 // !nth_mkseq ?Hb // size_mkseq size_nseq.
  rewrite (bigD1 k) //= nth_mkseq // eqxx mulr1 big1 ?addr0 => [|l Hl].
  - rewrite big1 ?add0r => [|l _]; last by rewrite nth_nseq; case: ifP; rewrite mulr0. by rewrite addrK.
  - rewrite nth_mkseq //. rewrite (_ : (l == k :> nat) = false) ?mulr0 //. by move/negbTE: Hl. }
have SA : has_shape n d A by split.
move: (Hsvd n0 d0 SA). case: (svd A) => [[u s] vt] K. 
have K' : is_svd d n (edges_from_first n vs) (rows (mx d d vt)^T, s, rows (mx n n u)^T).
{ apply: (svd_tr K). by rewrite EA trmxK. }
have := svd_large K' Hdn Hw => Hc. have Hss : size s = d by have [[_ _ -> _] _] := K; rewrite (minn_idPr Hdn).
have -> : [seq si <- s | tol R < si] = s. { apply/all_filterP. by rewrite all_count Hc Hss. }
exists ((\prod_(x <- s) x) / d`!%:R). have f0 : d`!%:R != 0 :> R by rewrite pnatr_eq0 -lt0n fact_gt0.
split=> //.
- apply: divr_gt0; last by rewrite ltr0n fact_gt0. rewrite big_seq. apply: prodr_gt0 => x Hx. apply: lt_trans (tol_gt0 R) _.
  have : all (fun si => tol R < si) s by rewrite all_count Hc Hss. by move/allP; apply.
- rewrite mulrC divfK // -(Dg_gram Hdn Hss). have [_ [Ou Ov EM]] := K.
  have -> : E = (mx n d A)^T by rewrite EA trmxK. rewrite trmxK EM. move: (\matrix_(i, j) _) => D.
  rewrite !trmx_mul !mulmxA -(mulmxA _ _ (mx n n u)) Ou mulmx1 -(mulmxA _ D^T) !det_mulmx det_tr.
  have Hd1 : \det (mx d d vt) * \det (mx d d vt) = 1 by rewrite -{1}det_tr -det_mulmx Ov det1.
  by rewrite mulrAC Hd1 mul1r.
Qed.
End C41.
