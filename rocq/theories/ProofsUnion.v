(** The union of two polynomial sets by singular values. *)
Set Warnings "-notation-overridden,-ambiguous-paths".
From mathcomp Require Import all_ssreflect all_algebra zify.
From Verif Require Base.
From Verif Require Import ModelDual SpecDual ProofsDual ModelNormal SpecNormal ProofsNormal ModelRT.
Set Implicit Arguments. Unset Strict Implicit. Unset Printing Implicit Defensive.
Import Order.TTheory GRing.Theory Num.Theory.
Local Open Scope ring_scope.

Section Un.
Variable R : rcfType.
Notation arr := (seq (seq R)).
(** flattened coefficients *)
Lemma flatten_blocks (T : Type) (x0 : T) (L : seq nat) (b : nat) (f : nat -> nat -> T) q : (q < size L * b)%N ->
  nth x0 (flatten [seq [seq f c k | k <- iota 0 b] | c <- L]) q = f (nth 0%N L (q %/ b)) (q %% b)%N.
Proof.
elim: L q => [|c L IH] q //=. rewrite mulSn nth_cat size_map size_iota => Hq.
have b0 : (0 < b)%N by case: b Hq {IH} => //; rewrite muln0.
case: ltnP => Hqb; first by rewrite (nth_map 0%N) ?size_iota // nth_iota // divn_small // modn_small.
rewrite IH; last lia. have E : q = (q - b + b)%N by rewrite subnK. rewrite {3 4}E divnDr ?dvdnn // divnn b0 addn1 /= modnDr. by [].
Qed.
Lemma flat_size n (U : polyset R) j : size (flat n U j) = (size (comps (pshape U)) * n)%N.
Proof. rewrite /flat. elim: (comps _) => [|c l IH] //=. by rewrite size_cat IH size_map size_iota mulSn. Qed.
Lemma flat_nth n (U : polyset R) j i k : (i < size (comps (pshape U)))%N -> (k < n)%N ->
  nth 0 (flat n U j) (i * n + k) = coeffs U j (nth [::] (comps (pshape U)) i) k.
Proof.
rewrite /flat. elim: (comps _) i => [|c l IH] [|i] //= Hi Hk; rewrite nth_cat size_map size_iota.
- by rewrite mul0n add0n Hk (nth_map 0%N) ?size_iota // nth_iota.
- rewrite mulSn -addnA ltnNge leq_addr /= addKn. exact: IH.
Qed.
Definition row_of (A B : polyset R) (j : nat) : seq nat -> nat -> R :=
  if (j < num_members A)%N then coeffs A j else coeffs B (j - num_members A)%N.
Lemma rows_shape n (A B : polyset R) : pshape A = pshape B -> has_shape (num_members A + num_members B) (size (comps (pshape A)) * n) (union_rows n A B).
Proof.
move=> E. split; first by rewrite size_cat !size_map !size_iota.
move=> r. rewrite mem_cat => /orP [] /mapP [j _ ->]; rewrite flat_size ?E //.
Qed.
Lemma rows_nth n (A B : polyset R) j i k : pshape A = pshape B -> (j < num_members A + num_members B)%N -> (i < size (comps (pshape A)))%N -> (k < n)%N ->
  entry (union_rows n A B) j (i * n + k) = row_of A B j (nth [::] (comps (pshape A)) i) k.
Proof.
move=> E Hj Hi Hk. rewrite /entry /union_rows nth_cat size_map size_iota /row_of. case: ltnP => H.
- by rewrite (nth_map 0%N) ?size_iota // nth_iota // flat_nth.
- rewrite (nth_map 0%N) ?size_iota; last lia. rewrite nth_iota; last lia. by rewrite add0n flat_nth ?E // -E.
Qed.
Lemma comp_index (shp : seq nat) i : (i < size (comps shp))%N -> uniq (comps shp) -> index (nth [::] (comps shp) i) (comps shp) = i.
Proof. move=> Hi Hu. exact: index_uniq. Qed.

Section Svd.
Variables (m n : nat) (M : arr) (u : arr) (s : seq R) (vt : arr).
Hypothesis HD : is_svd m n M (u, s, vt).
Notation S := (\matrix_(i < m, j < n) (if i == j :> nat then nth 0 s i else 0)).
Lemma sv_abs : count (fun x => tol R < `|x|) s = count (fun x => tol R < x) s.
Proof. case: HD => [[_ _ _ Hp] _]. apply: eq_in_count => x Hx. by rewrite ger0_norm // Hp. Qed.
Lemma sv_cond : (m <= n)%N -> count (fun x => tol R < `|x|) s = m <-> well_conditioned m n M.
Proof.
move=> Hmn. rewrite sv_abs. split; last exact: (svd_large HD).
case: HD => [[Hu Hvt Hs Hp] [Ou Ov E]]. rewrite (minn_idPl Hmn) in Hs. rewrite -[X in _ = X -> _]Hs => Hc x Hx.
have Hall l : (l < m)%N -> tol R < nth 0 s l.
{ move=> Hl. have /allP H : all (fun x => tol R < x) s by rewrite all_count Hc. apply: H. by rewrite mem_nth // Hs. }
pose y := x *m mx m m u.
have Hy : y *m y^T = 1%:M. { rewrite /y trmx_mul mulmxA -[X in X *m _]mulmxA. have -> : mx m m u *m (mx m m u)^T = 1%:M := mulmx1C Ou. by rewrite mulmx1. }
have -> : x *m mx m n M = y *m S *m mx n n vt by rewrite E !mulmxA.
rewrite trmx_mul mulmxA -[_ *m mx n n vt *m _]mulmxA. have -> : mx n n vt *m (mx n n vt)^T = 1%:M := mulmx1C Ov. rewrite mulmx1 trmx_mul.
have -> : (y *m S *m (S^T *m y^T)) 0 0 = \sum_(l < m) (nth 0 s l) ^+ 2 * (y 0 l) ^+ 2.
{ rewrite -trmx_mul mxE. have YS (j : 'I_n) : (y *m S) 0 j = if insub (val j) is Some l then y 0 (l : 'I_m) * nth 0 s l else 0.
  { rewrite mxE. case: insubP => [l Hl El|Hl].
    - rewrite (bigD1 l) //= [X in _ * X + _]mxE El eqxx big1 ?addr0 // => k Hk. rewrite [X in _ * X]mxE. case: ifP => [/eqP Ek|_]; last by rewrite mulr0.
      case/eqP: Hk. apply: val_inj. by rewrite El.
    - rewrite big1 // => k _. rewrite [X in _ * X]mxE. case: ifP => [/eqP Ek|_]; last by rewrite mulr0. by move: Hl; rewrite /= -Ek ltn_ord. }
  rewrite (eq_bigr (fun j : 'I_n => (if insub (val j) is Some l then y 0 (l : 'I_m) * nth 0 s l else 0) ^+ 2)); last by move=> j _; rewrite [_^T _ _]mxE YS expr2.
  rewrite -(big_mkord xpredT (fun j => (if insub j is Some l then y 0 (l : 'I_m) * nth 0 s l else 0) ^+ 2)) (big_cat_nat _ _ _ (leq0n m) Hmn) /= [X in _ + X]big_nat_cond [X in _ + X]big1 ?addr0.
  - rewrite big_mkord. apply: eq_bigr => l _. by rewrite valK exprMn mulrC.
  - move=> j /andP [/andP [Hj _] _]. rewrite insubF ?expr0n //. by apply/negbTE; rewrite -leqNgt. }
have T0 := tol_gt0 R. have Et : (10 ^+ 10) ^- 2 = (tol R) ^+ 2 :> R by rewrite /tol exprVn. rewrite Et.
have E1 : \sum_(l < m) (y 0 l) ^+ 2 = 1.
{ have := congr1 (fun A : 'M_1 => A 0 0) Hy. rewrite mxE [X in _ = X]mxE eqxx => H. rewrite -[RHS]H. apply: eq_bigr => l _. by rewrite [y^T _ _]mxE expr2. }
have [l Hl] : exists l : 'I_m, y 0 l != 0.
{ apply/existsP. rewrite -[X in is_true X]negbK negb_exists. apply/negP => /forallP H. have := E1. rewrite big1 => [/esym /eqP|l _]; first by rewrite oner_eq0.
  move: (H l). rewrite negbK => /eqP ->. by rewrite expr0n. }
rewrite -[X in X < _]mulr1 -E1 mulr_sumr. rewrite (bigD1 l) //= [X in _ < X](bigD1 l) //=.
apply: ltr_le_add.
- rewrite ltr_pmul2r; last by rewrite lt_def sqrf_eq0 Hl sqr_ge0. by rewrite ltr_sqr ?nnegrE ?Hall // ltW // (lt_trans T0 (Hall _ _)).
- apply: ler_sum => k _. apply: ler_wpmul2r; first exact: sqr_ge0. by rewrite ler_sqr ?nnegrE ?ltW ?Hall // (lt_trans T0 (Hall _ _)).
Qed.
(** with all singular values kept, the leading right singular vectors span the rows *)
Lemma sv_rows : (m <= n)%N -> count (fun x => tol R < `|x|) s = m ->
  exists A : 'M[R]_m, [/\ A \in unitmx, mx m n M = A *m mx m n vt & mx m n vt *m (mx m n vt)^T = 1%:M].
Proof.
move=> Hmn. rewrite sv_abs. case: HD => [[Hu Hvt Hs Hp] [Ou Ov E]]. rewrite (minn_idPl Hmn) in Hs. rewrite -[X in _ = X -> _]Hs => Hc.
have Hall l : (l < m)%N -> 0 < nth 0 s l.
{ move=> Hl. have /allP H : all (fun x => tol R < x) s by rewrite all_count Hc. apply: (lt_trans (tol_gt0 R)). apply: H. by rewrite mem_nth // Hs. }
pose D : 'M[R]_m := diag_mx (\row_l nth 0 s l).
have EV : S *m mx n n vt = D *m mx m n vt.
{ apply/matrixP => i j. rewrite mul_diag_mx !mxE. have Hi : (i < n)%N := leq_trans (ltn_ord i) Hmn.
  rewrite (bigD1 (Ordinal Hi)) //= !mxE /= eqxx big1 ?addr0 // => k Hk. rewrite mxE. case: ifP => [/eqP Ek|_]; last by rewrite mul0r. case/eqP: Hk. exact: val_inj. }
exists (mx m m u *m D). split.
- rewrite unitmx_mul. have -> : mx m m u \in unitmx by case: (mulmx1_unit Ou). rewrite /= unitmxE det_diag unitfE. apply/prodf_neq0 => l _. by rewrite mxE gt_eqF // Hall.
- by rewrite E -!mulmxA EV.
- have := mulmx1C Ov. move=> OV. apply/matrixP => i j. have Hi : (i < n)%N := leq_trans (ltn_ord i) Hmn. have Hj : (j < n)%N := leq_trans (ltn_ord j) Hmn.
  have := congr1 (fun A : 'M_n => A (Ordinal Hi) (Ordinal Hj)) OV. rewrite !mxE => H. rewrite -[i == j]/(Ordinal Hi == Ordinal Hj) -H. apply: eq_bigr => k _. by rewrite !mxE.
Qed.
(** sorted singular values: the kept right singular vectors are combinations of
    the rows *)
Lemma sv_kept j : sorted (fun x y : R => y <= x) s -> (j < count (fun x => (tol R < `|x|)%R) s)%N -> (j < minn m n)%N /\ tol R < nth 0 s j.
Proof.
move=> Hso. rewrite sv_abs => Hj. have Hs : size s = minn m n by case: HD => [[_ _ ? _] _]. split; first by rewrite -Hs (leq_trans Hj) // count_size.
elim: s Hso j Hj => [|x l IH] //= Hso j. case: j => [|j].
- move=> Hc. case: (ltP (tol R) x) => // Hx. exfalso. move: Hc. rewrite /= ltNge Hx /= add0n -has_count => /hasP [z Hz Hz'].
  have := order_path_min (fun y z w (H1 : y <= z) (H2 : w <= y) => le_trans H2 H1) Hso. move/allP/(_ _ Hz) => H. move: (lt_le_trans Hz' (le_trans H Hx)). by rewrite ltxx.
- move=> Hc /=. apply: IH; first exact: (path_sorted Hso). by case: (_ < x) Hc => /=; lia.
Qed.
Lemma kept_row j : (j < minn m n)%N -> nth 0 s j != 0 -> exists a : 'rV[R]_m, a *m mx m n M = \row_k nth 0 (nth [::] vt j) k.
Proof.
rewrite leq_min => /andP [Hm Hn] Hs0. case: HD => [[Hu Hvt Hs Hp] [Ou Ov E]].
exists ((nth 0 s j)^-1 *: row (Ordinal Hm) (mx m m u)^T). rewrite -scalemxAl E mulmxA -row_mul mulmxA Ou mul1mx.
apply/rowP => k. rewrite !mxE (bigD1 (Ordinal Hn)) //= !mxE /= eqxx big1 ?addr0 => [|l Hl].
- by rewrite mulrA mulVf // mul1r.
- rewrite !mxE. case: ifP => [/eqP El|_]; last by rewrite mul0r. case/eqP: Hl. apply: val_inj; by rewrite /= -El.
Qed.
(** and if the dropped singular values are zero, the rows are combinations of the
    kept vectors *)
Lemma rows_kept p : (p <= minn m n)%N -> (forall j, (p <= j < minn m n)%N -> nth 0 s j = 0) ->
  exists A : 'M[R]_(m, p), mx m n M = A *m mx p n vt.
Proof.
move=> Hp0 Hz. case: HD => [[Hu Hvt Hs Hp] [Ou Ov E]].
exists (\matrix_(i, l) (nth 0 (nth [::] u i) l * nth 0 s l)). rewrite E. apply/matrixP => i j. rewrite !mxE.
have Hpn : (p <= n)%N by apply: (leq_trans Hp0); exact: geq_minr.
have US (k : 'I_n) : (mx m m u *m S) i k = if (k < p)%N then nth 0 (nth [::] u i) k * nth 0 s k else 0.
{ rewrite mxE. case: (ltnP k m) => Hk.
  - rewrite (bigD1 (Ordinal Hk)) //= !mxE /= eqxx big1 ?addr0 => [|l Hl].
    + case: ltnP => // Hkp. rewrite Hz ?mulr0 // Hkp leq_min Hk. exact: (ltn_ord k).
    + rewrite [X in _ * X]mxE. case: ifP => [/eqP El|_]; last by rewrite mulr0. case/eqP: Hl. exact: val_inj.
  - rewrite big1 => [|l _]; first by rewrite ltnNge (leq_trans _ Hk) //; apply: (leq_trans Hp0); exact: geq_minl.
    rewrite [X in _ * X]mxE. case: ifP => [/eqP El|_]; last by rewrite mulr0. by have := leq_trans (ltn_ord l) Hk; rewrite El ltnn. }
transitivity (\sum_(k < n) (if (k < p)%N then nth 0 (nth [::] u i) k * nth 0 s k else 0) * nth 0 (nth [::] vt k) j).
- apply: eq_bigr => k _. by rewrite US !mxE.
- rewrite -(big_mkord xpredT (fun k => (if (k < p)%N then nth 0 (nth [::] u i) k * nth 0 s k else 0) * nth 0 (nth [::] vt k) j)).
  rewrite (big_cat_nat _ _ _ (leq0n p) Hpn) /= [X in _ + X]big_nat_cond [X in _ + X]big1 ?addr0 => [|k /andP [/andP [Hk _] _]]; last by rewrite ltnNge Hk mul0r.
  rewrite big_mkord. apply: eq_bigr => k _. by rewrite !mxE ltn_ord.
Qed.
End Svd.

Section Union.
Variables (svd : arr -> arr * seq R * arr) (N : nat) (A B : polyset R).
Hypothesis Hsvd : svd_correct svd.
Hypothesis HAB : pshape A = pshape B.
Notation shp := (pshape A).
Notation m := (num_members A + num_members B)%N.
Notation n := (size (comps shp) * N)%N.
Hypothesis m0 : (0 < m)%N.
Hypothesis n0 : (0 < n)%N.
Notation M := (union_rows N A B).
Lemma rows_svd : is_svd m n M (svd M).
Proof. apply: Hsvd => //. exact: rows_shape. Qed.
Definition sing : seq R := (svd M).1.2.
Definition vts : arr := (svd M).2.
Lemma union_ok : exists U, [/\ union_normalized svd N A B = Ok U, pshape U = shp, num_members U = count (fun s => tol R < `|s|) sing &
  forall j i k, (j < num_members U)%N -> (i < size (comps shp))%N -> (k < N)%N ->
    coeffs U j (nth [::] (comps shp) i) k = nth 0 (nth [::] vts j) (i * N + k)].
Proof.
rewrite /union_normalized HAB eqxx /= /sing /vts. case E : (svd _) => [[u s] vt] /=. eexists. split; [by []|by []|by []|].
move=> j i k Hj Hi Hk /=. rewrite /entry nth_take // index_uniq //. by apply: comps_uniq.
Qed.
Lemma sing_count : (count (fun s => (tol R < `|s|)%R) sing <= minn m n)%N.
Proof.
have := rows_svd. rewrite /sing. case: (svd _) => [[u s] vt] /= [[_ _ Hs _] _]. by rewrite -Hs count_size.
Qed.
Lemma col_split q : (q < n)%N -> (q %/ N < size (comps shp))%N /\ (q %% N < N)%N.
Proof.
move=> Hq. have N0 : (0 < N)%N by case: (N) Hq => //; rewrite muln0.
by rewrite ltn_mod N0 ltn_divLR.
Qed.
Lemma row_entry (l : 'I_m) (q : 'I_n) : mx m n M l q = row_of A B l (nth [::] (comps shp) (q %/ N)) (q %% N)%N.
Proof. have [H1 H2] := col_split (ltn_ord q). rewrite mxE -(@rows_nth N A B l _ _ HAB (ltn_ord l) H1 H2) /entry -divn_eq. by []. Qed.
Lemma comp_ind cc : cc \in comps shp -> (index cc (comps shp) < size (comps shp))%N /\ nth [::] (comps shp) (index cc (comps shp)) = cc.
Proof. move=> H. by rewrite index_mem nth_index. Qed.
Lemma colD i k : (k < N)%N -> ((i * N + k) %/ N = i)%N.
Proof. move=> Hk. rewrite divnMDl ?divn_small ?addn0 //. exact: leq_ltn_trans Hk. Qed.
Lemma colM i k : (k < N)%N -> ((i * N + k) %% N = k)%N.
Proof. move=> Hk. by rewrite modnMDl modn_small. Qed.
Lemma col_lt i k : (i < size (comps shp))%N -> (k < N)%N -> (i * N + k < n)%N.
Proof. move=> Hi Hk. nia. Qed.

Variable U : polyset R.
Hypothesis HU : union_normalized svd N A B = Ok U.
Lemma U_spec : [/\ pshape U = shp, num_members U = count (fun s => tol R < `|s|) sing & 
  forall j cc k, (j < num_members U)%N -> cc \in comps shp -> (k < N)%N -> coeffs U j cc k = nth 0 (nth [::] vts j) (index cc (comps shp) * N + k)].
Proof.
have [U' [E H1 H2 H3]] := union_ok. rewrite HU in E. case: E => E. rewrite -E in H1 H2 H3. split=> // j cc k Hj Hcc Hk.
have [Hi En] := comp_ind Hcc. by rewrite -{1}En H3.
Qed.
Lemma vts_orth (i j : nat) : (i < n)%N -> (j < n)%N -> \sum_(q < n) nth 0 (nth [::] vts i) q * nth 0 (nth [::] vts j) q = (i == j)%:R.
Proof.
move=> Hi Hj. have := rows_svd. rewrite /vts. case: (svd _) => [[u s] vt] /= [_ [_ Ov _]].
have := congr1 (fun A : 'M_n => A (Ordinal Hi) (Ordinal Hj)) (mulmx1C Ov). rewrite !mxE => <-. apply: eq_bigr => q _. by rewrite !mxE.
Qed.
Lemma U_orth i j : (i < num_members U)%N -> (j < num_members U)%N ->
  \sum_(cc <- comps shp) \sum_(k < N) coeffs U i cc k * coeffs U j cc k = (i == j)%:R.
Proof.
have [_ H2 H3] := U_spec. move=> Hi Hj. have Hn l : (l < num_members U)%N -> (l < n)%N.
{ rewrite H2 => Hl. have := leq_trans Hl sing_count. rewrite leq_min => /andP [_]. by []. }
rewrite -(vts_orth (Hn _ Hi) (Hn _ Hj)) (sum_blocks (fun q => nth 0 (nth [::] vts i) q * nth 0 (nth [::] vts j) q)).
rewrite (big_nth [::]) big_mkord. apply: eq_bigr => a _. apply: eq_bigr => k _.
have Ha := mem_nth [::] (ltn_ord a). rewrite !H3 // index_uniq //. by apply: comps_uniq.
Qed.
Lemma U_members : sorted (fun x y : R => y <= x) sing -> forall j, (j < num_members U)%N ->
  exists a : nat -> R, forall cc k, cc \in comps shp -> (k < N)%N -> coeffs U j cc k = \sum_(l < m) a l * row_of A B l cc k.
Proof.
have [_ H2 H3] := U_spec. move=> Hso j Hj. have := Hj. rewrite H2 => Hj'.
have D := rows_svd. move: Hso Hj' H3. rewrite /sing /vts. case E : (svd _) D => [[u s] vt] /= D Hso Hj' H3.
have [Hm Ht] := sv_kept D Hso Hj'. have [a Ha] := kept_row D Hm (lt0r_neq0 (lt_trans (tol_gt0 R) Ht)).
exists (fun l => if insub l is Some l' then a 0 (l' : 'I_m) else 0) => cc k Hcc Hk. have [Hi En] := comp_ind Hcc.
rewrite H3 //. have := congr1 (fun r : 'rV_n => r 0 (Ordinal (col_lt Hi Hk))) Ha. rewrite [X in _ = X]mxE /= => <-.
rewrite mxE. apply: eq_bigr => l _. rewrite valK row_entry /=. by rewrite (colD _ Hk) (colM _ Hk) En.
Qed.
Lemma U_rows p : num_members U = p -> (forall j, (p <= j < minn m n)%N -> nth 0 sing j = 0) -> forall l, (l < m)%N ->
  exists a : nat -> R, forall cc k, cc \in comps shp -> (k < N)%N -> row_of A B l cc k = \sum_(j < num_members U) a j * coeffs U j cc k.
Proof.
have [_ H2 H3] := U_spec. move=> Hp Hz l Hl. have Hp0 : (p <= minn m n)%N by rewrite -Hp H2 sing_count.
have D := rows_svd. move: Hz H3. rewrite /sing /vts. case E : (svd _) D => [[u s] vt] /= D Hz H3.
have [C HC] := rows_kept D Hp0 Hz. exists (fun j => if insub j is Some j' then C (Ordinal Hl) (j' : 'I_p) else 0) => cc k Hcc Hk. have [Hi En] := comp_ind Hcc.
have := congr1 (fun X : 'M_(m, n) => X (Ordinal Hl) (Ordinal (col_lt Hi Hk))) HC. rewrite row_entry /= => HE.
transitivity (row_of A B l (nth [::] (comps shp) ((index cc (comps shp) * N + k) %/ N)) ((index cc (comps shp) * N + k) %% N)).
{ by rewrite (colD _ Hk) (colM _ Hk) En. }
rewrite HE mxE Hp. apply: eq_bigr => j _. by rewrite valK [X in _ * X]mxE /= H3 // Hp.
Qed.
(** all singular values kept: the spans agree *)
Lemma U_full_iff : (m <= n)%N -> num_members U = m <-> well_conditioned m n M.
Proof.
have [_ -> _] := U_spec. move=> Hmn. have D := rows_svd. rewrite /sing. case: (svd _) D => [[u s] vt] D. exact: (sv_cond D Hmn).
Qed.
Lemma U_full1 : num_members U = m -> (m <= n)%N -> forall b : nat -> R, exists a : nat -> R, forall cc k, cc \in comps shp -> (k < N)%N ->
  \sum_(j < m) b j * coeffs U j cc k = \sum_(l < m) a l * row_of A B l cc k.
Proof.
have [_ H2 H3] := U_spec. move=> Hp Hmn b. rewrite Hp in H2 H3.
have D := rows_svd. move: H2 H3. rewrite /sing /vts. case E : (svd _) D => [[u s] vt] /= D H2 H3.
have [C [HC1 HC2 _]] := sv_rows D Hmn (esym H2).
exists (fun l => if insub l is Some l' then ((\row_j b j) *m invmx C) 0 (l' : 'I_m) else 0) => cc k Hcc Hk. have [Hi En] := comp_ind Hcc.
have HV : mx m n vt = invmx C *m mx m n M by rewrite HC2 mulKmx.
have := congr1 (fun X : 'M_(m, n) => ((\row_(j < m) b j) *m X) 0 (Ordinal (col_lt Hi Hk))) HV. rewrite mulmxA [LHS]mxE [RHS]mxE => HE.
transitivity (\sum_(j < m) b j * nth 0 (nth [::] vt j) (index cc (comps shp) * N + k)); first by apply: eq_bigr => j _; rewrite H3.
transitivity (\sum_j ((\row_(j0 < m) b j0) 0 j) * mx m n vt j (Ordinal (col_lt Hi Hk))); first by apply: eq_bigr => j _; rewrite !mxE.
rewrite HE. apply: eq_bigr => l _. rewrite valK row_entry /=. by rewrite (colD _ Hk) (colM _ Hk) En.
Qed.
Lemma U_full2 : num_members U = m -> (m <= n)%N -> forall b : nat -> R, exists a : nat -> R, forall cc k, cc \in comps shp -> (k < N)%N ->
  \sum_(l < m) b l * row_of A B l cc k = \sum_(j < m) a j * coeffs U j cc k.
Proof.
have [_ H2 H3] := U_spec. move=> Hp Hmn b. rewrite Hp in H2 H3.
have D := rows_svd. move: H2 H3. rewrite /sing /vts. case E : (svd _) D => [[u s] vt] /= D H2 H3.
have [C [HC1 HC2 _]] := sv_rows D Hmn (esym H2).
exists (fun l => if insub l is Some l' then ((\row_j b j) *m C) 0 (l' : 'I_m) else 0) => cc k Hcc Hk. have [Hi En] := comp_ind Hcc.
have := congr1 (fun X : 'M_(m, n) => ((\row_(j < m) b j) *m X) 0 (Ordinal (col_lt Hi Hk))) HC2. rewrite mulmxA [LHS]mxE [RHS]mxE => HE.
transitivity (\sum_l ((\row_(j0 < m) b j0) 0 l) * mx m n M l (Ordinal (col_lt Hi Hk))).
{ apply: eq_bigr => l _. rewrite mxE row_entry /=. by rewrite (colD _ Hk) (colM _ Hk) En. }
rewrite HE. apply: eq_bigr => j _. by rewrite valK [X in _ * X]mxE /= H3.
Qed.
End Union.
End Un.
