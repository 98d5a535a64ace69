(** C44, continued: the Gauss-Lobatto-Legendre line rule, and what [lobatto]
    does for other weights; C45: Gauss-Legendre line rule. *)
Set Warnings "-notation-overridden,-ambiguous-paths".
From mathcomp Require Import all_ssreflect all_algebra zify.
From Verif Require Base.
From Verif Require Import FieldTac RingTac ModelJacobi SpecJacobi ProofsJacobi ProofsOrtho ModelOrthopoly ProofsOrthopoly ProofsGauss ProofsGaussReal ModelQuad SpecQuad ModelGauss SpecGauss ProofsGW ProofsGaussRule PropsGauss ProofsLobatto PropsLobatto ProofsLine ProofsEigh.
Set Implicit Arguments. Unset Strict Implicit. Unset Printing Implicit Defensive.
Import Order.TTheory GRing.Theory Num.Theory.
Local Open Scope ring_scope.

Section Ref.
Variable F : rcfType.
Let F0 : char_zero F := @num_char0 F.
Add Field FFr : (mc_field_theory F).
Notation L := (integral (-1) (1 : F)).
Variable eigh : forall n, 'M[F]_n -> 'rV[F]_n * 'M[F]_n.
Hypothesis EO : eigh_correct eigh.
(** what the reference rule on [-1,1] has to satisfy *)
Definition gll_ok (m : nat) (xs ws : seq F) : Prop :=
  [/\ size xs = m /\ size ws = m, sorted <%O xs, head 0 xs = -1 /\ last 0 xs = 1,
      all (fun w => 0 < w) ws & precision L xs ws (2 * m - 3)].
Lemma gll_lobatto m : (2 < m)%N -> exists al be xs ws ab, [/\ rec_jacobi 2%:R m (0 : F) 0 = RArrays al be,
   lobatto eigh al be (-1) 1 = Base.Ok ((xs, ws), ab) & gll_ok m xs ws].
Proof.
move=> Hm. have Hm2 := ltnW Hm. have [al [be [E Sa Sb Ha Hb]]] := rec_jacobiE (0 : F) 0 2%:R Hm2.
exists al, be. pose p := monic_p (nth 0 al) (nth 0 be).
have Ep k : (k <= m)%N -> p k = monic_p (ralpha 0 0) (rbeta 0 0 2%:R) k.
{ apply: eq_monic => // i Hi. apply: Hb. by case/andP: Hi. }
have m0 : (0 < m)%N by exact: ltnW.
have be0 : nth 0 be 0 = 2%:R by rewrite Hb.
have Sm : (2 <= size al)%N by rewrite Sa.
have [||||||||xs [ws [al' [be' [El [Sx Sw] [So M1 P1] [Wp Pr] _]]]]] := @C44_lobatto_rule F eigh al be 0 (-1) 1 p L EO Sm (etrans Sb (esym Sa)).
- move=> k. rewrite Sa => Hk. by rewrite Ha // ralpha0.
- move=> k. rewrite Sa => Hk. have Hk' : (k < m)%N by apply: (leq_trans Hk); exact: leq_pred.
  rewrite Hb //. case: k {Hk Hk'} => [|k]; first by rewrite ltr0n. exact: (@rbeta_pos F 0).
- split=> // -[|k] // _. exact: mon_rec.
- split; [exact: integralD|exact: integralZ].
- rewrite -jw0 (jweight_one F0) be0 divr1 expr1 //.
- move=> j k. rewrite Sa => H. have [Hj Hk] : (j <= m)%N /\ (k <= m)%N by move: H; clear -Hm; lia.
  rewrite !Ep // -jw0. apply: (@jac_monic_orth F 0 _ m). case/andP: H => -> _ /=. exact: Hk.
- by rewrite -subr_gt0 opprK -mulr2n ltr0n.
- move=> k. rewrite Sa => H. have Hk : (k <= m)%N by move: H; clear; lia.
  rewrite Ep //. split; [exact: leg_at1|exact: leg_atm1].
rewrite Sa in Sx Sw Pr. exists xs, ws, (al', be'). split=> //.
have Ux := lt_sorted_uniq So.
have In y : y \in xs -> -1 <= y <= 1.
{ move=> Hy. have [->|y1] := eqVneq y (-1); first by rewrite lexx -subr_ge0 opprK -mulr2n ler0n.
  have [->|y2] := eqVneq y 1; first by rewrite lexx andbT -subr_ge0 opprK -mulr2n ler0n.
  have Sd : (size xs + size xs <= (2 * m - 3).+4)%N by rewrite Sx; clear; lia.
  have /andP [A B] := loc_in Ux (etrans Sw (esym Sx)) Wp Pr Sd M1 P1 Hy y1 y2. by rewrite !ltW. }
have So' : sorted <=%O xs by apply: sub_sorted So => x y; exact: ltW.
split=> //. split.
- have H0 : (0 < size xs)%N by rewrite Sx.
  apply/le_anti/andP; split; last first.
  + have Hh : head 0 xs \in xs by rewrite -nth0 mem_nth. by have /andP [] := In _ Hh.
  + rewrite -nth0 -[X in _ <= X](nth_index 0 M1).
    have T : transitive (<=%O : rel F) by exact: le_trans.
    have Rf : reflexive (<=%O : rel F) by move=> y; exact: lexx.
    apply: (sorted_leq_nth T Rf 0 So') => //. by rewrite inE index_mem.
- have H0 : (0 < size xs)%N by rewrite Sx.
  have H1 : ((size xs).-1 < size xs)%N by rewrite prednK.
  apply/le_anti/andP; split.
  + have Hh : last 0 xs \in xs by rewrite -nth_last mem_nth. by have /andP [] := In _ Hh.
  + rewrite -nth_last -[X in X <= _](nth_index 0 P1).
    have T : transitive (<=%O : rel F) by exact: le_trans.
    have Rf : reflexive (<=%O : rel F) by move=> y; exact: lexx.
    have Hx : (index (1%R : F) xs < size xs)%N by rewrite index_mem.
    apply: (sorted_leq_nth T Rf 0 So'); rewrite ?inE // -ltnS prednK //.
Qed.
Lemma gll_two : gll_ok 2 [:: -1; 1] (nseq 2 (2%:R^-1 * (1 - -1))).
Proof.
have T : 2%:R != 0 :> F by rewrite pnatr_eq0.
have E : 2%:R^-1 * (1 - -1) = 1 :> F by rewrite opprK -mulr2n mulVf.
rewrite E. split=> //.
- by rewrite /= andbT -subr_gt0 opprK -mulr2n ltr0n.
- by rewrite /= !ltr01.
- move=> q Sq. rewrite /= !big_cons big_nil addr0 !mul1r /=.
  have -> : q = (q`_0)%:P + q`_1 *: 'X.
  { apply/polyP => -[|[|i]]; rewrite coefD coefC coefZ coefX /= ?mulr0 ?addr0 ?mulr1 ?add0r //. by rewrite nth_default // (leq_trans Sq). }
  have I1 : L 1 = 2%:R by rewrite -jw0 (jweight_one F0) divr1 expr1.
  have IX : L 'X = 0 by rewrite -[X in L X]expr1 (integral_Xn F0) sqrrN subrr mul0r.
  have IC : L (q`_0)%:P = q`_0 * 2%:R by rewrite -[X in L X]mulr1 mul_polyC integralZ I1.
  rewrite integralD integralZ IX IC mulr0 addr0 !hornerD !hornerC !hornerZ !hornerX.
  move: (q`_0) (q`_1) => a b. rewrite -[2%:R]/(1 + 1). fring.
Qed.
Lemma gll_ref m : (2 <= m)%N -> exists xs ws, gll_ok m xs ws /\ forall c verts, gll_line_rule eigh c verts m = map_line_rule c verts (xs, ws).
Proof.
rewrite leq_eqVlt => /orP [/eqP <-|Hm].
- exists [:: -1; 1], (nseq 2 (2%:R^-1 * (1 - -1))). split=> //. exact: gll_two.
- have [al [be [xs [ws [ab [E1 E2 H]]]]]] := gll_lobatto Hm. exists xs, ws. split=> // c verts.
  rewrite /gll_line_rule ltnNge (ltnW Hm) /= Hm E1 E2. by [].
Qed.
End Ref.

(** The m-point Gauss-Lobatto-Legendre rule on an interval with any two
    vertices, m >= 2: the first and the last point are the vertices, the points
    in between lie strictly inside, in order; the weights have the sign of the
    orientation; degree of precision 2m-3 as documented. *)
Theorem C44_gll_rule :
  forall (F : rcfType) (eigh : forall n, 'M[F]_n -> 'rV[F]_n * 'M[F]_n) (c : qcell F) (verts : seq (seq F)) (m : nat),
    eigh_correct eigh -> (2 <= m)%N -> simplex_verts 1 verts ->
    exists r, [/\ gll_line_rule eigh c verts m = Base.Ok r, q_cell r = c, size (q_pts r) = m /\ size (q_wts r) = m,
      forall P : {poly F}, (size P <= 2 * m - 2)%N -> integrate r (fun x => P.[nth 0 x 0]) = int_interval verts P &
      let v0 := vtx verts 0 0 in let v1 := vtx verts 1 0 in
      exists ts : seq F,
        [/\ size ts = m, nth 0 ts 0 = 0, nth 0 ts m.-1 = 1, sorted <%O ts &
            q_pts r = [seq [:: v0 + t * (v1 - v0)] | t <- ts]] /\
        forall i, (i < m)%N -> exists2 w : F, 0 < w & nth 0 (q_wts r) i = w * (v1 - v0)].
Proof.
move=> F eigh c verts m EO Hm Sv. have F0 := @num_char0 F. have T : 2%:R != 0 :> F := two_neq0 F0.
have [xs [ws [[[Sx Sw] So [He La] Wp Pr] E]]] := gll_ref EO Hm.
have [r [E1 Ec Ep Ew Ex]] := map_line_ok F0 c Sv (etrans Sx (esym Sw)) Pr.
exists r. split=> //; rewrite ?E ?Ep ?Ew ?size_map ?Sx ?Sw //.
- move=> P SP. apply: Ex. apply: (leq_trans SP). clear -Hm. lia.
- cbv zeta. exists [seq 2%:R^-1 * (1 + x) | x <- xs].
  have x0 : nth 0 xs 0 = -1 by rewrite nth0.
  have x1 : nth 0 xs m.-1 = 1 by rewrite -Sx nth_last.
  have m0 : (0 < m)%N by exact: ltnW.
  split; first split.
  + by rewrite size_map.
  + by rewrite (nth_map 0) ?Sx // x0 subrr mulr0.
  + by rewrite (nth_map 0) ?Sx ?prednK // x1 -mulr2n mulVf.
  + have mono : {homo (fun x : F => 2%:R^-1 * (1 + x)) : x y / x < y >-> x < y}.
    { move=> x y H. by rewrite ltr_pmul2l ?invr_gt0 ?ltr0n // ltr_add2l. }
    exact: (homo_sorted mono).
  + rewrite -map_comp. apply: eq_map => x /=. by rewrite mulrC.
  + move=> i Hi. exists (2%:R^-1 * nth 0 ws i).
    * apply: mulr_gt0; first by rewrite invr_gt0 ltr0n. move/allP: Wp; apply. by rewrite mem_nth // Sw.
    * rewrite (nth_map 0) ?Sw //. by rewrite mulrAC.
Qed.
Theorem C44_gll_refused :
  forall (F : rcfType) (eigh : forall n, 'M[F]_n -> 'rV[F]_n * 'M[F]_n) (c : qcell F) (verts : seq (seq F)) (m : nat),
    (m < 2)%N -> gll_line_rule eigh c verts m = Base.Err Base.ValueError.
Proof. move=> F eigh c verts m H. by rewrite /gll_line_rule H. Qed.

(** C45: the Gauss-Legendre line rule.  [leggauss] is exact up to degree 2m-1
    on [-1,1] (numpy's documentation); the rule maps it to the interval. *)
Definition leggauss_correct (F : fieldType) (leggauss : nat -> seq F * seq F) : Prop :=
  forall m, (0 < m)%N -> [/\ size (leggauss m).1 = m, size (leggauss m).2 = m &
    precision (integral (-1) 1) (leggauss m).1 (leggauss m).2 (2 * m - 1)].
Theorem C45_gauss_legendre_rule :
  forall (F : fieldType) (leggauss : nat -> seq F * seq F) (c : qcell F) (verts : seq (seq F)) (m : nat),
    char_zero F -> leggauss_correct leggauss -> simplex_verts 1 verts ->
    (m = 0%N -> gl_line_rule leggauss c verts m = Base.Err Base.ValueError) /\
    ((0 < m)%N -> exists r, [/\ gl_line_rule leggauss c verts m = Base.Ok r, q_cell r = c,
       size (q_pts r) = m /\ size (q_wts r) = m &
       forall P : {poly F}, (size P <= 2 * m)%N -> integrate r (fun x => P.[nth 0 x 0]) = int_interval verts P]).
Proof.
move=> F lg c verts m F0 LG Sv. split=> [->//|Hm]. have [S1 S2 Pr] := LG m Hm.
have [r [E1 Ec Ep Ew Ex]] := map_line_ok F0 c Sv (etrans S1 (esym S2)) Pr.
have El : gl_line_rule lg c verts m = Base.Ok r by rewrite /gl_line_rule ltnNge Hm /= -E1; case: (lg m).
exists r. rewrite Ep Ew !size_map. split=> //.
move=> P SP. apply: Ex. apply: (leq_trans SP). clear -Hm. lia.
Qed.
Theorem C45_leggauss_exists : forall F : rcfType, exists leggauss : nat -> seq F * seq F, leggauss_correct leggauss.
Proof.
move=> F. have F0 := @num_char0 F.
pose ok m (xs : seq F) := [&& size xs == m, uniq xs & all (root (jacobi_poly 0%:R 0 m)) xs].
have Ex m : exists xs, ok m xs by have [xs [A B C]] := real_roots F 0 m; exists xs; rewrite /ok A B C eqxx.
pose pts m := xchoose (Ex m).
exists (fun m => (pts m, [seq lam 0 m.-1 x | x <- pts m])) => -[|n] // _.
have /and3P [/eqP S U R] := xchooseP (Ex n.+1). split; rewrite ?size_map //.
move=> q Sq /=. have Sq' : (size q <= n.+1.*2)%N by apply: (leq_trans Sq); clear; lia.
rewrite -jw0 (rule_exact F0 S U R Sq') -[in LHS](map_id (pts n.+1)) -map_comp zip_map big_map. by [].
Qed.

(** For a recurrence whose alpha is not constant, [lobatto] shifts the wrong
    diagonal entries (it takes alpha[1:] for alpha[:-1]): with the coefficients
    of the weight 1 - x, the preassigned node 1 is not among the nodes. *)
Section Bad.
Variable F : rcfType.
Add Field FFb : (mc_field_theory F).
Lemma solve1 (M : 'M[F]_1) (b : 'cV[F]_1) : M 0 0 != 0 -> exists2 g, np_solve M b = Base.Ok g & g 0 0 = b 0 0 / M 0 0.
Proof.
move=> H. have U : M \in unitmx by rewrite unitmxE det_mx11 unitfE. rewrite /np_solve U. eexists; first by [].
have E : M *m (invmx M *m b) = b by rewrite mulKVmx.
have := congr1 (fun X : 'cV_1 => X 0 0) E. rewrite /= mxE big_ord_recl big_ord0 addr0.
move: (invmx M *m b) => g. have -> : ord0 = 0 :> 'I_1 by apply: val_inj. move=> E0. by rewrite -E0 mulrC mulKf.
Qed.
Lemma lobJ1 (a0 a1 b0 b1 x : F) : lobatto_J 1 [:: a0; a1] [:: b0; b1] x 0 0 = a1 - x.
Proof. by rewrite !mxE /= add0r addr0. Qed.
Lemma num1 : (1 - 15%:R^-1) * (1 + 3%:R^-1) - 224%:R / 225%:R = 56%:R / 225%:R :> F.
Proof.
have N k : k.+1%:R != 0 :> F by rewrite pnatr_eq0.
have E1 : 1 - 15%:R^-1 = 14%:R / 15%:R :> F.
{ apply/eqP. rewrite -(inj_eq (mulIf (N 14%N))) mulrBl mul1r mulVf // divfK //. by rewrite -[1]/(1%:R) -natrB. }
have E2 : 1 + 3%:R^-1 = 20%:R / 15%:R :> F.
{ apply/eqP. rewrite -(inj_eq (mulIf (N 2%N))) mulrDl mul1r mulVf // mulrAC. rewrite -[1]/(1%:R) -natrD -natrM. 
  rewrite -(inj_eq (mulIf (N 14%N))) divfK // -natrM. by []. }
rewrite E1 E2 mulf_div -!natrM -mulrBl -natrB //.
Qed.
Lemma lastv1 (g : 'cV[F]_1) : lastv g = g 0 0.
Proof. rewrite /lastv (big_pred1 0) // => i. Qed.
End Bad.
Theorem C44_other_weights_refuted :
  forall (F : rcfType) (eigh : forall n, 'M[F]_n -> 'rV[F]_n * 'M[F]_n), eigh_correct eigh ->
    exists alpha beta xs ws ab,
      [/\ rec_jacobi 2%:R 2 (1 : F) 0 = RArrays alpha beta,
          lobatto eigh alpha beta (-1) 1 = Base.Ok ((xs, ws), ab), size xs = 2%N & 1 \notin xs].
Proof.
move=> F eigh EO. have N k : k.+1%:R != 0 :> F by rewrite pnatr_eq0.
have -> : rec_jacobi 2%:R 2 (1 : F) 0 = RArrays [:: - (3%:R^-1); - (15%:R^-1)] [:: 2%:R; 2%:R / 9%:R].
{ rewrite /rec_jacobi /=. congr (RArrays [:: _; _] [:: _; _]).
  - rewrite sub0r addr0 mulN1r. congr (- (_)^-1).
  - rewrite expr0n /= expr1n sub0r addr0 mulN1r. congr (- (_)^-1). by rewrite mulr1 -[1]/(1%:R) -!natrD -natrM.
  - rewrite addr0 add0r mulr1 -[1]/(1%:R) -!natrD -natrM -natrX -natrM. apply/eqP. rewrite eqr_div ?N //. by rewrite -!natrM. }
set a0 : F := - (3%:R^-1). set a1 : F := - (15%:R^-1). set b0 : F := 2%:R. set b1 : F := 2%:R / 9%:R.
have A1 : a1 - -1 = 14%:R / 15%:R. 
{ rewrite /a1 opprK addrC. apply/eqP. rewrite -(inj_eq (mulIf (N 14%N))) mulrDl mul1r mulNr mulVf // divfK //. by rewrite -[1]/(1%:R) -natrB. }
have A2 : a1 - 1 = - (16%:R / 15%:R).
{ rewrite /a1 -opprD. congr (- _). apply/eqP. rewrite -(inj_eq (mulIf (N 14%N))) mulrDl mul1r mulVf // divfK //. }
set e : 'cV[F]_1 := \col_i (if i.+1 == 1%N then 1 else 0).
have e00 : e 0 0 = 1 by rewrite mxE.
have [|g1 G1 L1] := solve1 (M := lobatto_J 1 [:: a0; a1] [:: b0; b1] (-1)) e.
{ rewrite lobJ1 A1. by rewrite mulf_neq0 ?invr_eq0 ?N. }
have [|g2 G2 L2] := solve1 (M := lobatto_J 1 [:: a0; a1] [:: b0; b1] 1) e.
{ rewrite lobJ1 A2 oppr_eq0. by rewrite mulf_neq0 ?invr_eq0 ?N. }
rewrite lobJ1 A1 e00 mul1r invf_div in L1. rewrite lobJ1 A2 e00 mul1r invrN invf_div in L2.
have Hg : lastv g1 != lastv g2.
{ rewrite !lastv1 L1 L2 gt_eqF // (@lt_trans _ _ 0) ?oppr_lt0 ?divr_gt0 ?ltr0n //. }
have [ab [Eab B1 B2]] := solve2 (-1) 1 Hg. cbv zeta in Eab. rewrite !lastv1 in B1 B2.
have [Ea Eb] : ab 0 0 = 15%:R^-1 /\ ab 1 0 = 224%:R / 225%:R.
{ have Eb : ab 1 0 = 224%:R / 225%:R.
  { have : (g1 0 0 - g2 0 0) * ab 1 0 = 2%:R.
    { have -> : (g1 0 0 - g2 0 0) * ab 1 0 = (ab 0 0 - g2 0 0 * ab 1 0) - (ab 0 0 - g1 0 0 * ab 1 0) by exact: dif_alg.
      by rewrite B1 B2 opprK. }
    rewrite L1 L2 opprK addf_div // -!natrM -natrD => E. 
    have : ab 1 0 = 2%:R / ((15 * 16 + 15 * 14)%:R / (14 * 16)%:R) by rewrite -E mulrC mulKf // mulf_neq0 ?invr_eq0 ?pnatr_eq0.
    move=> ->. rewrite invf_div mulrA. apply/eqP. rewrite eqr_div ?pnatr_eq0 // -!natrM. by []. }
  split=> //. have : ab 0 0 = -1 + g1 0 0 * ab 1 0 by rewrite -B1 subrK.
  rewrite L1 Eb mulf_div -!natrM => ->. apply/eqP. rewrite addrC subr_eq -{2}[1]/(1%:R) eq_sym.
  rewrite -(inj_eq (mulIf (N 14%N))) mulrDl mulVf // mul1r -[1]/(1%:R) -natrD mulrAC.
  apply/eqP. apply: (mulIf (_ : (14 * 225)%:R != 0)); first by rewrite pnatr_eq0. rewrite divfK ?pnatr_eq0 // -!natrM. by []. }
have Hb k : (0 < k <= 1)%N -> 0 < nth 0 [:: b0; ab 1 0] k.
{ case: k => [|[|k]] //= _. by rewrite Eb divr_gt0 ?ltr0n. }
have [xs [ws [[E Sx Sw So Ro] _]]] := @gauss_ok F eigh EO [:: a0; ab 0 0] [:: b0; ab 1 0] 1 erefl erefl Hb.
exists [:: a0; a1], [:: b0; b1], xs, ws, ([:: a0; ab 0 0], [:: b0; ab 1 0]). split=> //.
- exact: (@lobatto_eq F eigh 0 [:: a0; a1] [:: b0; b1] (-1) 1 g1 g2 ab (xs, ws) erefl erefl G1 G2 Eab E).
- apply/negP => H1. move/allP: Ro => /(_ _ H1). rewrite /root mon_rec /monic_p /= hornerD hornerM !hornerD !hornerN hornerZ !hornerX !hornerC.
  rewrite Ea Eb mulr1 /a0 opprK => /eqP Z. have : 56%:R / 225%:R = 0 :> F.
  { rewrite -Z. by rewrite -num1. }
  move/eqP. rewrite mulf_eq0 invr_eq0. by rewrite !(negbTE (N _)).
Qed.
