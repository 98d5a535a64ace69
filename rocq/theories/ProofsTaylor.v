(** The nodes of the discontinuous Taylor element determine P_n. *)
Set Warnings "-notation-overridden,-ambiguous-paths".
From mathcomp Require Import all_ssreflect all_algebra zify.
From Verif Require Base ModelIndex ModelCell ModelFam SpecFam ModelFunctional ModelQuad.
From Verif Require Import FieldTac SpecJacobi ProofsDmatsReg PropsExpansion ModelDual SpecDual ProofsDual SpecPoly ModelSpace ProofsLagLat ProofsSpace ProofsSpaceCell ProofsElem SpecJet ProofsJet
  SpecExpansion SpecQuad ProofsExpDeg ProofsQuadMap PropsQuad PropsQuadPos ProofsGaussReal ModelDmats ModelAffine ModelRT ModelTaylor SpecTaylor.
Set Implicit Arguments. Unset Strict Implicit. Unset Printing Implicit Defensive.
Import Order.TTheory GRing.Theory Num.Theory.
Local Open Scope ring_scope.

Section Det.
Variable F : fieldType.
Hypothesis F0 : char_zero F.
Lemma dmono0 (al a : seq nat) (x : seq F) : size al = size a -> (sumn a <= sumn al)%N -> a != al -> dmono al a x = 0.
Proof.
move=> Hs Hsum Hne. have [i Hi Hlt] : exists2 i, (i < size a)%N & (nth 0%N a i < nth 0%N al i)%N.
{ have : ~~ all (fun i => nth 0%N al i <= nth 0%N a i)%N (iota 0 (size a)).
  { apply: contraNN Hne => /allP H. apply/eqP. elim: a al Hs Hsum H => [|u a IH] [|v al] //= [Hs] Hsum H.
    have H0 : (v <= u)%N by apply: (H 0%N); rewrite inE.
    have Hr : (sumn al <= sumn a)%N.
    { have Hj j : (j < size a)%N -> (nth 0%N al j <= nth 0%N a j)%N by move=> Hj; apply: (H j.+1); rewrite inE /= mem_iota /= add1n.
      clear -Hs Hj. elim: a al Hs Hj => [|u a IH] [|v al] //= [Hs] Hj. apply: leq_add; first exact: (Hj 0%N). apply: IH => // j Hjs. exact: (Hj j.+1). }
    have Euv : u = v by lia. rewrite Euv. congr cons. apply: IH => //; first by lia.
    move=> j. rewrite mem_iota => Hj. apply: (H j.+1). by rewrite inE /= mem_iota /= add1n. }
  move/allPn => [i]. rewrite mem_iota -ltnNge => Hi Hlt. by exists i. }
rewrite /dmono (bigD1 (Ordinal Hi)) //= ffact_small // mul0r mul0r. by [].
Qed.
Lemma dmono_diag (a : seq nat) (x : seq F) : dmono a a x != 0.
Proof.
apply/prodf_neq0 => i _. rewrite subnn expr0 mulr1 ffactnn. case E : (nth 0%N a i)`! => [|m]; last exact: F0.
by have := fact_gt0 (nth 0%N a i); rewrite E.
Qed.
Lemma taylor_coefs sd n cf (x : seq F) : (forall a, a \in exps sd n -> (0 < sumn a)%N -> pder sd n cf a x = 0) ->
  forall a, a \in exps sd n -> (0 < sumn a)%N -> cf a = 0.
Proof.
move=> H a. have [m] := ubnP (n - sumn a). elim: m a => // m IH a Hm Ha Hp.
have := H a Ha Hp. rewrite /pder (bigD1_seq a) //=; last exact: exps_uniq.
rewrite big_seq_cond big1 ?addr0; last first.
{ move=> b /andP [Hb Hne]. move: (Ha) (Hb). rewrite !exps_mem => /andP [/eqP Sa La] /andP [/eqP Sb Lb].
  case: (leqP (sumn b) (sumn a)) => Hba; first by rewrite dmono0 ?mulr0 ?Sa.
  rewrite IH ?mul0r //; lia. }
by move/eqP; rewrite mulf_eq0 (negbTE (dmono_diag _ _)) orbF => /eqP.
Qed.
Lemma const_pval sd n cf (x : seq F) : (forall a, a \in exps sd n -> (0 < sumn a)%N -> cf a = 0) -> pval sd n cf x = cf (nseq sd 0%N).
Proof.
move=> H. have H0 : nseq sd 0%N \in exps sd n by rewrite exps_mem size_nseq eqxx sumn_nseq.
rewrite /pval (bigD1_seq _ H0 (exps_uniq _ _)) /= big_seq_cond big1 ?addr0.
- rewrite /mono big1 ?mulr1 // => i _. by rewrite nth_nseq if_same expr0.
- move=> b /andP [Hb Hne]. rewrite H ?mul0r //. rewrite lt0n. apply: contraNN Hne => /eqP Hs. move: Hb. rewrite exps_mem => /andP [/eqP <- _].
  clear -Hs. elim: b Hs => [|u b IH] //= Hs. have -> : u = 0%N by lia. apply/eqP. congr cons. apply/eqP. apply: IH. lia.
Qed.
End Det.

Lemma uniq_triples (S T U : eqType) (V : eqType) (f : S -> T -> U -> V) xs ys zs : uniq xs -> uniq ys -> uniq zs ->
  (forall x y z x' y' z', x \in xs -> y \in ys -> z \in zs -> x' \in xs -> y' \in ys -> z' \in zs -> f x y z = f x' y' z' -> [/\ x = x', y = y' & z = z']) ->
  uniq (flatten [seq [seq f x y z | y <- ys, z <- zs] | x <- xs]).
Proof.
move=> Ux Uy Uz H. have Uyz : uniq [seq (y, z) | y <- ys, z <- zs] by apply: allpairs_uniq => // -[a b] [a' b'].
have -> : flatten [seq [seq f x y z | y <- ys, z <- zs] | x <- xs] = [seq f x p.1 p.2 | x <- xs, p <- [seq (y, z) | y <- ys, z <- zs]].
{ congr flatten. apply: eq_map => x. by rewrite map_allpairs. }
apply: allpairs_uniq => // -[x [y z]] [x' [y' z']] /allpairsP [[a [b d]] [/= Ha /allpairsP [[b1 d1] [/= Hb Hd [-> ->]]] [-> -> ->]]].
move=> /allpairsP [[a' [b' d']] [/= Ha' /allpairsP [[b1' d1'] [/= Hb' Hd' [-> ->]]] [-> -> ->]]] E.
by have [-> -> ->] := H _ _ _ _ _ _ Ha Hb Hd Ha' Hb' Hd' E.
Qed.
Section Rule.
Variable R : rcfType.
Let R0 : char_zero R := num_char0 R.
Notation vts c := (ModelCell.vertices (mcF R) c : seq (seq R)).
Variables (gjp : nat -> nat -> nat -> seq R) (m : nat).
Hypotheses (m0 : (0 < m)%N) (G : gauss_points gjp m).
Lemma cell_verts c : SpecFam.simplex c -> simplex_verts (sdim_of c) (vts c).
Proof. move=> Hc. have [V1 V2] := verts_dim R Hc. by split. Qed.
Lemma cell_vtx c i j : SpecFam.simplex c -> (i <= sdim_of c)%N -> (j < sdim_of c)%N -> vtx (vts c) i j = org R c + scl R c * (i == j.+1)%:R.
Proof. move=> Hc Hi Hj. by rewrite -vcoE. Qed.
Lemma cell_jac c : SpecFam.simplex c -> jac_det (sdim_of c) (vts c) = scl R c ^+ sdim_of c.
Proof.
move=> Hc. rewrite /jac_det -det_scalar. congr (\det _). apply/matrixP => i j. rewrite !mxE !cell_vtx // eqSS /= mulr0 addr0 addrC addKr mulr_natr.
by congr (_ *+ _); rewrite -val_eqE.
Qed.
Lemma cell_jac0 c : SpecFam.simplex c -> jac_det (sdim_of c) (vts c) != 0.
Proof. move=> Hc. by rewrite cell_jac // expf_neq0 // scl0. Qed.
Lemma ht_inj : injective (@ht R).
Proof. move=> x y /(mulfI _) H. apply: (addrI 1). apply: H. by rewrite invr_eq0 R0. Qed.
Lemma frac_inj (x x' u : R) : u != 0 -> 2%:R^-1 * (1 + x) * u = 2%:R^-1 * (1 + x') * u -> x = x'.
Proof. move=> Hu /(mulIf Hu). exact: ht_inj. Qed.
Lemma sub_ht a y : (a <= 2)%N -> y \in gjp a 0%N m -> 1 - ht y != 0.
Proof. move=> Ha Hy. have [/andP [_ H] _] := gp_in m0 G Ha Hy. by rewrite gt_eqF // subr_gt0. Qed.
Lemma cell_aff2 c s t : SpecFam.simplex c -> sdim_of c = 2%N ->
  ev2 (aff2 (vts c) 0) s t = org R c + scl R c * s /\ ev2 (aff2 (vts c) 1) s t = org R c + scl R c * t.
Proof. move=> Hc Hd. by rewrite !ev2_aff !(cell_vtx Hc) ?Hd //= !mulr0 !addr0 !mulr1 [org R c + scl R c]addrC addrK subrr !mul0r !addr0. Qed.
Lemma cell_aff3 c r s t : SpecFam.simplex c -> sdim_of c = 3%N ->
  [/\ ev3 (aff3 (vts c) 0) r s t = org R c + scl R c * r, ev3 (aff3 (vts c) 1) r s t = org R c + scl R c * s & ev3 (aff3 (vts c) 2) r s t = org R c + scl R c * t].
Proof. move=> Hc Hd. by rewrite !ev3_aff !(cell_vtx Hc) ?Hd //= !mulr0 !addr0 !mulr1 [org R c + scl R c]addrC addrK subrr !mul0r !addr0. Qed.
Lemma org_inj c (x y : R) : org R c + scl R c * x = org R c + scl R c * y -> x = y.
Proof. move/addrI/mulfI => H. apply: H. exact: scl0. Qed.
Lemma cell_rule c n : SpecFam.simplex c -> (n < m.*2)%N ->
  exists r, [/\ ModelQuad.make_quadrature gjp (quad_cell R c) m = Base.Ok r, size (ModelQuad.q_pts r) = size (ModelQuad.q_wts r), uniq (ModelQuad.q_pts r),
    \sum_(w <- ModelQuad.q_wts r) w != 0 & forall cf, ModelQuad.integrate r (pval (sdim_of c) n cf) = cell_integral c n cf].
Proof.
move=> Hc Hn. have Sv := cell_verts Hc. have J0 := cell_jac0 Hc.
have Hd : (0 < sdim_of c <= 3)%N by exact: (proj2 (proj2 (simplex_dim Hc))).
have W0 ufc r : (0 < size (ModelQuad.q_wts r))%N -> ModelQuad.make_quadrature gjp (ModelQuad.QSimp (sdim_of c) ufc (vts c)) m = Base.Ok r -> \sum_(w <- ModelQuad.q_wts r) w != 0.
{ move=> Sw Er. have [_ Hw] := C28_positive m0 G Hd Sv Er. set J := jac_det _ _ in J0 Hw.
  have H : 0 < \sum_(w <- ModelQuad.q_wts r) Num.sg J * w.
  { case: (ModelQuad.q_wts r) Sw Hw => // w l _ Hw. have Hp z : z \in w :: l -> 0 < Num.sg J * z.
    { move=> /Hw E. rewrite -E -normrEsg normr_gt0 -sgr_eq0 E sgr_eq0. exact: J0. }
    rewrite big_cons. apply: ltr_paddr; last exact: (Hp _ (mem_head _ _)).
    rewrite big_seq. apply: sumr_ge0 => z Hz. apply: ltW. apply: Hp. by rewrite inE Hz orbT. }
  move: H. rewrite -mulr_sumr. case: eqVneq => // ->. by rewrite mulr0 ltxx. }
rewrite /quad_cell. move: Hd Sv W0. case Ed : (sdim_of c) => [|[|[|[|d]]]] // _ Sv W0; set ufc := (X in ModelQuad.QSimp _ X _).
- have [r [Er _ Sp Sw Hi]] := C28_interval (F := R) ufc R0 m0 G Sv. exists r. split=> //; first by rewrite Sp Sw.
  + have := line_shape ufc R0 m0 G Sv. rewrite Er => -[->] /=. rewrite map_inj_in_uniq; first by case: (G (isT : (0 <= 2)%N)).
    move=> x y Hx Hy [] /addrI/mulIf H. apply: ht_inj. apply: H. rewrite !(cell_vtx Hc) ?Ed //= mulr1 mulr0 addr0 addrC addKr. exact: scl0.
  + apply: (W0 ufc r) => //. by rewrite Sw.
  + move=> cf. rewrite /cell_integral Ed -Hi ?(leq_trans (size_poly _ _)) //. rewrite /ModelQuad.integrate. apply: eq_bigr => z _. by rewrite -(pval1 (k := n)) ?size_poly // (pval_ext (cf' := cf1 (p1 n cf))) // => a Ha; rewrite p1K.
- have [r [Er _ Sp Sw Hi]] := C28_triangle (F := R) ufc R0 m0 G Sv. exists r. split=> //; first by rewrite Sp Sw.
  + have := tri_shape ufc R0 m0 G Sv. rewrite Er => -[->] /=. have [_ U0 _] := G (isT : (0 <= 2)%N). have [_ U1 _] := G (isT : (1 <= 2)%N).
    apply: allpairs_uniq => // -[x y] [x' y'] /allpairsP [[a b] [/= Ha Hb [-> ->]]] /allpairsP [[a' b'] [/= Ha' Hb' [-> ->]]] {x y x' y'} [E1 E2].
    move: E1 E2. rewrite !(cell_aff2 _ _ Hc Ed).1 !(cell_aff2 _ _ Hc Ed).2 => /org_inj E1 /org_inj/ht_inj E2. subst b'.
    congr (_, _). apply: (frac_inj _ E1). exact: (sub_ht (a := 1)).
  + apply: (W0 ufc r) => //. by rewrite Sw muln_gt0 m0.
  + move=> cf. rewrite /cell_integral Ed -Hi; last by move=> i j Hij; apply: p2_deg; lia.
    rewrite /ModelQuad.integrate. apply: eq_bigr => z _. by rewrite -(pval2 (k := n)) ?(pval_ext (cf' := cf2 (p2 n cf))) //; [move=> a Ha; rewrite p2K|exact: p2_deg].
- have [r [Er _ Sp Sw Hi]] := C28_tetrahedron (F := R) ufc R0 m0 G Sv. exists r. split=> //; first by rewrite Sp Sw.
  + have := tet_shape ufc R0 m0 G Sv. rewrite Er => -[->] /=. have [_ U0 _] := G (isT : (0 <= 2)%N). have [_ U1 _] := G (isT : (1 <= 2)%N). have [_ U2 _] := G (isT : (2 <= 2)%N).
    apply: uniq_triples => // x y z x' y' z' Hx Hy Hz Hx' Hy' Hz' [E1 E2 E3].
    have [A1 A2 A3] := cell_aff3 (hr x y z) (hs y z) (ht z) Hc Ed. have [A1' A2' A3'] := cell_aff3 (hr x' y' z') (hs y' z') (ht z') Hc Ed.
    rewrite A1 A1' in E1. rewrite A2 A2' in E2. rewrite A3 A3' in E3. move: E1 E2 E3 => /org_inj E1 /org_inj E2 /org_inj/ht_inj E3. subst z'.
    have Nz := sub_ht (isT : (2 <= 2)%N) Hz. have Ey := frac_inj Nz E2. subst y'. split=> //. apply: (frac_inj _ E1).
    have Ay := sub_ht (isT : (1 <= 2)%N) Hy. have -> : 1 - hs y z - ht z = (1 - ht y) * (1 - ht z) by rewrite /hs -/(ht y) mulrBl mul1r addrAC.
    by rewrite mulf_neq0.
  + apply: (W0 ufc r) => //. by rewrite Sw !muln_gt0 m0.
  + move=> cf. rewrite /cell_integral Ed -Hi; last by move=> i j k Hij; apply: p3_deg; lia.
    rewrite /ModelQuad.integrate. apply: eq_bigr => z _. by rewrite -(pval3 (k := n)) ?(pval_ext (cf' := cf3 (p3 n cf))) //; [move=> a Ha; rewrite p3K|exact: p3_deg].
Qed.
End Rule.
