(** The expansion functions are orthogonal under the quadrature rules of the
    cell, and those below the dimension of P_k lie in P_k. *)
Set Warnings "-notation-overridden,-ambiguous-paths".
From mathcomp Require Import all_ssreflect all_algebra zify.
From Verif Require Base ModelCell SpecFam.
From Verif Require Import FieldTac RingTac ModelJacobi SpecJacobi ProofsJacobi ProofsOrtho ProofsOrthopoly ProofsGauss PropsJacobi
  ModelAffine ModelExpansion SpecExpansion ProofsExpIdx ProofsExpProg ProofsExpOrtho ProofsExpDeg PropsExpansion ModelQuad SpecQuad ProofsQuad ProofsQuadMap PropsQuad.
From Verif Require Import ModelDmats ProofsDmats ProofsDmatsCell ProofsDmatsReg ModelDual SpecDual SpecPoly ModelSpace ProofsLagLat ProofsSpace ProofsSpaceDer ProofsSpaceCell ProofsPolyClo ProofsDefQuad.
Set Implicit Arguments. Unset Strict Implicit. Unset Printing Implicit Defensive.
Import GRing.Theory.
Local Open Scope ring_scope.

Section Dub.
Variable F : fieldType.
Hypothesis F0 : char_zero F.
Add Field FFdub : (mc_field_theory F).
Variable sqrt : F -> F.
Hypothesis Hsq : sqrt_exact sqrt.
Variables (gjp : nat -> nat -> nat -> seq F) (mq : nat).
Hypotheses (mq0 : (0 < mq)%N) (G : gauss_points gjp mq).

Lemma jac_det_scl c : SpecFam.simplex c -> jac_det (sdim_of c) (verts F c) = scl F c ^+ sdim_of c.
Proof.
move=> Hc. rewrite /jac_det -det_scalar. congr (\det _). apply/matrixP => i j. rewrite !mxE /vtx.
rewrite -[nth 0 (nth [::] (verts F c) i.+1) j]/(vco F c i.+1 j) -[nth 0 (nth [::] (verts F c) 0) j]/(vco F c 0 j).
have Hi := ltn_ord i. have Hj := ltn_ord j. rewrite !vcoE // mulr0 addr0 addrAC subrr add0r eqSS. rewrite -[RHS]mulr_natr. by [].
Qed.
Lemma scell_verts c : SpecFam.simplex c -> simplex_verts (sdim_of c) (verts F c).
Proof. move=> Hc. have [H1 H2] := verts_dim F Hc. by split. Qed.
Lemma size_exps2 k : size (exps 2 k) = tri_num k. Proof. by rewrite (perm_size (exps2_perm k)) size_map size_iota. Qed.
Lemma size_exps3 k : size (exps 3 k) = tet_num k. Proof. by rewrite (perm_size (exps3_perm k)) size_map size_iota. Qed.

Definition quad_ortho c n (r : rule F) (s : F) (ph : nat -> seq F -> F) : Prop :=
  [/\ s != 0 /\ {in ModelQuad.q_pts r, forall x, size x = sdim_of c},
      forall x, exp_table sqrt c n x = Ok [seq ph k x | k <- iota 0 (size (exps (sdim_of c) n))],
      forall k j, (k <= n)%N -> (j < size (exps (sdim_of c) k))%N -> is_poly (sdim_of c) k (ph j) &
      forall i j, (i < size (exps (sdim_of c) n))%N -> (j < size (exps (sdim_of c) n))%N ->
        integrate r (fun x => ph i x * ph j x) = s * (i == j)%:R].
Lemma aff_is_poly d (m : nat -> F) b : is_poly d 1 (fun x => \sum_(k < d) m k * nth 0 x k + b).
Proof. apply: is_poly_add; last exact: is_poly_const. apply: (@is_poly_sumo F d 1 d (fun k x => m k * nth 0 x k)) => k Hk. apply: is_poly_scale. exact: is_poly_coord. Qed.

Lemma quad_ortho2 c n : SpecFam.simplex c -> sdim_of c = 2%N -> (0 < n < mq)%N -> forall ufc,
  exists r s ph, make_quadrature gjp (QSimp 2 ufc (verts F c)) mq = Base.Ok r /\ (quad_ortho c n r s ph /\ s = (scl F c / 2%:R) ^+ 2).
Proof.
move=> Hc Hd /andP [n0 nm] ufc.
have [M [b [E Hv]]] := exp_map_ok F0 Hc. have SV := scell_verts Hc. have JD := jac_det_scl Hc. rewrite Hd in Hv SV JD.
have Hv' v j : (v <= 2)%N -> (j < 2)%N -> M j 0%N * vco F c v 0 + M j 1%N * vco F c v 1 + b j = -1 + (1 + 1) * (v == j.+1)%:R.
{ move=> H1 H2. by rewrite -Hv // !big_ord_recl big_ord0 /= addr0. }
have [phi [H1 [H2 [_ H4]]]] := C23_triangle_orthonormal_dubiner F0 Hsq.
pose X (i : nat) (x : seq F) := M i 0%N * nth 0 x 0 + M i 1%N * nth 0 x 1 + b i.
pose P k := phi (tdec n k).1 (tdec n k).2.
pose ph k x := ev2 (P k) (X 0%N x) (X 1%N x).
rewrite (tri_shape ufc F0 mq0 G SV). eexists; exists (4%:R^-1 * jac_det 2 (verts F c)), ph; split; first by [].
split; last by rewrite JD mulrC expr_div_n -natrX.
split; first last.
- move=> i j Hi Hj. rewrite Hd size_exps2 in Hi Hj. rewrite integrate_pairs.
  have HX (s t : F) : X 0%N [:: ev2 (aff2 (verts F c) 0) s t; ev2 (aff2 (verts F c) 1) s t] = 2%:R * s - 1 /\
            X 1%N [:: ev2 (aff2 (verts F c) 0) s t; ev2 (aff2 (verts F c) 1) s t] = 2%:R * t - 1.
  { rewrite /X /=. have EA q : ev2 (aff2 (verts F c) q) s t = vco F c 0 q + (vco F c 1 q - vco F c 0 q) * s + (vco F c 2 q - vco F c 0 q) * t.
    { by rewrite ev2_aff. }
    rewrite !EA. have := Hv' 0%N 0%N isT isT. have := Hv' 1%N 0%N isT isT. have := Hv' 2%N 0%N isT isT. have := Hv' 0%N 1%N isT isT. have := Hv' 1%N 1%N isT isT. have := Hv' 2%N 1%N isT isT.
    rewrite !mulr0 !mulr1 !addr0.
    move: (vco F c 0 0) (vco F c 0 1) (vco F c 1 0) (vco F c 1 1) (vco F c 2 0) (vco F c 2 1) (M 0%N 0%N) (M 0%N 1%N) (M 1%N 0%N) (M 1%N 1%N) (b 0%N) (b 1%N) => a0 a1 b0 b1 c0 c1 m00 m01 m10 m11 e0 e1.
    move=> E6 E5 E4 E3 E2 E1. rewrite !mulrS mulr0n addr0. split.
    - have -> : m00 * (a0 + (b0 - a0) * s + (c0 - a0) * t) + m01 * (a1 + (b1 - a1) * s + (c1 - a1) * t) + e0 =
        (m00 * a0 + m01 * a1 + e0) * (1 - s - t) + (m00 * b0 + m01 * b1 + e0) * s + (m00 * c0 + m01 * c1 + e0) * t by fring.
      rewrite E1 E2 E3. fring.
    - have -> : m10 * (a0 + (b0 - a0) * s + (c0 - a0) * t) + m11 * (a1 + (b1 - a1) * s + (c1 - a1) * t) + e1 =
        (m10 * a0 + m11 * a1 + e1) * (1 - s - t) + (m10 * b0 + m11 * b1 + e1) * s + (m10 * c0 + m11 * c1 + e1) * t by fring.
      rewrite E4 E5 E6. fring. }
  have E4 : int_tri (P i * P j) = (i == j)%:R.
  { rewrite H4. have [_ Ei] := tdec_ok Hi. have [_ Ej] := tdec_ok Hj. case: (i =P j) => [->|Hij]; first by rewrite !eqxx.
    case: ifP => // /andP [/eqP A /eqP B]. case: Hij. by rewrite -Ei -Ej A B. }
  have DP : deg2_le mq.*2.-1 (P i * P j).
  { have [Di _] := tdec_ok Hi. have [Dj _] := tdec_ok Hj. apply/D2_deg. 
    apply: (filtS (fD2 F) _ (filtM (fD2 F) (proj1 (D2_deg _ _) (H2 _ _)) (proj1 (D2_deg _ _) (H2 _ _)))). lia. }
  have M0 : (0 < mq.*2)%N by rewrite double_gt0.
  have := @tri_def F F0 mq.*2 _ _ _ _ (gp_exact F0 mq0 G (isT : (0 <= 2)%N)) (gp_exact F0 mq0 G (isT : (1 <= 2)%N)) _ M0 DP.
  rewrite E4 => ->. rewrite mulrA [RHS]mulr_sumr. apply: eq_bigr => x _. rewrite [RHS]mulr_sumr. apply: eq_bigr => y _.
  rewrite /ph. have [-> ->] := HX (hs x y) (ht y). rewrite /hs /ht -alg_xi // -alg_t //.
  have -> : forall a e, ev2 (P i * P j) a e = ev2 (P i) a e * ev2 (P j) a e by move=> a e; rewrite -!ev2mE rmorphM.
  move: (ev2 (P i) _ _) (ev2 (P j) _ _) => u1 u2. move: (gj_weight 0 0 mq x) (gj_weight 1 0 mq y) (jac_det 2 (verts F c)) (4%:R^-1 : F) (2%:R^-1 : F) => u3 u4 u5 u6 u7. fring.
- move=> k j Hk. rewrite Hd size_exps2 => Hj.
  have Hj' : (j < tri_num n)%N by apply: (leq_trans Hj); rewrite !tri_numE; exact: T2_le.
  have [p [q [Hpq Epq]]] := tri_idx_surj Hj. have Ep : tdec n j = (p, q) by rewrite -Epq tdec_idx //; exact: leq_trans Hk.
  apply: (@is_poly_ext _ _ _ (fun x => (fun y => ev2 (P j) (nth 0 y 0) (nth 0 y 1)) [:: X 0%N x; X 1%N x])) => //.
  apply: (@is_poly_comp F 2 2 k (fun y => ev2 (P j) (nth 0 y 0) (nth 0 y 1)) (fun x => [:: X 0%N x; X 1%N x])) => //.
  + exists (cf2 (P j)) => y _. rewrite pval2 //. rewrite /P Ep /= => a e Hae. apply: H2. exact: leq_ltn_trans Hpq Hae.
  + have XP i : is_poly 2 1 (X i). 
    { apply: is_poly_ext (aff_is_poly 2 (M i) (b i)) => x _. by rewrite !big_ord_recl big_ord0 /= addr0. }
    case=> [_|[_|i]] //; [exact: (XP 0%N)|exact: (XP 1%N)].
- move=> x. rewrite /exp_table E bindE Hd size_exps2 /tri_table /=.
  have [s [-> [Ss Hs]]] := H1 M b n [:: nth 0 x 0; nth 0 x 1] n0.
  rewrite !bindE (full_ok (f := fun k => ph k x) Ss) // => k Hk. have [D Ek] := tdec_ok Hk. by rewrite -{1}Ek Hs.
- split; first by rewrite mulf_neq0 ?invr_eq0 ?F0 // JD expf_neq0 // scl0 //.
  by move=> x /allpairsP [[y z] [_ _ ->]]; rewrite Hd.
Qed.
Lemma quad_ortho3 c n : SpecFam.simplex c -> sdim_of c = 3%N -> (0 < n < mq)%N -> forall ufc,
  exists r s ph, make_quadrature gjp (QSimp 3 ufc (verts F c)) mq = Base.Ok r /\ (quad_ortho c n r s ph /\ s = (scl F c / 2%:R) ^+ 3).
Proof.
move=> Hc Hd /andP [n0 nm] ufc.
have [M [b [E Hv]]] := exp_map_ok F0 Hc. have SV := scell_verts Hc. have JD := jac_det_scl Hc. rewrite Hd in Hv SV JD.
have Hv' v j : (v <= 3)%N -> (j < 3)%N -> M j 0%N * vco F c v 0 + M j 1%N * vco F c v 1 + M j 2%N * vco F c v 2 + b j = -1 + (1 + 1) * (v == j.+1)%:R.
{ move=> H1 H2. by rewrite -Hv // !big_ord_recl big_ord0 /= addr0 !addrA. }
have [phi [H1 [H2 [_ H4]]]] := C23_tetrahedron_orthonormal_dubiner F0 Hsq.
pose X (i : nat) (x : seq F) := M i 0%N * nth 0 x 0 + M i 1%N * nth 0 x 1 + M i 2%N * nth 0 x 2 + b i.
pose P k := phi (sdec n k).1.1 (sdec n k).1.2 (sdec n k).2.
pose ph k x := ev3 (P k) (X 0%N x) (X 1%N x) (X 2%N x).
rewrite (tet_shape ufc F0 mq0 G SV). eexists; exists (8%:R^-1 * jac_det 3 (verts F c)), ph; split; first by [].
split; last by rewrite JD mulrC expr_div_n -natrX.
split; first last.
- move=> i j Hi Hj. rewrite Hd size_exps3 in Hi Hj. rewrite integrate_triples.
  pose xx r s t := [:: ev3 (aff3 (verts F c) 0) r s t; ev3 (aff3 (verts F c) 1) r s t; ev3 (aff3 (verts F c) 2) r s t].
  have HX (r s t : F) q : (q < 3)%N -> X q (xx r s t) = 2%:R * nth 0 [:: r; s; t] q - 1.
  { move=> Hq. rewrite /X /=. have EA q' : ev3 (aff3 (verts F c) q') r s t = vco F c 0 q' + (vco F c 1 q' - vco F c 0 q') * r + (vco F c 2 q' - vco F c 0 q') * s + (vco F c 3 q' - vco F c 0 q') * t.
    { by rewrite ev3_aff. }
    rewrite !EA. have := Hv' 0%N q isT Hq. have := Hv' 1%N q isT Hq. have := Hv' 2%N q isT Hq. have := Hv' 3%N q isT Hq.
    move: (vco F c 0 0) (vco F c 0 1) (vco F c 0 2) (vco F c 1 0) (vco F c 1 1) (vco F c 1 2) (vco F c 2 0) (vco F c 2 1) (vco F c 2 2) (vco F c 3 0) (vco F c 3 1) (vco F c 3 2) (M q 0%N) (M q 1%N) (M q 2%N) (b q) => a0 a1 a2 b0 b1 b2 c0 c1 c2 d0 d1 d2 m0 m1 m2 e E4 E3 E2 E1.
    have -> : m0 * (a0 + (b0 - a0) * r + (c0 - a0) * s + (d0 - a0) * t) + m1 * (a1 + (b1 - a1) * r + (c1 - a1) * s + (d1 - a1) * t) + m2 * (a2 + (b2 - a2) * r + (c2 - a2) * s + (d2 - a2) * t) + e =
        (m0 * a0 + m1 * a1 + m2 * a2 + e) * (1 - r - s - t) + (m0 * b0 + m1 * b1 + m2 * b2 + e) * r + (m0 * c0 + m1 * c1 + m2 * c2 + e) * s + (m0 * d0 + m1 * d1 + m2 * d2 + e) * t by fring.
    rewrite E1 E2 E3 E4. case: q Hq {E1 E2 E3 E4} => [|[|[|q]]] // _ /=; rewrite !mulrS mulr0n addr0; fring. }
  have E4 : int_tet (P i * P j) = (i == j)%:R.
  { rewrite H4. have [_ Ei] := sdec_ok Hi. have [_ Ej] := sdec_ok Hj. case: (i =P j) => [->|Hij]; first by rewrite !eqxx.
    case: ifP => // /and3P [/eqP A /eqP B /eqP C]. case: Hij. by rewrite -Ei -Ej A B C. }
  have DP : deg3_le mq.*2.-1 (P i * P j).
  { have [Di _] := sdec_ok Hi. have [Dj _] := sdec_ok Hj. apply/D3_deg. 
    apply: (filtS (fD3 F) _ (filtM (fD3 F) (proj1 (D3_deg _ _) (H2 _ _ _)) (proj1 (D3_deg _ _) (H2 _ _ _)))). lia. }
  have M0 : (0 < mq.*2)%N by rewrite double_gt0.
  have := @tet_def F F0 mq.*2 _ _ _ _ _ _ (gp_exact F0 mq0 G (isT : (0 <= 2)%N)) (gp_exact F0 mq0 G (isT : (1 <= 2)%N)) (gp_exact F0 mq0 G (isT : (2 <= 2)%N)) _ M0 DP.
  rewrite E4 => ->. rewrite mulrA [RHS]mulr_sumr. apply: eq_bigr => x _. rewrite [RHS]mulr_sumr. apply: eq_bigr => y _. rewrite [RHS]mulr_sumr. apply: eq_bigr => z _.
  rewrite /ph -/(xx _ _ _) (HX _ _ _ 0%N) // (HX _ _ _ 1%N) // (HX _ _ _ 2%N) //=.
  have -> : 2%:R * hr x y z - 1 = 2%:R^-1 * 2%:R^-1 * (1 + x) * (1 - y) * (1 - z) - 1 by rewrite /hr /hs /ht -alg_xi3.
  have -> : 2%:R * hs y z - 1 = 2%:R^-1 * (1 + y) * (1 - z) - 1 by rewrite /hs /ht -alg_xi.
  have -> : 2%:R * ht z - 1 = z by rewrite /ht -alg_t.
  have -> : forall a e f, ev3 (P i * P j) a e f = ev3 (P i) a e f * ev3 (P j) a e f by move=> a e f; rewrite -!ev3mE rmorphM.
  move: (ev3 (P i) _ _ _) (ev3 (P j) _ _ _) => u1 u2. move: (gj_weight 0 0 mq x) (gj_weight 1 0 mq y) (gj_weight 2 0 mq z) (jac_det 3 (verts F c)) (8%:R^-1 : F) => u3 u4 u5 u6 u7. fring.
- move=> k j Hk. rewrite Hd size_exps3 => Hj.
  have Hj' : (j < tet_num n)%N by apply: (leq_trans Hj); rewrite !tet_numE; exact: T3_le.
  have [p [q [r [Hpq Epq]]]] := tet_idx_surj Hj. have Ep : sdec n j = (p, q, r) by rewrite -Epq sdec_idx //; exact: leq_trans Hk.
  apply: (@is_poly_ext _ _ _ (fun x => (fun y => ev3 (P j) (nth 0 y 0) (nth 0 y 1) (nth 0 y 2)) [:: X 0%N x; X 1%N x; X 2%N x])) => //.
  apply: (@is_poly_comp F 3 3 k (fun y => ev3 (P j) (nth 0 y 0) (nth 0 y 1) (nth 0 y 2)) (fun x => [:: X 0%N x; X 1%N x; X 2%N x])) => //.
  + exists (cf3 (P j)) => y _. rewrite pval3 //. rewrite /P Ep /= => a e f Hae. apply: H2. exact: leq_ltn_trans Hpq Hae.
  + have XP i : is_poly 3 1 (X i). 
    { apply: is_poly_ext (aff_is_poly 3 (M i) (b i)) => x _. by rewrite !big_ord_recl big_ord0 /= addr0 !addrA. }
    case=> [_|[_|[_|i]]] //; [exact: (XP 0%N)|exact: (XP 1%N)|exact: (XP 2%N)].
- move=> x. rewrite /exp_table E bindE Hd size_exps3 /tet_table /=.
  have [s [-> [Ss Hs]]] := H1 M b n [:: nth 0 x 0; nth 0 x 1; nth 0 x 2] n0.
  rewrite !bindE (full_ok (f := fun k => ph k x) Ss) // => k Hk. have [D Ek] := sdec_ok Hk. by rewrite -{1}Ek Hs.
- split; first by rewrite mulf_neq0 ?invr_eq0 ?F0 // JD expf_neq0 // scl0 //.
  by move=> x /flattenP [l /mapP [y _ ->]] /allpairsP [[u v] [_ _ ->]]; rewrite Hd.
Qed.
Lemma quad_ortho_ok c n : SpecFam.simplex c -> (2 <= sdim_of c)%N -> (0 < n < mq)%N -> forall ufc,
  exists r s ph, make_quadrature gjp (QSimp (sdim_of c) ufc (verts F c)) mq = Base.Ok r /\ (quad_ortho c n r s ph /\ s = (scl F c / 2%:R) ^+ sdim_of c).
Proof.
move=> Hc Hd Hn ufc. have [_ [_ Hd1]] := simplex_dim Hc.
case: (sdim_of c =P 2%N) => [E|E]; first by rewrite E; exact: quad_ortho2.
have E3 : sdim_of c = 3%N by lia. rewrite E3; exact: quad_ortho3.
Qed.
End Dub.
