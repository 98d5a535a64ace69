(** Substitution, the maps from the default simplices, and sums over the points
    of a rule. *)
Set Warnings "-notation-overridden,-ambiguous-paths".
From mathcomp Require Import all_ssreflect all_algebra zify.
From Verif Require Base.
From Verif Require Import FieldTac RingTac ModelJacobi SpecJacobi ProofsJacobi ProofsOrtho ProofsGauss
  ModelExpansion SpecExpansion ProofsExpOrtho ProofsExpDeg ModelAffine SpecAffine ProofsAffine PropsAffine ModelQuad SpecQuad ProofsQuad.
Set Implicit Arguments. Unset Strict Implicit. Unset Printing Implicit Defensive.
Import GRing.Theory.
Local Open Scope ring_scope.

Section Subst.
Variable F : fieldType.
Notation poly2 := {poly {poly F}}.
Notation poly3 := {poly {poly {poly F}}}.
Notation D1 := (lift (@base F)). Notation D2 := (lift D1). Notation D3 := (lift D2).
Lemma ev2_coef (P : poly2) x y : ev2 P x y = \sum_(i < size P) \sum_(j < size P`_i) P`_i`_j * x ^+ i * y ^+ j.
Proof.
rewrite /ev2 [P.[_%:P]]horner_coef horner_sum. apply: eq_bigr => i _. rewrite hornerM horner_exp hornerC horner_coef mulr_suml.
apply: eq_bigr => j _. by rewrite mulrAC.
Qed.
Lemma ev3_coef (P : poly3) x y z : ev3 P x y z =
  \sum_(i < size P) \sum_(j < size P`_i) \sum_(k < size P`_i`_j) P`_i`_j`_k * x ^+ i * y ^+ j * z ^+ k.
Proof.
have -> : ev3 P x y z = ev2m y z (P.[x%:P%:P]) by [].
rewrite [P.[_%:P]]horner_coef rmorph_sum. apply: eq_bigr => i _. rewrite rmorphM rmorphX (ev2m_c y z x : ev2m y z x%:P%:P = x) ev2mE ev2_coef.
rewrite mulr_suml. apply: eq_bigr => j _. rewrite mulr_suml. apply: eq_bigr => k _.
rewrite [LHS]mulrAC; congr (_ * _). exact: mulrAC.
Qed.
Lemma ev2_subst (P u v : poly2) s t : ev2 (subst2 P u v) s t = ev2 P (ev2 u s t) (ev2 v s t).
Proof.
rewrite [RHS]ev2_coef -ev2mE /subst2 rmorph_sum. apply: eq_bigr => i _. rewrite rmorph_sum. apply: eq_bigr => j _.
by rewrite !rmorphM !rmorphX (ev2m_c s t) !ev2mE.
Qed.
Lemma deg2_subst n (P u v : poly2) : deg2_le n P -> deg2_le 1 u -> deg2_le 1 v -> deg2_le n (subst2 P u v).
Proof.
move=> HP /D2_deg Hu /D2_deg Hv. apply/D2_deg. have f2 := fD2 F. apply: filt_sum => // i _. apply: filt_sum => // j _.
case: (leqP (i + j) n) => H.
- apply: (filtS f2 H). have := filtM f2 (filtM f2 (@D2c F (P`_i`_j)) (filt_exp i f2 Hu)) (filt_exp j f2 Hv).
  by rewrite !mul1n add0n.
- rewrite HP // !polyC0 !mul0r. exact: (filt0 f2).
Qed.
Lemma deg2_aff verts j : deg2_le 1 (aff2 verts j : poly2).
Proof.
apply/D2_deg. have f2 := fD2 F. rewrite /aff2. apply: (filtD f2); first apply: (filtD f2).
- exact: (filtW f2 (@D2c F _)).
- exact: (@filtM _ _ f2 0%N 1%N _ _ (@D2c F _) (D2X F)).
- exact: (@filtM _ _ f2 0%N 1%N _ _ (@D2c F _) (D2Y F)).
Qed.
Lemma ev2_aff verts j s t : ev2 (aff2 verts j) s t =
  vtx verts 0 j + (vtx verts 1 j - vtx verts 0 j) * s + (vtx verts 2 j - vtx verts 0 j) * t :> F.
Proof. 
rewrite /aff2. set a := vtx verts 1 j - _. set b := vtx verts 2 j - _. clearbody a b. move: (vtx verts 0 j) => c.
have H u : ev2m s t u%:P%:P = u := ev2m_c s t u. by rewrite -ev2mE !rmorphD !rmorphM !H (ev2m_X s t) (ev2m_Y s t).
Qed.
Lemma ev3_subst (P u v w : poly3) r s t : ev3 (subst3 P u v w) r s t = ev3 P (ev3 u r s t) (ev3 v r s t) (ev3 w r s t).
Proof.
rewrite [RHS]ev3_coef -ev3mE /subst3 rmorph_sum. apply: eq_bigr => i _. rewrite rmorph_sum. apply: eq_bigr => j _. rewrite rmorph_sum. apply: eq_bigr => k _.
have H c : ev3m r s t c%:P%:P%:P = c := ev3m_c r s t c. by rewrite !rmorphM !rmorphX H !ev3mE.
Qed.
Lemma deg3_subst n (P u v w : poly3) : deg3_le n P -> deg3_le 1 u -> deg3_le 1 v -> deg3_le 1 w -> deg3_le n (subst3 P u v w).
Proof.
move=> HP /D3_deg Hu /D3_deg Hv /D3_deg Hw. apply/D3_deg. have f3 := fD3 F. apply: filt_sum => // i _. apply: filt_sum => // j _. apply: filt_sum => // k _.
case: (leqP (i + j + k) n) => H.
- apply: (filtS f3 H). have := filtM f3 (filtM f3 (filtM f3 (@D3c F (P`_i`_j`_k)) (filt_exp i f3 Hu)) (filt_exp j f3 Hv)) (filt_exp k f3 Hw).
  by rewrite !mul1n add0n.
- rewrite HP // !polyC0 !mul0r. exact: (filt0 f3).
Qed.
Lemma deg3_aff verts j : deg3_le 1 (aff3 verts j : poly3).
Proof.
apply/D3_deg. have f3 := fD3 F. rewrite /aff3. apply: (filtD f3); first apply: (filtD f3); first apply: (filtD f3).
- exact: (filtW f3 (@D3c F _)).
- exact: (@filtM _ _ f3 0%N 1%N _ _ (@D3c F _) (D3X F)).
- exact: (@filtM _ _ f3 0%N 1%N _ _ (@D3c F _) (D3Y F)).
- exact: (@filtM _ _ f3 0%N 1%N _ _ (@D3c F _) (D3Z F)).
Qed.
Lemma ev3_aff verts j r s t : ev3 (aff3 verts j) r s t =
  vtx verts 0 j + (vtx verts 1 j - vtx verts 0 j) * r + (vtx verts 2 j - vtx verts 0 j) * s + (vtx verts 3 j - vtx verts 0 j) * t :> F.
Proof.
rewrite /aff3. set a := vtx verts 1 j - _. set b := vtx verts 2 j - _. set d := vtx verts 3 j - _. clearbody a b d. move: (vtx verts 0 j) => c.
have H u : ev3m r s t u%:P%:P%:P = u := ev3m_c r s t u. by rewrite -ev3mE !rmorphD !rmorphM !H (ev3m_X r s t) (ev3m_Y r s t) (ev3m_Z r s t).
Qed.
End Subst.

(** *** The maps from the default simplices *)
Section Map.
Variable F : fieldType.
Hypothesis T : 2%:R != 0 :> F.
Add Field FFm : (mc_field_theory F).
Lemma default_simplex1 : simplex_in 1 (default_verts F 1).
Proof.
split=> //; first by move=> x; rewrite !inE => /orP [] /eqP ->.
move=> c e H. have := H [:: -1]. have := H [:: 1]. rewrite !inE !eqxx /= ?orbT => /(_ isT) E1 /(_ isT) E2.
rewrite !big_ord_recl !big_ord0 /= in E1 E2. rewrite !addr0 mulr1 in E1. rewrite !addr0 mulrN1 in E2.
have E0 : e = 0 by apply: dbl0 => //; rewrite -[RHS](addr0 0) -{1}E1 -E2; fring.
have C0 : c 0%N = 0 by rewrite E0 addr0 in E1.
by split=> // -[|k].
Qed.
Lemma default_simplex2 : simplex_in 2 (default_verts F 2).
Proof.
split=> //; first by move=> x; rewrite !inE => /or3P [] /eqP ->.
move=> c e H. have := H [:: -1; -1]. have := H [:: 1; -1]. have := H [:: -1; 1]. rewrite !inE !eqxx /= !orbT => /(_ isT) E1 /(_ isT) E2 /(_ isT) E3.
rewrite !big_ord_recl !big_ord0 /= /bump /= !addr0 ?mulrN1 ?mulr1 -!addrA in E1 E2 E3.
have [||||Q0 Q1 Q2] // := @tri_solve _ (c 0%N) (c 1%N) e. by split=> // -[|[|k]].
Qed.
Lemma default_simplex3 : simplex_in 3 (default_verts F 3).
Proof.
split=> //; first by move=> x; rewrite !inE => /or4P [] /eqP ->.
move=> c e H. have := H [:: -1; -1; -1]. have := H [:: 1; -1; -1]. have := H [:: -1; 1; -1]. have := H [:: -1; -1; 1]. rewrite !inE !eqxx /= !orbT => /(_ isT) E1 /(_ isT) E2 /(_ isT) E3 /(_ isT) E4.
rewrite !big_ord_recl !big_ord0 /= /bump /= !addr0 ?mulrN1 ?mulr1 -!addrA ?addn0 ?addn1 in E1 E2 E3 E4.
have Q2 : c 2%N = 0 by apply: dbl0 => //; rewrite -[RHS](subrr 0) -{1}E1 -E4; fring.
have Q1 : c 1%N = 0 by apply: dbl0 => //; rewrite -[RHS](subrr 0) -{1}E2 -E4; fring.
have Q0 : c 0%N = 0 by apply: dbl0 => //; rewrite -[RHS](subrr 0) -{1}E3 -E4; fring.
rewrite Q0 Q1 Q2 !oppr0 !add0r in E4. by split=> // -[|[|[|k]]].
Qed.
Lemma np_detE d (A : seq (seq F)) : size A = d -> (forall r, r \in A -> size r = d) ->
  np_det A = Base.Ok (\det (\matrix_(i < d, j < d) nth 0 (nth [::] A i) j)).
Proof. move=> <- H. rewrite /np_det. have -> // : all (fun r => size r == size A) A by apply/allP => r /H ->; rewrite eqxx. Qed.
(** the determinant of the map, when its columns are half the edge vectors *)
Lemma det_scale d (A : seq (seq F)) (verts : seq (seq F)) :
  (forall i j, (i < d)%N -> (j < d)%N -> vtx verts i.+1 j - vtx verts 0 j = 2%:R * nth 0 (nth [::] A j) i) ->
  \det (\matrix_(i < d, j < d) nth 0 (nth [::] A i) j) = 2%:R ^- d * jac_det d verts.
Proof.
move=> H. rewrite /jac_det. have -> : \matrix_(i < d, j < d) (vtx verts i.+1 j - vtx verts 0 j) = 2%:R *: (\matrix_(i < d, j < d) nth 0 (nth [::] A i) j)^T.
{ apply/matrixP => i j. by rewrite !mxE H. }
by rewrite detZ det_tr mulKf // expf_neq0.
Qed.
Lemma nth_affine A b (x : seq F) j : (j < size b)%N -> nth 0 (affine A b x) j = \sum_(k < size x) nth 0 (nth [::] A j) k * nth 0 x k + nth 0 b j.
Proof. move=> H. by rewrite nth_mkseq. Qed.
Lemma seq2_eq (s : seq F) u v : size s = 2%N -> nth 0 s 0 = u -> nth 0 s 1 = v -> s = [:: u; v].
Proof. case: s => [|a [|b [|c s]]] //= _ -> ->. by []. Qed.
Lemma seq3_eq (s : seq F) u v w : size s = 3%N -> nth 0 s 0 = u -> nth 0 s 1 = v -> nth 0 s 2 = w -> s = [:: u; v; w].
Proof. case: s => [|a [|b [|c [|d s]]]] //= _ -> -> ->. by []. Qed.
Lemma alg1 (u v : F) : u = 2%:R^-1 * (u + v - (- u + v)).
Proof. move: T; rewrite !mulrS mulr0n => T'. ffield. nz. Qed.
Lemma alg2 (u v x : F) : u * x + v = - u + v + (u + v - (- u + v)) * (2%:R^-1 * (1 + x)).
Proof. move: T; rewrite !mulrS mulr0n => T'. ffield. nz. Qed.
Lemma map1 verts : simplex_verts 1 verts -> exists A b,
  [/\ make_affine_mapping (default_verts F 1) verts = Base.Ok (A, b), np_det A = Base.Ok (2%:R^-1 * (vtx verts 1 0 - vtx verts 0 0)) &
      forall x, [seq nth 0 (nth [::] A 0) 0 * x + bj | bj <- b] = [:: vtx verts 0 0 + (vtx verts 1 0 - vtx verts 0 0) * (2%:R^-1 * (1 + x))]].
Proof.
move=> [Sv Dv]. have [A [b [E [SA [RA Sb]] Hv _]]] := @C19_vertices_to_vertices F 1 1 (default_verts F 1) verts isT default_simplex1 Sv Dv.
exists A, b. have V i : (i < 2)%N -> vtx verts i 0 = nth 0 (nth [::] A 0) 0 * nth 0 (nth [::] (default_verts F 1) i) 0 + nth 0 b 0.
{ move=> Hi. rewrite /vtx -(Hv i Hi) nth_affine ?Sb //. by case: i Hi => [|[|i]] //= _; rewrite big_ord_recl big_ord0 addr0. }
have V0 := V 0%N isT. have V1 := V 1%N isT. rewrite /= mulrN1 in V0. rewrite /= mulr1 in V1.
split=> //.
- rewrite (np_detE SA RA) det_mx11 mxE V0 V1. congr (Base.Ok _). exact: alg1.
- move=> x. case: b Sb {E Hv V} V0 V1 => [|b0 [|b1 b]] //= _ -> ->. congr [:: _]. exact: alg2.
Qed.
Lemma map2 verts : simplex_verts 2 verts -> exists A b,
  [/\ make_affine_mapping (default_verts F 2) verts = Base.Ok (A, b), np_det A = Base.Ok (4%:R^-1 * jac_det 2 verts) &
      forall s t, affine A b [:: 2%:R * s - 1; 2%:R * t - 1] = [:: ev2 (aff2 verts 0) s t; ev2 (aff2 verts 1) s t]].
Proof.
move=> [Sv Dv]. have [A [b [E [SA [RA Sb]] Hv _]]] := @C19_vertices_to_vertices F 2 2 (default_verts F 2) verts isT default_simplex2 Sv Dv.
exists A, b. have V i j : (i < 3)%N -> (j < 2)%N -> vtx verts i j = nth 0 (nth [::] A j) 0 * vtx (default_verts F 2) i 0 + nth 0 (nth [::] A j) 1 * vtx (default_verts F 2) i 1 + nth 0 b j.
{ move=> Hi Hj. rewrite /vtx -(Hv i Hi) nth_affine ?Sb //. by case: i Hi => [|[|[|i]]] //= _; rewrite !big_ord_recl big_ord0 addr0. }
split=> //.
- rewrite (np_detE SA RA) (@det_scale 2 A verts).
  + rewrite -natrX. by [].
  + move=> i j Hi Hj. rewrite !V // /vtx. case: i Hi => [|[|i]] //= _; move: (nth 0 _ 0) (nth 0 _ 1) (nth 0 b j) => u v w; fring.
- move=> s t. have Q j : (j < 2)%N -> nth 0 (affine A b [:: 2%:R * s - 1; 2%:R * t - 1]) j = ev2 (aff2 verts j) s t.
  { move=> Hj. rewrite nth_affine ?Sb // !big_ord_recl big_ord0 addr0 /= ev2_aff !V // /vtx /=. move: (nth 0 _ 0) (nth 0 _ 1) (nth 0 b j) => u v w. fring. }
  apply: seq2_eq; [by rewrite size_mkseq|exact: Q|exact: Q].
Qed.
Lemma map3 verts : simplex_verts 3 verts -> exists A b,
  [/\ make_affine_mapping (default_verts F 3) verts = Base.Ok (A, b), np_det A = Base.Ok (8%:R^-1 * jac_det 3 verts) &
      forall r s t, affine A b [:: 2%:R * r - 1; 2%:R * s - 1; 2%:R * t - 1] = [:: ev3 (aff3 verts 0) r s t; ev3 (aff3 verts 1) r s t; ev3 (aff3 verts 2) r s t]].
Proof.
move=> [Sv Dv]. have [A [b [E [SA [RA Sb]] Hv _]]] := @C19_vertices_to_vertices F 3 3 (default_verts F 3) verts isT default_simplex3 Sv Dv.
exists A, b. have V i j : (i < 4)%N -> (j < 3)%N -> vtx verts i j = nth 0 (nth [::] A j) 0 * vtx (default_verts F 3) i 0 + nth 0 (nth [::] A j) 1 * vtx (default_verts F 3) i 1 + nth 0 (nth [::] A j) 2 * vtx (default_verts F 3) i 2 + nth 0 b j.
{ move=> Hi Hj. rewrite /vtx -(Hv i Hi) nth_affine ?Sb //. by case: i Hi => [|[|[|[|i]]]] //= _; rewrite !big_ord_recl big_ord0 addr0 -!addrA. }
split=> //.
- rewrite (np_detE SA RA) (@det_scale 3 A verts).
  + rewrite -natrX. by [].
  + move=> i j Hi Hj. rewrite !V // /vtx. case: i Hi => [|[|[|i]]] //= _; move: (nth 0 _ 0) (nth 0 _ 1) (nth 0 _ 2) (nth 0 b j) => u v w z; fring.
- move=> r s t. have Q j : (j < 3)%N -> nth 0 (affine A b [:: 2%:R * r - 1; 2%:R * s - 1; 2%:R * t - 1]) j = ev3 (aff3 verts j) r s t.
  { move=> Hj. rewrite nth_affine ?Sb // !big_ord_recl big_ord0 addr0 /= ev3_aff !V // /vtx /=. move: (nth 0 _ 0) (nth 0 _ 1) (nth 0 _ 2) (nth 0 b j) => u v w z. fring. }
  apply: seq3_eq; [by rewrite size_mkseq|exact: Q|exact: Q|exact: Q].
Qed.
End Map.
