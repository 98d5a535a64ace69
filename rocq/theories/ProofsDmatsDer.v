(** Derivations on iterated polynomials, and the jets of the three cells. *)
Set Warnings "-notation-overridden,-ambiguous-paths".
From mathcomp Require Import all_ssreflect all_algebra zify.
From Verif Require Base ModelIndex ProofsIndex.
From Verif Require Import FieldTac RingTac ModelJacobi SpecJacobi ProofsJacobi ProofsOrtho ModelExpansion SpecExpansion ProofsExpIdx ProofsExpProg ProofsExpOrtho ProofsExpDeg ModelDmats ProofsDmats ProofsDmatsCell.
Set Implicit Arguments. Unset Strict Implicit. Unset Printing Implicit Defensive.
Import GRing.Theory.
Local Open Scope ring_scope.

Lemma map_additive (A : comRingType) (f : {additive A -> A}) : additive (map_poly f : {poly A} -> {poly A}).
Proof. exact: raddfB. Qed.
Section Der.
Variable F : fieldType.
Notation poly2 := {poly {poly F}}.
Notation poly3 := {poly {poly {poly F}}}.
Lemma dx2_add : additive (@dx2 F). Proof. move=> P Q. exact: derivB. Qed.
Lemma dy2_add : additive (@dy2 F). Proof. move=> P Q. rewrite /dy2 raddfB. by []. Qed.
Lemma dx3_add : additive (@dx3 F). Proof. move=> P Q. exact: derivB. Qed.
Lemma dy3_add : additive (@dy3 F). Proof. move=> P Q. rewrite /dy3. exact: (raddfB (map_poly_additive [additive of @deriv [ringType of {poly F}]])). Qed.
Lemma dz3_add : additive (@dz3 F). Proof. move=> P Q. rewrite /dz3. exact: (raddfB (map_poly_additive (map_poly_additive [additive of @deriv F]))). Qed.
Definition d2 (i : nat) : {additive poly2 -> poly2} := if i == 0%N then Additive dx2_add else Additive dy2_add.
Definition d3 (i : nat) : {additive poly3 -> poly3} :=
  if i == 0%N then Additive dx3_add else if i == 1%N then Additive dy3_add else Additive dz3_add.
Lemma coef_dx2 P i j : (dx2 P)`_i`_j = (P`_i.+1`_j) *+ i.+1 :> F.
Proof. by rewrite coef_deriv coefMn. Qed.
Lemma coef_dy2 P i j : (dy2 P)`_i`_j = (P`_i`_j.+1) *+ j.+1 :> F.
Proof. by rewrite /dy2 coef_map /= coef_deriv. Qed.
Lemma coef_dx3 P i j k : (dx3 P)`_i`_j`_k = (P`_i.+1`_j`_k) *+ i.+1 :> F.
Proof. by rewrite coef_deriv !coefMn. Qed.
Lemma coef_dy3 P i j k : (dy3 P)`_i`_j`_k = (P`_i`_j.+1`_k) *+ j.+1 :> F.
Proof. by rewrite /dy3 coef_map /= coef_deriv coefMn. Qed.
Lemma coef_dz3 P i j k : (dz3 P)`_i`_j`_k = (P`_i`_j`_k.+1) *+ k.+1 :> F.
Proof. rewrite /dz3 coef_map_id0 ?map_poly0 // coef_map_id0 ?linear0 // coef_deriv //. Qed.
Lemma d2Z i c P : d2 i (emb2 F c * P) = emb2 F c * d2 i P.
Proof.
rewrite /d2. apply/polyP => a; apply/polyP => b. rewrite [RHS]/= coefCM coefCM.
case: ifP => _ /=; by rewrite ?coef_dx2 ?coef_dy2 !coefCM mulrnAr.
Qed.
Lemma d3Z i c P : d3 i (emb3 F c * P) = emb3 F c * d3 i P.
Proof.
rewrite /d3. apply/polyP => a; apply/polyP => b; apply/polyP => k. rewrite coefCM coefCM coefCM.
case: ifP => _ /=; [|case: ifP => _ /=]; by rewrite ?coef_dx3 ?coef_dy3 ?coef_dz3 !coefCM mulrnAr.
Qed.
Lemma d2_deg n i P : deg2_le n P -> deg2_le n (d2 i P).
Proof. move=> H a b Hab. rewrite /d2. case: ifP => _ /=; rewrite ?coef_dx2 ?coef_dy2 H ?mul0rn //; lia. Qed.
Lemma d3_deg n i P : deg3_le n P -> deg3_le n (d3 i P).
Proof.
move=> H a b k Hab. rewrite /d3. case: ifP => _ /=; [|case: ifP => _ /=]; rewrite ?coef_dx3 ?coef_dy3 ?coef_dz3 H ?mul0rn //; lia.
Qed.
Lemma d2_1 i : d2 i 1 = 0.
Proof.
apply/polyP => a; apply/polyP => b. rewrite /d2. case: ifP => _ /=; rewrite ?coef_dx2 ?coef_dy2 !coef0 coef1.
- by rewrite !coef0 mul0rn.
- by case: a => [|a]; rewrite ?coef1 ?coef0 ?mul0rn.
Qed.
Lemma d3_1 i : d3 i 1 = 0.
Proof.
apply/polyP => a; apply/polyP => b; apply/polyP => k. rewrite /d3. case: ifP => _ /=; [|case: ifP => _ /=]; rewrite ?coef_dx3 ?coef_dy3 ?coef_dz3 !coef0 coef1.
- by rewrite !coef0 mul0rn.
- by case: a => [|a]; rewrite ?coef1 ?coef0 ?mul0rn.
- case: a => [|a]; rewrite ?coef1 ?coef0 ?mul0rn //. by case: b => [|b]; rewrite ?coef1 ?coef0 ?mul0rn.
Qed.
End Der.

Section Jets.
Variable F : fieldType.
Hypothesis F0 : char_zero F.
Variable sqrt : F -> F.
Notation poly2 := {poly {poly F}}.
Notation poly3 := {poly {poly {poly F}}}.
Lemma mis_size sd i a : (0 < sd)%N -> List.In a (ModelIndex.mis sd i) -> size a = sd.
Proof. move=> H. rewrite ProofsIndex.mis_in; last by lia. by case. Qed.
Section Tri.
Variables (M : nat -> nat -> F) (b : nat -> F) (n : nat).
Lemma tri_dtildes_ok pts : tri_dtildes sqrt M b n pts = Ok (dtT (tri_num n) (tri_phi sqrt M b n) (@d2 F) (fun p => ev2m p.1 p.2) 2 pts).
Proof.
have H := tri_syms F0 sqrt M b n. rewrite /tri_dtildes. case: (tri_tabulate _ _ _ _ _ _) H => [s|//] /= ->. rewrite /=.
by rewrite /dtT /= -!map_comp.
Qed.
Definition tri_poly r (cf : 'M[F]_(r, tri_num n)) (x : 'I_r) : poly2 := \sum_k emb2 F (cf x k) * tri_phi sqrt M b n k.
Lemma tri_poly_deg r cf x : deg2_le n (@tri_poly r cf x).
Proof.
move=> i j Hij. rewrite /tri_poly coef_sum coef_sum big1 // => k _. by rewrite coefCM coefCM tri_phi_deg // mulr0.
Qed.
Lemma tri_jets_ok pts dm : tri_dmats sqrt M b n pts = Ok dm ->
  forall r (cf : 'M[F]_(r, tri_num n)) pts2 order, exists jets,
    tri_jets sqrt M b dm cf pts2 order = Ok jets /\
    [seq aA.1 | aA <- jets] = flatten [seq ModelIndex.mis 2 i | i <- iota 0 order.+1] /\
    forall a A, List.In (a, A) jets -> forall x j,
      A x j = ev2m (nth (0, 0) pts2 j).1 (nth (0, 0) pts2 j).2 (dalpha (@d2 F) a (tri_poly cf x)).
Proof.
rewrite /tri_dmats tri_table_ok // tri_dtildes_ok /= => Hdm r cf pts2 order. rewrite /tri_jets tri_table_ok //.
apply: (@jets_exact F _ (emb2 F) (tri_num n) (tri_phi sqrt M b n) (@mono2 F n) (@d2 F) (@d2Z F)
  (\matrix_(k, m) ((tri_phi sqrt M b n k)`_(tdec n m).1)`_(tdec n m).2)
  (fun i => \matrix_(k, m) ((d2 F i (tri_phi sqrt M b n k))`_(tdec n m).1)`_(tdec n m).2) _ _ _ (0, 0) (fun p => ev2m p.1 p.2) _ 2 n pts dm) => //.
- move=> k. rewrite {1}(decomp2 (tri_phi_deg sqrt M b (ltn_ord k))). apply: eq_bigr => m _. by rewrite mxE.
- move=> i k. rewrite {1}(decomp2 (d2_deg i (tri_phi_deg sqrt M b (ltn_ord k)))). apply: eq_bigr => m _. by rewrite mxE.
- move=> p c. exact: ev2m_c.
- move=> En. rewrite /tri_phi En eqxx. split=> //. split; [exists 1; rewrite ?oner_neq0 ?rmorph1 //|move=> i; exact: d2_1].
- move=> i a. exact: mis_size.
Qed.
End Tri.
Section Tet.
Variables (M : nat -> nat -> F) (b : nat -> F) (n : nat).
Lemma tet_dtildes_ok pts : tet_dtildes sqrt M b n pts = Ok (dtT (tet_num n) (tet_phi sqrt M b n) (@d3 F) (fun p => ev3m p.1.1 p.1.2 p.2) 3 pts).
Proof.
have H := tet_syms F0 sqrt M b n. rewrite /tet_dtildes. case: (tet_tabulate _ _ _ _ _ _) H => [s|//] /= ->. rewrite /=.
by rewrite /dtT /= -!map_comp.
Qed.
Definition tet_poly r (cf : 'M[F]_(r, tet_num n)) (x : 'I_r) : poly3 := \sum_k emb3 F (cf x k) * tet_phi sqrt M b n k.
Lemma tet_poly_deg r cf x : deg3_le n (@tet_poly r cf x).
Proof.
move=> i j l Hij. rewrite /tet_poly coef_sum coef_sum coef_sum big1 // => k _. by rewrite coefCM coefCM coefCM tet_phi_deg // mulr0.
Qed.
Lemma tet_jets_ok pts dm : tet_dmats sqrt M b n pts = Ok dm ->
  forall r (cf : 'M[F]_(r, tet_num n)) pts2 order, exists jets,
    tet_jets sqrt M b dm cf pts2 order = Ok jets /\
    [seq aA.1 | aA <- jets] = flatten [seq ModelIndex.mis 3 i | i <- iota 0 order.+1] /\
    forall a A, List.In (a, A) jets -> forall x j,
      A x j = ev3m (nth (0, 0, 0) pts2 j).1.1 (nth (0, 0, 0) pts2 j).1.2 (nth (0, 0, 0) pts2 j).2 (dalpha (@d3 F) a (tet_poly cf x)).
Proof.
rewrite /tet_dmats tet_table_ok // tet_dtildes_ok /= => Hdm r cf pts2 order. rewrite /tet_jets tet_table_ok //.
apply: (@jets_exact F _ (emb3 F) (tet_num n) (tet_phi sqrt M b n) (@mono3 F n) (@d3 F) (@d3Z F)
  (\matrix_(k, m) (((tet_phi sqrt M b n k)`_(sdec n m).1.1)`_(sdec n m).1.2)`_(sdec n m).2)
  (fun i => \matrix_(k, m) (((d3 F i (tet_phi sqrt M b n k))`_(sdec n m).1.1)`_(sdec n m).1.2)`_(sdec n m).2) _ _ _ (0, 0, 0)
  (fun p => ev3m p.1.1 p.1.2 p.2) _ 3 n pts dm) => //.
- move=> k. rewrite {1}(decomp3 (tet_phi_deg sqrt M b (ltn_ord k))). apply: eq_bigr => m _. by rewrite mxE.
- move=> i k. rewrite {1}(decomp3 (d3_deg i (tet_phi_deg sqrt M b (ltn_ord k)))). apply: eq_bigr => m _. by rewrite mxE.
- move=> p c. exact: ev3m_c.
- move=> En. rewrite /tet_phi En eqxx. split=> //. split; [exists 1; rewrite ?oner_neq0 ?rmorph1 //|move=> i; exact: d3_1].
- move=> i a. exact: mis_size.
Qed.
End Tet.
End Jets.
