(** Raviart-Thomas elements, end to end: the space of ProofsRTSpace.v, the nodes of
    ProofsRTNodes.v and the construction of ModelDual.v. *)
Set Warnings "-notation-overridden,-ambiguous-paths".
From mathcomp Require Import all_ssreflect all_algebra zify.
From Verif Require Base ModelIndex ModelPolySet ModelCell ModelFam SpecFam ModelQuad ProofsIndex ProofsEntPts.
From Verif Require Import ModelJacobi SpecJacobi ModelExpansion PropsExpansion ModelDmats ProofsDmats ModelAffine ModelQuad SpecQuad ModelDual SpecDual ProofsDual ProofsDmatsReg SpecPoly ModelSpace SpecVec SpecRT
  ProofsLagLat ProofsSpace ProofsSpaceCell ProofsElem ProofsPolyClo ProofsDubiner ProofsVecElem ModelNormal SpecNormal ProofsNormal PropsNormalCells ModelRT ProofsUnion ProofsRTSpace ProofsRTNodes ProofsGaussReal.
Set Implicit Arguments. Unset Strict Implicit. Unset Printing Implicit Defensive.
Import Order.TTheory GRing.Theory Num.Theory.
Local Open Scope ring_scope.

Section Coef.
Variable F : fieldType.
Hypothesis F0 : char_zero F.
Notation pt := [eqType of seq F].
Lemma coef_ext sd k (cf cg : seq nat -> F) : (1 <= sd <= 3)%N -> (forall x, size x = sd -> pval sd k cf x = pval sd k cg x) -> {in exps sd k, cf =1 cg}.
Proof.
move=> Hd H a Ha. apply/eqP. rewrite -subr_eq0. apply/eqP.
apply: (@grid_zero F sd k (fun a => cf a - cg a) (fun j => j%:R) Hd _ _ a Ha) => [i j|idx Hi _]; first exact: (natr_inj F0).
by rewrite pvalB H ?subrr // size_map.
Qed.
Lemma pder_ext sd k (cf cg : seq nat -> F) al x : {in exps sd k, cf =1 cg} -> pder sd k cf al x = pder sd k cg al x.
Proof. move=> H. apply: eq_big_seq => a Ha. by rewrite H. Qed.
Lemma vec_func_ext sd k (cf cg : nat -> seq nat -> F) : (1 <= sd <= 3)%N ->
  (forall i x, (i < sd)%N -> size x = sd -> pval sd k (cf i) x = pval sd k (cg i) x) -> same_vec sd (vec_func sd k cf) (vec_func sd k cg).
Proof.
move=> Hd H. split=> [i x Hi|i al x Hi Hal] /=.
- apply: pval_ext. apply: (coef_ext Hd) => y. exact: H.
- apply: pder_ext. apply: (coef_ext Hd) => y. exact: H.
Qed.
End Coef.

Section RT.
Variable R : rcfType.
Notation arr := (seq (seq R)).
Notation K := (mcF R).
Notation pt := [eqType of seq R].
Notation nil_f := (@mkFunctional R pt [::] [::] [::]).
Variables (sqrt : R -> R) (svd : arr -> arr * seq R * arr) (qr : arr -> arr * arr) (pop : seq nat -> nat) (gjp : nat -> nat -> nat -> seq R).
Hypotheses (Hsq : sqrt_exact sqrt) (Hsvd : svd_correct svd) (Hqr : qr_correct qr) (Hpop : pop_correct pop).
Variables (c : cell) (deg : nat).
Hypothesis Hc : solid c.
Hypothesis HG : gauss_points gjp (2 * deg + 2).
Notation sd := (sdim_of c).
Notation Nd k := (size (exps sd k)).
Notation N := (Nd deg.+1).
Notation N0 := (Nd deg).
Notation E := (exp_set sqrt c deg.+1 N).
Let Hs : SpecFam.simplex c := proj1 (solid_simplex Hc).
Let sd2 : (2 <= sd <= 3)%N := proj2 (solid_simplex Hc).
Let sd3 : (1 <= sd <= 3)%N. Proof. lia. Qed.
Let sd2a : (2 <= sd)%N. Proof. by case/andP: sd2. Qed.
Let R0 : char_zero R := num_char0 R.

Lemma Nlow_diff : (N0 - Nlow c deg)%N = Base.binom (deg + sd - 1) (sd - 1).
Proof.
rewrite /Nlow exps_size //. case E: deg => [|d].
- have -> : (0 + sd - 1)%N = (sd - 1)%N by []. rewrite add0n !ProofsIndex.binom_diag. by [].
- rewrite exps_size //. have E1 : sd = (sd - 1).+1 by lia. move: (sd - 1)%N E1 => e ->. have -> : (d.+1 + e.+1)%N = (d + e.+1).+1 by lia. rewrite ProofsIndex.binom_SS.
  have -> : ((d + e.+1).+1 - 1)%N = (d + e.+1)%N by lia. lia.
Qed.
Lemma N_diff : (N0 - Nlow c deg <= N - N0)%N.
Proof.
rewrite Nlow_diff !exps_size //. have E1 : sd = (sd - 1).+1 by lia. move: (sd - 1)%N E1 => e ->. have -> : (deg.+1 + e.+1)%N = (deg + e.+1).+1 by lia. rewrite ProofsIndex.binom_SS.
have -> : (deg + e.+1 - 1)%N = (deg + e)%N by lia. have -> : (deg + e.+1)%N = (deg + e).+1 by lia.
suff : (Base.binom (deg + e) e <= Base.binom (deg + e).+1 e)%N by lia. case: (e) => [|e']; first by case: (deg + 0)%N. rewrite ProofsIndex.binom_SS. lia.
Qed.

Variables (A B : polyset R) (r : rule R) (s : R) (ph : nat -> seq R -> R).
Hypothesis SP : sets_spec sqrt c deg A B r s ph.
Notation m := (num_members A + num_members B)%N.
Lemma AB_num : m = (sd * Base.binom (deg + sd) sd + Base.binom (deg + sd - 1) (sd - 1))%N.
Proof. case: SP => _ _ [-> ->] _ _. by rewrite Nlow_diff exps_size. Qed.
Lemma AB_le : (m <= size (comps (pshape A)) * N)%N.
Proof.
case: SP => _ [-> _] [-> ->] _ _. rewrite comps1 size_map size_iota. have := N_diff. have := N0_le c deg. 
move: sd2. nia.
Qed.
Lemma AB_gt0 : (0 < m)%N /\ (0 < size (comps (pshape A)) * N)%N.
Proof.
have H : (0 < m)%N. { case: SP => _ _ [-> ->] _ _. have : (0 < N0)%N by case: (exps sd deg) (exps_mem sd deg (nseq sd 0%N)) => //; rewrite size_nseq eqxx sumn_nseq. move: sd2. nia. }
split=> //. exact: leq_trans H AB_le.
Qed.

Lemma phi_ph k x : (k < N)%N -> phi E k x = ph k x.
Proof. move=> Hk. rewrite /= . case: SP => [[_ -> _ _] _ _ _ _]. by rewrite nth_map_iota. Qed.
Lemma expand_same (ro : rowT R) cfs : (forall i x, (i < sd)%N -> size x = sd -> \sum_(k < N) ro [:: i] k * ph k x = pval sd deg.+1 (cfs i) x) ->
  same_vec sd (expand E ro) (vec_func sd deg.+1 cfs).
Proof.
move=> H. have [cf [H1 _]] := expand_vec R0 Hsq deg.+1 Hs. apply: (same_vec_trans (H1 ro)). apply: (vec_func_ext R0 sd3) => i x Hi Hx.
have [G _] := H1 ro. rewrite -[LHS](G i x Hi) -H //= . apply: eq_bigr => k _. by rewrite -phi_ph.
Qed.
Variable U : polyset R.
Hypothesis HU : union_normalized svd N A B = Ok U.
Hypothesis Hfull : num_members U = m.
Let HAB : pshape A = pshape B. Proof. by case: SP => _ [-> ->]. Qed.
Let shpA : pshape A = [:: sd]. Proof. by case: SP => _ [-> _]. Qed.
Let shpU : pshape U = [:: sd].
Proof. have [m0 n0] := AB_gt0. have [-> _ _] := U_spec HAB HU. exact: shpA. Qed.
Let memi i : (i < sd)%N -> [:: i] \in comps (pshape A). Proof. move=> Hi. rewrite shpA. apply/comps1P. by exists i. Qed.
Lemma rows_val (a : nat -> R) i x : \sum_(k < N) (\sum_(j < m) a j * row_of A B j [:: i] k) * ph k x = \sum_(j < m) a j * (\sum_(k < N) row_of A B j [:: i] k * ph k x).
Proof.
under eq_bigr do rewrite mulr_suml. rewrite exchange_big /=. apply: eq_bigr => j _. rewrite mulr_sumr. apply: eq_bigr => k _. by rewrite mulrA.
Qed.
Lemma rt_HU1 a : exists2 cfs, rt_space_of deg cfs & same_vec sd (combination E U a) (vec_func sd deg.+1 cfs).
Proof.
have [m0 n0] := AB_gt0. have [b Hb] := U_full1 Hsvd HAB m0 n0 HU Hfull AB_le a.
have [p [q Hpq]] := rows_fwd sd2a SP b. exists (rt_cf deg p q); first by exists p, q.
apply: expand_same => i x Hi Hx. rewrite pval_rt // -Hpq // -rows_val. apply: eq_bigr => k _. by rewrite Hfull Hb ?memi.
Qed.
Lemma rt_HU2 cfs : rt_space_of deg cfs -> exists a, same_vec sd (vec_func sd deg.+1 cfs) (combination E U a).
Proof.
move=> [p [q ->]]. have [m0 n0] := AB_gt0. have [b Hpq] := rows_bwd sd2a SP p q. have [a Ha] := U_full2 Hsvd HAB m0 n0 HU Hfull AB_le b.
exists a. apply: same_vec_sym. apply: expand_same => i x Hi Hx. rewrite pval_rt // -Hpq // -rows_val. apply: eq_bigr => k _. by rewrite Hfull -Ha ?memi.
Qed.
Lemma rt_HUi (a : nat -> R) : (forall i k, (i < sd)%N -> (k < N)%N -> \sum_(j < num_members U) a j * coeffs U j [:: i] k = 0) ->
  forall j, (j < num_members U)%N -> a j = 0.
Proof.
move=> H j Hj. have [m0 n0] := AB_gt0.
transitivity (\sum_(l < num_members U) a l * (\sum_(cc <- comps (pshape A)) \sum_(k < N) coeffs U l cc k * coeffs U j cc k)).
- rewrite (bigD1 (Ordinal Hj)) //= (U_orth Hsvd HAB m0 n0 HU) // eqxx mulr1 big1 ?addr0 // => l Hl. rewrite (U_orth Hsvd HAB m0 n0 HU) //.
  have -> : (l == j :> nat) = false by apply/eqP => El; case/eqP: Hl; exact: val_inj. by rewrite mulr0.
- under eq_bigr do rewrite mulr_sumr. rewrite exchange_big big1_seq //= => cc. rewrite shpA => /comps1P [i Hi ->].
  under eq_bigr do rewrite mulr_sumr. rewrite exchange_big big1 //= => k _. under eq_bigr do rewrite mulrA. by rewrite -mulr_suml H // mul0r.
Qed.
Lemma rt_good fs : (0 < size fs)%N -> (forall k, (k < size fs)%N -> vec_fn sd.-1 (nth nil_f fs k)) -> forall U', pshape U' = [:: sd] -> good_nodes E fs U'.
Proof.
clear Hfull HU. have Es : sd.-1.+1 = sd by lia.
move=> H0 Hf U' HU'. rewrite /good_nodes HU'. split=> //.
- rewrite -nth0. have [-> _ _] := Hf 0%N H0. by rewrite Es.
- apply/(all_nthP nil_f) => k Hk. have [_ _ H] := Hf k Hk. rewrite -Es. exact: H.
- move=> /(has_nthP nil_f) [k Hk]. by have [_ -> _] := Hf k Hk.
Qed.
End RT.

Section RTMain.
Variable R : rcfType.
Notation arr := (seq (seq R)).
Notation K := (mcF R).
Notation pt := [eqType of seq R].
Notation nil_f := (@mkFunctional R pt [::] [::] [::]).
Variables (sqrt : R -> R) (svd : arr -> arr * seq R * arr) (qr : arr -> arr * arr) (pop : seq nat -> nat) (gjp : nat -> nat -> nat -> seq R).
Hypotheses (Hsq : sqrt_exact sqrt) (Hsvd : svd_correct svd) (Hqr : qr_correct qr) (Hpop : pop_correct pop).
Variables (c : cell) (deg : nat).
Hypothesis Hc : solid c.
Hypothesis HG : gauss_points gjp (2 * deg + 2).
Notation sd := (sdim_of c).
Notation N := (size (exps sd deg.+1)).

Lemma rt_all el : ModelFam.el_nodes K el = @ProofsEntPts.rt_point_nodes K c deg ->
  exists A B fs, [/\ rt_sets sqrt gjp c deg = Ok (A, B), map_res (vec_node svd qr pop c) (ModelFam.el_nodes K el) = Ok fs,
    size fs = (sd * Base.binom (deg + sd) sd + Base.binom (deg + sd - 1) (sd - 1))%N,
    well_conditioned (num_members A + num_members B) (sd * N) (union_rows N A B) ->
      exists U, rt_element sqrt svd qr pop gjp c deg.+1 (Base.Ok el) = Ok U /\ vec_nodal sqrt c deg.+1 (@rt_space_of R deg) fs U &
    ~ well_conditioned (num_members A + num_members B) (sd * N) (union_rows N A B) -> rt_element sqrt svd qr pop gjp c deg.+1 (Base.Ok el) = Err Base.LinAlgError].
Proof.
have [Hs sd2] := solid_simplex Hc. have Ed : sd = sd.-1.+1 by lia. have Hd2 : (2 <= sd)%N by lia. move=> Hel.
have [A [B [r [s [ph [HAB [SP _ _]]]]]]] := rt_sets_ok Hsq Hs Hd2 HG.
have [fs [F1 F2 F3 F4]] := rt_fs Hsvd Hqr Hpop deg Hc Ed.
have F5 : size fs = (sd * Base.binom (deg + sd) sd + Base.binom (deg + sd - 1) (sd - 1))%N.
{ have [el1 [el2 [_ [_ [_ [_ H]]]]]] := @ProofsEntPts.rt_nodes_point K (char0K (num_char0 R)) c deg Hs. rewrite F2. exact: H. }
have m0 : (0 < num_members A + num_members B)%N by case: (AB_gt0 Hc SP).
have n0 : (0 < size (comps (pshape A)) * N)%N by case: (AB_gt0 Hc SP).
have sh : pshape A = pshape B by case: SP => _ [-> ->].
have shA : size (comps (pshape A)) = sd by case: SP => _ [-> _]; rewrite comps1 size_map size_iota.
have [U [HU U1 U2 U3]] := union_ok svd N sh.
have Hm : size fs = (num_members A + num_members B)%N by rewrite F5 (AB_num Hc SP).
have Hiff := U_full_iff Hsvd sh m0 n0 HU (AB_le Hc SP). rewrite shA in Hiff.
have El : rt_element sqrt svd qr pop gjp c deg.+1 (Base.Ok el) = ciarlet (exp_set sqrt c deg.+1 N) fs U.
{ rewrite /rt_element /rt_space subSS subn0 /dim_of (dim_ok Hsq Hs) /= HAB /= HU /= Hel F1. by []. }
have HGd : good_nodes (exp_set sqrt c deg.+1 N) fs U.
{ apply: (rt_good sqrt deg Hc _ F3); first by rewrite Hm. by rewrite U1; case: SP => _ [-> _]. }
exists A, B, fs. split=> //; first by rewrite Hel.
- move/Hiff => Hfull. rewrite El.
  apply: (@velem_ok R (num_char0 R) sqrt Hsq c deg.+1 Hs U fs (@rt_space_of R deg) HGd) => //.
  + by rewrite U1; case: SP => _ [-> _].
  + by rewrite Hfull.
  + exact: (rt_HU1 Hsq Hsvd Hc SP HU Hfull).
  + exact: (rt_HU2 Hsq Hsvd Hc SP HU Hfull).
  + exact: (rt_HUi Hsvd Hc SP HU).
  + move=> _ [p [q ->]] H i x Hi Hx. move: (rt_det Hsvd Hqr Hpop Hc Ed F1 (p := p) (q := q)). rewrite -Ed. apply=> //.
- move=> Hn. rewrite El. have [Rz [_ ->]] := ciarlet_cases HGd. have -> : size fs != num_members U; last by []. 
  apply/eqP => Hx. apply: Hn. apply/Hiff. by rewrite -Hx Hm.
Qed.
End RTMain.
