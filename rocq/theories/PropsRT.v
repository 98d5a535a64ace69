(** C48: Raviart-Thomas elements end to end. *)
Set Warnings "-notation-overridden,-ambiguous-paths".
From mathcomp Require Import all_ssreflect all_algebra zify.
From Verif Require Base SpecConcat ModelIndex SpecIndex ModelCell ModelFam SpecFam ModelFunctional ProofsEntPts ProofsFam2 PropsFam.
From Verif Require Import SpecJacobi PropsExpansion ModelDual SpecDual ProofsDual ProofsDmatsReg ModelDmats ModelAffine ModelQuad SpecQuad SpecPoly SpecVec SpecRT ModelSpace ProofsLagLat ProofsSpaceCell ProofsVecElem
  ModelNormal SpecNormal PropsNormalCells PropsRefNormal ModelRT ProofsGaussReal PropsQuadPos ProofsRTSpace ProofsRTNodes ProofsRT ProofsRTWell ProofsRTConf.
Set Implicit Arguments. Unset Strict Implicit. Unset Printing Implicit Defensive.
Import Order.TTheory GRing.Theory Num.Theory.
Local Open Scope ring_scope.

Section C48.
Variable R : rcfType.
Notation arr := (seq (seq R)).
Notation K := (mcF R).
Notation nil_f := (@mkFunctional R [eqType of seq R] [::] [::] [::]).
Variables (sqrt : R -> R) (svd : arr -> arr * seq R * arr) (qr : arr -> arr * arr) (pop : seq nat -> nat) (gjp : nat -> nat -> nat -> seq R).
Hypotheses (Hsq : sqrt_exact sqrt) (Hsvd : svd_correct svd) (Hqr : qr_correct qr) (Hpop : pop_correct pop).
Let K0 := char0K (num_char0 R).
Notation rt_dim sd k := (sd * Base.binom (k - 1 + sd) sd + Base.binom (k - 1 + sd - 1) (sd - 1))%N.

(** the value of a field with coefficients [rt_cf m p q] is p + x q *)
Theorem C48_rt_field_value : forall (sd m : nat) (p : nat -> seq nat -> R) (q : seq nat -> R) i x, (i < sd)%N ->
  fval (rt_field sd m p q) [:: i] x = pval sd m (p i) x + nth 0 x i * pval sd m q x.
Proof. move=> sd m p q i x Hi. by rewrite /= pval_rt. Qed.

Lemma rt_any c k (el : ModelFam.element K) : solid c -> (0 < k < 10 ^ 8)%N -> gauss_points gjp (2 * k) ->
  ModelFam.el_nodes K el = @ProofsEntPts.rt_point_nodes K c (k - 1) ->
  exists fs U, [/\ map_res (vec_node svd qr pop c) (ModelFam.el_nodes K el) = Ok fs, size fs = rt_dim (sdim_of c) k,
    rt_element sqrt svd qr pop gjp c k (Base.Ok el) = Ok U & vec_nodal sqrt c k (@rt_space_of R (k - 1)) fs U].
Proof.
case: k => [|deg] // Hc /andP [_ Hk] HG. rewrite subn1 /= => Hel. have HG' : gauss_points gjp (2 * deg + 2) by rewrite -[(2 * deg + 2)%N]/(2 * deg + 2 * 1)%N -mulnDr addn1.
have [Hs sd2] := solid_simplex Hc. have Hd2 : (2 <= sdim_of c)%N by case/andP: sd2.
have [A [B [r [s [ph [HAB [SP Hr Es]]]]]]] := rt_sets_ok Hsq Hs Hd2 HG'.
have [A' [B' [fs [HAB' Hfs Hsz Hok _]]]] := rt_all Hsq Hsvd Hqr Hpop Hc HG' Hel. rewrite HAB in HAB'. case: HAB' => EA EB. rewrite -EA -EB in Hok.
have [|U [HU HV]] := Hok. { apply: (rt_well Hsq Hc HG' SP Hr Es). by rewrite addn2. }
by exists fs, U.
Qed.
(** RaviartThomas(cell, k), the point variant: on every triangle and tetrahedron
    and for every degree 1 <= k < 10^8 the constructor succeeds, and returns the
    basis of the fields p + x q, p and q of degree at most k - 1, that is dual to
    the nodes: normal components at the facet lattice points, components at the
    interior lattice points. *)
Theorem C48_raviart_thomas : forall c k, solid c -> (0 < k < 10 ^ 8)%N -> gauss_points gjp (2 * k) ->
  exists el fs U, [/\ ModelFam.RaviartThomas K c k ModelFam.VPoint = Base.Ok el,
    map_res (vec_node svd qr pop c) (ModelFam.el_nodes K el) = Ok fs, size fs = rt_dim (sdim_of c) k,
    raviart_thomas sqrt svd qr pop gjp c k = Ok U & vec_nodal sqrt c k (@rt_space_of R (k - 1)) fs U].
Proof.
move=> c k Hc Hk HG. have [Hs _] := solid_simplex Hc. have Ek : k = (k - 1).+1 by case: (k) Hk => // n _; rewrite subn1.
have [el [el' [E1 [_ [E2 _]]]]] := @ProofsEntPts.rt_nodes_point K K0 c (k - 1) Hs. rewrite -Ek in E1.
have [fs [U [F1 F2 F3 F4]]] := rt_any Hc Hk HG E2. exists el, fs, U. split=> //. by rewrite /raviart_thomas E1.
Qed.
(** DiscontinuousRaviartThomas(cell, k): the same basis *)
Theorem C48_discontinuous_raviart_thomas : forall c k, solid c -> (0 < k < 10 ^ 8)%N -> gauss_points gjp (2 * k) ->
  exists el fs U, [/\ ModelFam.DiscontinuousRaviartThomas K c k = Base.Ok el,
    map_res (vec_node svd qr pop c) (ModelFam.el_nodes K el) = Ok fs, size fs = rt_dim (sdim_of c) k,
    discontinuous_raviart_thomas sqrt svd qr pop gjp c k = Ok U & vec_nodal sqrt c k (@rt_space_of R (k - 1)) fs U].
Proof.
move=> c k Hc Hk HG. have [Hs _] := solid_simplex Hc. have Ek : k = (k - 1).+1 by case: (k) Hk => // n _; rewrite subn1.
have [el' [el [_ [E1 [_ [E2 _]]]]]] := @ProofsEntPts.rt_nodes_point K K0 c (k - 1) Hs. rewrite -Ek in E1.
have [fs [U [F1 F2 F3 F4]]] := rt_any Hc Hk HG E2. exists el, fs, U. split=> //. by rewrite /discontinuous_raviart_thomas E1.
Qed.
(** ... and for an arbitrary degree the only possible failure is the singular
    matrix that comes from dropping a small singular value of the stacked rows *)
Theorem C48_raviart_thomas_rank : forall c k, solid c -> (0 < k)%N -> gauss_points gjp (2 * k) ->
  exists A B, rt_sets sqrt gjp c (k - 1) = Ok (A, B) /\
    let N := size (exps (sdim_of c) k) in
    (well_conditioned (num_members A + num_members B) (sdim_of c * N) (union_rows N A B) -> exists U, raviart_thomas sqrt svd qr pop gjp c k = Ok U) /\
    (~ well_conditioned (num_members A + num_members B) (sdim_of c * N) (union_rows N A B) -> raviart_thomas sqrt svd qr pop gjp c k = Err Base.LinAlgError).
Proof.
move=> c [|deg] // Hc _ HG. rewrite subn1 /=. have HG' : gauss_points gjp (2 * deg + 2) by rewrite -[(2 * deg + 2)%N]/(2 * deg + 2 * 1)%N -mulnDr addn1.
have [Hs _] := solid_simplex Hc. have [el [el' [E1 [_ [E2 _]]]]] := @ProofsEntPts.rt_nodes_point K K0 c deg Hs.
have [A [B [fs [HAB Hfs Hsz Hok Hno]]]] := rt_all Hsq Hsvd Hqr Hpop Hc HG' E2. exists A, B. rewrite /raviart_thomas E1. split=> //.
split=> // /Hok [U [HU _]]. by exists U.
Qed.

Lemma map_res_nth (A : Type) (f : A -> result (functional R [eqType of seq R])) (l : seq A) fs k x : map_res f l = Ok fs -> List.nth_error l k = Some x ->
  (k < size fs)%N /\ f x = Ok (nth nil_f fs k).
Proof.
elim: l fs k => [|y l IH] fs [|k] //=; case Ey : (f y) => [g|] //=; case El : (map_res f l) => [gs|] //= -[<-].
- by move=> [<-].
- move=> H. exact: IH El H.
Qed.
(** H(div) conformity: a basis function registered on another entity than facet
    [e] has a vanishing normal component on the whole plane of [e], [n] being the
    scaled normal that the cell computes for [e] *)
Theorem C48_raviart_thomas_conforming : forall c k, solid c -> (0 < k < 10 ^ 8)%N -> gauss_points gjp (2 * k) ->
  exists el U, [/\ ModelFam.RaviartThomas K c k ModelFam.VPoint = Base.Ok el, raviart_thomas sqrt svd qr pop gjp c k = Ok U &
    forall e W n, facet_is c e W -> scaled_normal svd qr pop c e = Ok n ->
    forall d' e' j, List.In j (SpecCell.dofs_on (ModelFam.el_ids K el) (ModelCell.DI d', e')) -> (d', e') <> ((sdim_of c - 1)%N, e) ->
    forall x, in_plane (sdim_of c) (verts R c) W x ->
      \sum_(i < sdim_of c) nth 0 n i * fval (member (exp_set sqrt c k (size (exps (sdim_of c) k))) U j) [:: val i] x = 0].
Proof.
move=> c k Hc Hk HG. have [el [fs [U [H1 H2 H3 H4 HV]]]] := C48_raviart_thomas Hc Hk HG. have [Hs sd2] := solid_simplex Hc. exists el, U. split=> //.
move=> e W n HW Hn d' e' j Hj Hne x Hx. have Ek : k = (k - 1).+1 by case: (k) Hk => // m _; rewrite subn1.
have Ed : sdim_of c = (sdim_of c - 1).+1 by move: sd2; lia.
have k1 : (1 <= k)%coq_nat by apply/ssrnat.leP; case/andP: Hk.
have [el0 [E0 [_ [Hpl _]]]] := PropsFam.C34_raviart_thomas K K0 c k ModelFam.VPoint Hs k1 (or_introl erefl).
rewrite H1 in E0. case: E0 => E0. rewrite -E0 {el0 E0} in Hpl.
have [el1 [el2 [E1 [_ [E2 _]]]]] := @ProofsEntPts.rt_nodes_point K K0 c (k - 1) Hs. rewrite -Ek H1 in E1. case: E1 => E1. rewrite -E1 {E1} in E2.
have [nj [Nj Onj]] := Hpl d' e' j Hj. have [Jf _] := map_res_nth H2 Nj.
case: HV => V1 V2 V3 V4 _. have [cfs [p [q Ecf]] [Sv _]] := V3 j Jf.
have FV i y : (i < sdim_of c)%N -> fval (member (exp_set sqrt c k (size (exps (sdim_of c) k))) U j) [:: i] y = fval (rt_field (sdim_of c) (k - 1) p q) [:: i] y.
{ move=> Hi. by rewrite Sv // Ecf /rt_field -Ek. }
rewrite (eq_bigr (fun i : 'I_(sdim_of c) => nth 0 n i * fval (rt_field (sdim_of c) (k - 1) p q) [:: val i] x)); last by move=> i _; rewrite FV ?ltn_ord.
have TZ := @trace_zero R svd qr pop Hsvd Hqr Hpop c (k - 1) (sdim_of c - 1) Hc Ed p q e W n HW Hn. rewrite -!Ed in TZ. apply: TZ Hx => y Hy.
have Hin : List.In (ModelFam.PointScaledNormal K e y) (ModelFam.el_nodes K el).
{ rewrite E2. apply/List.in_app_iff. left. apply/List.in_flat_map. exists e. split.
  - apply/Base.in_range. rewrite solid_num //. have [i Hi HP] := facet_opp Hc HW. have : (e < (sdim_of c).+1)%N; last by lia.
    move: HW. rewrite /facet_is. clear -Hc. by case: Hc; case: e => [|[|[|[|e]]]].
  - apply/List.in_map_iff. exists y. split=> //. have -> : (sdim_of c + (k - 1))%coq_nat = (k - 1 + sdim_of c)%N by lia. exact: Hy. }
have [i Ei] := List.In_nth_error _ _ Hin. have [If Ef] := map_res_nth H2 Ei.
have Hij : i <> j. { move=> Eij. rewrite Eij Nj in Ei. case: Ei => Enj. rewrite Enj /= in Onj. case: Onj => O1 [O2 _]. apply: Hne. rewrite O2. congr pair. rewrite -O1. by rewrite subn1. }
have := V4 i j If Jf. have -> : (i == j) = false by apply/eqP. move: Ef. rewrite /vec_node Hn /= => -[<-].
rewrite (psn_apply Ed) -Ed => E. rewrite -[RHS]E. apply: eq_bigr => i1 _. by rewrite FV ?ltn_ord.
Qed.
End C48.

(** The hypotheses can be met: exact square roots, decompositions and quadrature
    points exist over every real closed field. *)
Example C48_example (R : rcfType) : exists sqrt svd qr pop gjp U, [/\ sqrt_exact sqrt, @svd_correct R svd, @qr_correct R qr & pop_correct pop] /\
  [/\ gauss_points gjp 4, raviart_thomas sqrt svd qr pop gjp ModelCell.UFCTriangle 2 = Ok U & num_members U = 8%N].
Proof.
have [svd [qr [pop [H1 H2 H3]]]] := C20_decompositions_exist R. have [_ H4] := C23_sqrt_witness_rcf R. have [gjp [H5 _]] := C28_points_exist R 4.
have k8 : (0 < 2 < 10 ^ 8)%N by rewrite -[2%N]expn1 ltn_exp2r.
have [el [fs [U [E1 E2 E3 E4 [E5 _ _ _ _]]]]] := C48_raviart_thomas H4 H1 H2 H3 so2 k8 H5.
exists Num.sqrt, svd, qr, pop, gjp, U. split; first by []. split=> //. by rewrite E5 E3.
Qed.
