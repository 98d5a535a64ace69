(** C28, continued: the Gauss-Jacobi points exist for every number of points,
    the weights are positive and the points lie inside the cell. *)
Set Warnings "-notation-overridden,-ambiguous-paths".
From mathcomp Require Import all_ssreflect all_algebra zify.
From Verif Require Base.
From Verif Require Import FieldTac RingTac ModelJacobi SpecJacobi ProofsJacobi ProofsOrthopoly SpecExpansion ModelQuad SpecQuad ProofsQuad ProofsQuadMap PropsQuad ProofsGaussReal.
Set Implicit Arguments. Unset Strict Implicit. Unset Printing Implicit Defensive.
Import Order.TTheory GRing.Theory Num.Theory.
Local Open Scope ring_scope.

(** Over every real closed field (the real algebraic numbers, for instance)
    there are points satisfying the hypothesis [gauss_points] of C28, for every
    [m]; they are determined up to order. *)
Theorem C28_points_exist : forall (R : rcfType) (m : nat),
  exists gjp, gauss_points gjp m /\
    forall gjp' : nat -> nat -> nat -> seq R, (0 < m)%N -> gauss_points gjp' m -> forall a, (a <= 2)%N -> perm_eq (gjp' a 0%N m) (gjp a 0%N m).
Proof.
move=> R m. have [x0 [A0 B0 C0]] := real_roots R 0 m. have [x1 [A1 B1 C1]] := real_roots R 1 m. have [x2 [A2 B2 C2]] := real_roots R 2 m.
exists (fun a _ _ => match a with 0 => x0 | 1 => x1 | _ => x2 end)%N. 
have G : gauss_points (fun a _ _ => match a with 0 => x0 | 1 => x1 | _ => x2 end)%N m.
{ move=> [|[|[|a]]] //= _; split=> //; exact: allP. }
split=> // gjp' m0 G' a Ha. have [S U A] := G a Ha. have [S' U' A'] := G' a Ha.
have R0 := nat_neq0 (@num_char0 R).
have sub : {subset gjp' a 0%N m <= match a with 0 => x0 | 1 => x1 | _ => x2 end}%N.
{ move=> x Hx. apply: contraT => Nx. have := @max_poly_roots _ (jacobi_poly a%:R 0 m) (x :: (match a with 0 => x0 | 1 => x1 | _ => x2 end)%N).
  move=> /(_ (ProofsGauss.P0n (@num_char0 R) a m)). rewrite (ProofsGauss.sizeP (@num_char0 R)) /= Nx U S ltnn /=. apply=> //. rewrite (A' _ Hx) /=. exact/allP. }
apply: uniq_perm => //. apply: (uniq_min_size U' sub _).2. by rewrite S S'.
Qed.

(** A point is strictly inside the simplex: a convex combination of the
    vertices with positive coefficients. *)
Definition inside (F : realFieldType) (d : nat) (verts : seq (seq F)) (p : seq F) : Prop :=
  exists l : seq F, [/\ size l = d.+1, all (fun c => 0 < c) l, \sum_(c <- l) c = 1 &
    p = mkseq (fun j => \sum_(i < d.+1) nth 0 l i * vtx verts i j) d].

Section P.
Variable F : realFieldType.
Let F0 := @num_char0 F.
Lemma ht_in (x : F) : -1 < x < 1 -> 0 < ht x < 1.
Proof.
move=> /andP [L U]. have T : 0 < 2%:R^-1 :> F by rewrite invr_gt0 ltr0n.
have L' : 0 < 1 + x by rewrite -(ltr_add2l (-1)) addr0 addKr. apply/andP; split; first exact: mulr_gt0.
rewrite /ht mulrC ltr_pdivr_mulr ?ltr0n // mul1r mulrS ltr_add2l. exact: U.
Qed.
Lemma gp_in gjp m a x : (0 < m)%N -> gauss_points gjp m -> (a <= 2)%N -> x \in gjp a 0%N m -> 0 < ht x < 1 /\ 0 < gj_weight a 0 m x :> F.
Proof.
case: m => // n _ G Ha Hx. have [S U A] := G a Ha. have [|L W] := @root_loc F a n (gjp a 0%N n.+1) x S U _ Hx; first exact/allP.
by split=> //; exact: ht_in.
Qed.
Lemma frac_in (u v : F) : 0 < u < 1 -> 0 < v -> 0 < u * v < v.
Proof. move=> /andP [A B] C. by rewrite mulr_gt0 //= gtr_pmull. Qed.
Lemma sg_pos (c w : F) : 0 < c -> Num.sg (w * c) = Num.sg w. Proof. by move=> H; rewrite sgrM (gtr0_sg H) mulr1. Qed.
Lemma sg_posl (c w : F) : 0 < c -> Num.sg (c * w) = Num.sg w. Proof. by move=> H; rewrite sgrM (gtr0_sg H) mul1r. Qed.
End P.

Section Q.
Variable F : fieldType.
Add Field FFz : (mc_field_theory F).
Lemma aff2_comb verts j (s t : F) : ev2 (aff2 verts j) s t = \sum_(i < 3) nth 0 [:: 1 - s - t; s; t] i * vtx verts i j.
Proof. rewrite ev2_aff !big_ord_recl big_ord0 /= /bump /= ?addn0 ?add1n. move: (vtx verts 0 j) (vtx verts 1 j) (vtx verts 2 j) => u v w. fring. Qed.
Lemma aff3_comb verts j (r s t : F) : ev3 (aff3 verts j) r s t = \sum_(i < 4) nth 0 [:: 1 - r - s - t; r; s; t] i * vtx verts i j.
Proof. rewrite ev3_aff !big_ord_recl big_ord0 /= /bump /= ?addn0 ?add1n. move: (vtx verts 0 j) (vtx verts 1 j) (vtx verts 2 j) (vtx verts 3 j) => u v w z. fring. Qed.
Lemma aff1_comb (u v t : F) : u + t * (v - u) = (1 - t) * u + t * v. Proof. fring. Qed.
End Q.

(** Points strictly inside the cell; every weight has the sign of the
    orientation of the vertices (so all are positive on a positively oriented
    cell). *)
Theorem C28_positive : forall (F : realFieldType) (gjp : nat -> nat -> nat -> seq F) (m d : nat) (ufc : bool) (verts : seq (seq F)) r,
  (0 < m)%N -> gauss_points gjp m -> (0 < d <= 3)%N -> simplex_verts d verts ->
  make_quadrature gjp (QSimp d ufc verts) m = Base.Ok r ->
  (forall p, p \in q_pts r -> inside d verts p) /\
  (forall w, w \in q_wts r -> Num.sg w = Num.sg (jac_det d verts)).
Proof.
move=> F gjp m [|[|[|[|d]]]] // ufc verts r m0 G _ Sv E; have F0 := @num_char0 F; have H0 : 0 < 2%:R^-1 :> F by rewrite invr_gt0 ltr0n.
- move: E; rewrite (line_shape ufc F0 m0 G Sv) => -[<-] /=. split=> [p /mapP [x Hx ->]|w /mapP [x Hx ->]]; have [/andP [A B] W] := gp_in m0 G (isT : (0 <= 2)%N) Hx.
  + exists [:: 1 - ht x; ht x]; split=> //; first by rewrite /= subr_gt0 A B.
    * by rewrite big_cons big_seq1 subrK.
    * by rewrite /mkseq /= !big_ord_recl big_ord0 /= addr0 aff1_comb.
  + rewrite sg_pos // sg_posl //. by rewrite /jac_det det_mx11 mxE.
- move: E; rewrite (tri_shape ufc F0 m0 G Sv) => -[<-] /=. split=> [p /allpairsP [[x y] [/= Hx Hy ->]]|w /allpairsP [[x y] [/= Hx Hy ->]]];
    have [Ax Wx] := gp_in m0 G (isT : (0 <= 2)%N) Hx; have [Ay Wy] := gp_in m0 G (isT : (1 <= 2)%N) Hy.
  + have Ay' : 0 < 1 - ht y by rewrite subr_gt0; case/andP: Ay. have /andP [S1 S2] := frac_in Ax Ay'. rewrite -/(hs x y) in S1 S2.
    have Ht : 0 < ht y by case/andP: Ay.
    exists [:: 1 - hs x y - ht y; hs x y; ht y]; split=> //.
    * rewrite /= S1 Ht /= !andbT. have -> : 1 - hs x y - ht y = 1 - ht y - hs x y by rewrite addrAC. by rewrite subr_gt0.
    * rewrite !big_cons big_nil. move: (hs x y) (ht y) => u v. by rewrite addr0 -[1 - u - v]addrA -opprD subrK.
    * by rewrite /mkseq /= !aff2_comb.
  + by rewrite 2?sg_pos // 2?sg_posl // ?invr_gt0 ?ltr0n.
- move: E; rewrite (tet_shape ufc F0 m0 G Sv) => -[<-] /=.
  split=> [p /flattenP [l /mapP [x Hx ->] /allpairsP [[y z] [/= Hy Hz ->]]]|w /flattenP [l /mapP [x Hx ->] /allpairsP [[y z] [/= Hy Hz ->]]]];
    have [Ax Wx] := gp_in m0 G (isT : (0 <= 2)%N) Hx; have [Ay Wy] := gp_in m0 G (isT : (1 <= 2)%N) Hy; have [Az Wz] := gp_in m0 G (isT : (2 <= 2)%N) Hz.
  + have Az' : 0 < 1 - ht z by rewrite subr_gt0; case/andP: Az. have /andP [S1 S2] := frac_in Ay Az'. rewrite -/(hs y z) in S1 S2.
    have S2' : 0 < 1 - hs y z - ht z by rewrite addrAC subr_gt0. have /andP [R1 R2] := frac_in Ax S2'. rewrite -/(hr x y z) in R1 R2.
    have Ht : 0 < ht z by case/andP: Az.
    exists [:: 1 - hr x y z - hs y z - ht z; hr x y z; hs y z; ht z]; split=> //.
    * rewrite /= R1 S1 Ht /= !andbT. have -> : 1 - hr x y z - hs y z - ht z = 1 - hs y z - ht z - hr x y z by rewrite -!addrA; congr (_ + _); rewrite addrC addrA.
      by rewrite subr_gt0.
    * rewrite !big_cons big_nil. move: (hr x y z) (hs y z) (ht z) => u v w. have -> : 1 - u - v - w = 1 - (u + (v + w)) by rewrite !opprD !addrA. by rewrite addr0 subrK.
    * by rewrite /mkseq /= !aff3_comb.
  + by rewrite 4?sg_pos // 1?sg_posl // ?invr_gt0 ?ltr0n.
Qed.
