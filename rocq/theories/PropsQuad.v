(** C28: the Gauss-Jacobi line rule and the collapsed rules on triangles and
    tetrahedra. *)
Set Warnings "-notation-overridden,-ambiguous-paths".
From mathcomp Require Import all_ssreflect all_algebra zify.
From Verif Require Base.
From Verif Require Import FieldTac RingTac ModelJacobi SpecJacobi ProofsJacobi ProofsOrtho ProofsOrthopoly ProofsGauss
  ModelExpansion SpecExpansion ProofsExpOrtho ProofsExpDeg ModelAffine SpecAffine ProofsAffine PropsAffine ModelQuad SpecQuad ProofsQuad ProofsQuadMap.
Set Implicit Arguments. Unset Strict Implicit. Unset Printing Implicit Defensive.
Import GRing.Theory.
Local Open Scope ring_scope.

Section Sums.
Variables (F : fieldType).
Lemma integrate_map (T : Type) c (s : seq T) (pt : T -> seq F) (wt : T -> F) f :
  integrate (Rule c [seq pt x | x <- s] [seq wt x | x <- s]) f = \sum_(x <- s) wt x * f (pt x).
Proof. rewrite /integrate /=. elim: s => [|x s IH] /=; first by rewrite !big_nil. by rewrite !big_cons IH. Qed.
Lemma integrate_pairs (T U : Type) c (s : seq T) (t : seq U) (pt : T -> U -> seq F) (wt : T -> U -> F) f :
  integrate (Rule c [seq pt x y | x <- s, y <- t] [seq wt x y | x <- s, y <- t]) f = \sum_(x <- s) \sum_(y <- t) wt x y * f (pt x y).
Proof.
rewrite /integrate /=. elim: s => [|x s IH] /=; first by rewrite !big_nil.
by rewrite zip_cat ?size_map // big_cat /= IH big_cons; congr (_ + _); exact: (integrate_map c t (pt x) (wt x) f).
Qed.
Lemma integrate_triples (T U V : Type) c (s : seq T) (t : seq U) (r : seq V) (pt : T -> U -> V -> seq F) (wt : T -> U -> V -> F) f :
  integrate (Rule c (flatten [seq [seq pt x y z | y <- t, z <- r] | x <- s]) (flatten [seq [seq wt x y z | y <- t, z <- r] | x <- s])) f =
  \sum_(x <- s) \sum_(y <- t) \sum_(z <- r) wt x y z * f (pt x y z).
Proof.
rewrite /integrate /=. elim: s => [|x s IH] /=; first by rewrite !big_nil.
by rewrite zip_cat ?size_allpairs // big_cat /= IH big_cons; congr (_ + _); exact: (integrate_pairs c t r (pt x) (wt x) f).
Qed.
End Sums.

Section P.
Variables (F : fieldType) (gjp : nat -> nat -> nat -> seq F).
Hypothesis F0 : char_zero F.
Let T := two_neq0 F0.
Add Field FFq : (mc_field_theory F).
Notation half := (2%:R^-1 : F).

Lemma gp_exact m a : (0 < m)%N -> gauss_points gjp m -> (a <= 2)%N -> forall p : {poly F}, (size p <= m.*2)%N ->
  jweight a p = \sum_(x <- gjp a 0%N m) gj_weight a 0 m x * p.[x].
Proof.
case: m => // n _ G Ha p Sp. have [S U R] := G a Ha. apply: (gj_exact F0 S U _ Sp). exact/allP.
Qed.
Lemma alg_xi (x y : F) : half * (1 + x) * (1 - y) - 1 = 2%:R * (half * (1 + x) * (1 - half * (1 + y))) - 1.
Proof. move: T; rewrite !mulrS mulr0n => T'. ffield. nz. Qed.
Lemma alg_t (y : F) : y = 2%:R * (half * (1 + y)) - 1.
Proof. move: T; rewrite !mulrS mulr0n => T'. ffield. nz. Qed.
Lemma alg_xi3 (x y z : F) : half * half * (1 + x) * (1 - y) * (1 - z) - 1 =
  2%:R * (half * (1 + x) * (1 - half * (1 + y) * (1 - half * (1 + z)) - half * (1 + z))) - 1.
Proof. move: T; rewrite !mulrS mulr0n => T'. ffield. nz. Qed.
End P.

(** *** The rules in closed form *)
Section Shapes.
Variables (F : fieldType) (gjp : nat -> nat -> nat -> seq F) (m : nat) (ufc : bool) (verts : seq (seq F)).
Hypotheses (F0 : char_zero F) (m0 : (0 < m)%N) (G : gauss_points gjp m).
Let T := two_neq0 F0.
Notation h := (2%:R^-1 : F).
Definition ht (y : F) := h * (1 + y).
Definition hs (x y : F) := h * (1 + x) * (1 - ht y).
Definition hr (x y z : F) := h * (1 + x) * (1 - hs y z - ht z).
Lemma line_shape : simplex_verts 1 verts -> make_quadrature gjp (QSimp 1 ufc verts) m =
  Base.Ok (Rule (QSimp 1 ufc verts)
    [seq [:: vtx verts 0 0 + ht x * (vtx verts 1 0 - vtx verts 0 0)] | x <- gjp 0%N 0%N m]
    [seq h * (vtx verts 1 0 - vtx verts 0 0) * gj_weight 0 0 m x | x <- gjp 0%N 0%N m]).
Proof.
move=> Sv. have [A [b [E D M]]] := map1 T Sv. have [S _ _] := G (isT : (0 <= 2)%N).
rewrite /make_quadrature (negbTE (lt0n_neq0 m0)) /gj_line_rule /map_line_rule E /= D /=.
rewrite (eq_map (fun x => M x)) -map_comp /quadrature_rule !size_map eqxx /=. congr (Base.Ok (Rule _ _ _)).
apply: eq_map => x. by rewrite /ht mulrC.
Qed.
Lemma tri_shape : simplex_verts 2 verts -> make_quadrature gjp (QSimp 2 ufc verts) m =
  Base.Ok (Rule (QSimp 2 ufc verts)
    [seq [:: ev2 (aff2 verts 0) (hs x y) (ht y); ev2 (aff2 verts 1) (hs x y) (ht y)] | x <- gjp 0%N 0%N m, y <- gjp 1%N 0%N m]
    [seq h * (4%:R^-1 * jac_det 2 verts) * gj_weight 0 0 m x * gj_weight 1 0 m y | x <- gjp 0%N 0%N m, y <- gjp 1%N 0%N m]).
Proof.
move=> Sv. have [A [b [E D M]]] := map2 T Sv. have [S0 _ _] := G (isT : (0 <= 2)%N). have [S1 _ _] := G (isT : (1 <= 2)%N).
rewrite /make_quadrature (negbTE (lt0n_neq0 m0)) /collapsed_triangle /gauss_jacobi_rule E /= D /=.
rewrite map_allpairs allpairs_mapl allpairs_mapr.
have -> : [seq affine A b [:: h * (1 + x) * (1 - y) - 1; y] | x <- gjp 0%N 0%N m, y <- gjp 1%N 0%N m] =
          [seq [:: ev2 (aff2 verts 0) (hs x y) (ht y); ev2 (aff2 verts 1) (hs x y) (ht y)] | x <- gjp 0%N 0%N m, y <- gjp 1%N 0%N m].
{ apply: eq_allpairs => x y. rewrite -M. congr (affine _ _ [:: _; _]); rewrite /hs /ht; exact: alg_xi || exact: alg_t. }
by rewrite /quadrature_rule !size_allpairs S0 S1 eqxx /=.
Qed.
Lemma size3 (R : Type) (xs ys zs : seq F) (f : F -> F -> F -> R) : size xs = m -> size ys = m -> size zs = m ->
  size (flatten [seq [seq f x y z | y <- ys, z <- zs] | x <- xs]) = (m * m * m)%N.
Proof.
move=> S0 S1 S2. transitivity (size xs * (m * m))%N; last by rewrite S0 mulnA.
rewrite size_flatten /shape -map_comp. elim: (xs) => [|x l IH] //=. by rewrite IH size_allpairs S1 S2 mulSn.
Qed.
Lemma tet_shape : simplex_verts 3 verts -> make_quadrature gjp (QSimp 3 ufc verts) m =
  Base.Ok (Rule (QSimp 3 ufc verts)
    (flatten [seq [seq [:: ev3 (aff3 verts 0) (hr x y z) (hs y z) (ht z); ev3 (aff3 verts 1) (hr x y z) (hs y z) (ht z); ev3 (aff3 verts 2) (hr x y z) (hs y z) (ht z)]
      | y <- gjp 1%N 0%N m, z <- gjp 2%N 0%N m] | x <- gjp 0%N 0%N m])
    (flatten [seq [seq 8%:R^-1 * jac_det 3 verts * 8%:R^-1 * gj_weight 0 0 m x * gj_weight 1 0 m y * gj_weight 2 0 m z
      | y <- gjp 1%N 0%N m, z <- gjp 2%N 0%N m] | x <- gjp 0%N 0%N m])).
Proof.
move=> Sv. have [A [b [E D M]]] := map3 T Sv.
have [S0 _ _] := G (isT : (0 <= 2)%N). have [S1 _ _] := G (isT : (1 <= 2)%N). have [S2 _ _] := G (isT : (2 <= 2)%N).
rewrite /make_quadrature (negbTE (lt0n_neq0 m0)) /collapsed_tetrahedron /gauss_jacobi_rule E /= D /=.
set xs := gjp 0%N 0%N m in S0 *. set ys := gjp 1%N 0%N m in S1 *. set zs := gjp 2%N 0%N m in S2 *.
have -> : [seq affine A b x | x <- flatten [seq [seq [:: h * h * (1 + x) * (1 - y) * (1 - z) - 1; h * (1 + y) * (1 - z) - 1; z] | y <- ys, z <- zs] | x <- xs]] =
  flatten [seq [seq [:: ev3 (aff3 verts 0) (hr x y z) (hs y z) (ht z); ev3 (aff3 verts 1) (hr x y z) (hs y z) (ht z); ev3 (aff3 verts 2) (hr x y z) (hs y z) (ht z)] | y <- ys, z <- zs] | x <- xs].
{ rewrite map_flatten -map_comp. congr (flatten _). apply: eq_map => x /=. rewrite map_allpairs. apply: eq_allpairs => y z. rewrite -M.
  congr (affine _ _ [:: _; _; _]); rewrite /hr /hs /ht; [exact: alg_xi3|exact: alg_xi|exact: alg_t]. }
have -> : flatten [seq [seq 8%:R^-1 * jac_det 3 verts * 8%:R^-1 * w1 * w2 * w3 | w2 <- [seq gj_weight 1 0 m x | x <- ys], w3 <- [seq gj_weight 2 0 m x | x <- zs]] | w1 <- [seq gj_weight 0 0 m x | x <- xs]] =
  flatten [seq [seq 8%:R^-1 * jac_det 3 verts * 8%:R^-1 * gj_weight 0 0 m x * gj_weight 1 0 m y * gj_weight 2 0 m z | y <- ys, z <- zs] | x <- xs].
{ rewrite -map_comp. congr (flatten _). apply: eq_map => x /=. by rewrite allpairs_mapl allpairs_mapr. }
by rewrite /quadrature_rule !size3 // eqxx.
Qed.
End Shapes.

(** The m-point rule on an interval with any two vertices integrates every
    polynomial of degree at most 2m-1 exactly. *)
Theorem C28_interval :
  forall (F : fieldType) (gjp : nat -> nat -> nat -> seq F) (m : nat) (ufc : bool) (verts : seq (seq F)),
    char_zero F -> (0 < m)%N -> gauss_points gjp m -> simplex_verts 1 verts ->
    exists r, [/\ make_quadrature gjp (QSimp 1 ufc verts) m = Base.Ok r, q_cell r = QSimp 1 ufc verts,
                  size (q_pts r) = m, size (q_wts r) = m &
      forall P : {poly F}, (size P <= m.*2)%N -> integrate r (fun x => P.[nth 0 x 0]) = int_interval verts P].
Proof.
move=> F gjp m ufc verts F0 m0 G Sv. have T := two_neq0 F0. have [S _ _] := G 0%N isT.
rewrite (line_shape ufc F0 m0 G Sv). eexists; split; first by []; rewrite //= ?size_map //.
move=> P SP. rewrite integrate_map /int_interval. set v0 := vtx verts 0 0. set d := vtx verts 1 0 - v0.
have -> : vtx verts 1 0 = v0 + d by rewrite /d addrC subrK.
have hh : 2%:R^-1 + 2%:R^-1 = 1 :> F by rewrite -mulr2n -(mulr_natr (2%:R^-1)) mulVf.
set h : F := 2%:R^-1 * d.
have Ed : d = h + h by rewrite -mulrDl hh mul1r.
have -> : integral v0 (v0 + d) P = integ [rmorphism of @idfun F] (v0 + h - h) (v0 + h + h) P.
{ rewrite addrK -addrA -Ed. by rewrite -{1}(deriv_antid [rmorphism of @idfun F] F0 P) integral_deriv. }
rewrite integ_change //. have := gauss_gen [rmorphism of @idfun F] F0 (gp_exact F0 m0 G (isT : (0 <= 2)%N)) (leq_trans (size_comp_aff P (v0 + h) h) SP).
rewrite expr0 mul1r => ->. rewrite mulr_sumr. apply: eq_bigr => x _.
rewrite mulrA; congr (_ * _). rewrite horner_comp hornerD hornerC hornerZ hornerX /=. congr (horner _ _).
by rewrite /ht mulrAC -/h mulrDr mulr1 addrA.
Qed.

(** Triangles with any three vertices. *)
Theorem C28_triangle :
  forall (F : fieldType) (gjp : nat -> nat -> nat -> seq F) (m : nat) (ufc : bool) (verts : seq (seq F)),
    char_zero F -> (0 < m)%N -> gauss_points gjp m -> simplex_verts 2 verts ->
    exists r, [/\ make_quadrature gjp (QSimp 2 ufc verts) m = Base.Ok r, q_cell r = QSimp 2 ufc verts,
                  size (q_pts r) = (m * m)%N, size (q_wts r) = (m * m)%N &
      forall P : {poly {poly F}}, deg2_le m.*2.-1 P ->
        integrate r (fun x => ev2 P (nth 0 x 0) (nth 0 x 1)) = int_triangle verts P].
Proof.
move=> F gjp m ufc verts F0 m0 G Sv. have T := two_neq0 F0. have [S0 _ _] := G 0%N isT. have [S1 _ _] := G 1%N isT.
rewrite (tri_shape ufc F0 m0 G Sv). eexists; split; first by []; rewrite //= ?size_allpairs ?S0 ?S1 //.
move=> P HP. rewrite integrate_pairs /int_triangle /=.
have m20 : (0 < m.*2)%N by rewrite double_gt0.
have := tri_unit F0 (gp_exact F0 m0 G (isT : (0 <= 2)%N)) (gp_exact F0 m0 G (isT : (1 <= 2)%N)) m20 (deg2_subst HP (deg2_aff verts 0) (deg2_aff verts 1)).
move=> ->. rewrite [RHS]mulrA [RHS]mulr_sumr. apply: eq_bigr => x _. rewrite [RHS]mulr_sumr. apply: eq_bigr => y _.
rewrite ev2_subst -/(ht y) -/(hs x y). move: (gj_weight 0 0 m x) (gj_weight 1 0 m y) (jac_det 2 verts) (ev2 P _ _) => w1 w2 J v.
rewrite !mulrA; congr (_ * _ * _ * _). rewrite [RHS]mulrC; congr (_ * _). by rewrite -invfM -natrM.
Qed.

(** Tetrahedra with any four vertices. *)
Theorem C28_tetrahedron :
  forall (F : fieldType) (gjp : nat -> nat -> nat -> seq F) (m : nat) (ufc : bool) (verts : seq (seq F)),
    char_zero F -> (0 < m)%N -> gauss_points gjp m -> simplex_verts 3 verts ->
    exists r, [/\ make_quadrature gjp (QSimp 3 ufc verts) m = Base.Ok r, q_cell r = QSimp 3 ufc verts,
                  size (q_pts r) = (m * m * m)%N, size (q_wts r) = (m * m * m)%N &
      forall P : {poly {poly {poly F}}}, deg3_le m.*2.-1 P ->
        integrate r (fun x => ev3 P (nth 0 x 0) (nth 0 x 1) (nth 0 x 2)) = int_tetrahedron verts P].
Proof.
move=> F gjp m ufc verts F0 m0 G Sv. have T := two_neq0 F0.
have [S0 _ _] := G 0%N isT. have [S1 _ _] := G 1%N isT. have [S2 _ _] := G 2%N isT.
rewrite (tet_shape ufc F0 m0 G Sv). eexists; split; first by []; rewrite //= ?(size3 _ S0 S1 S2) //.
move=> P HP. rewrite integrate_triples /int_tetrahedron /=.
have m20 : (0 < m.*2)%N by rewrite double_gt0.
have := tet_unit F0 (gp_exact F0 m0 G (isT : (0 <= 2)%N)) (gp_exact F0 m0 G (isT : (1 <= 2)%N)) (gp_exact F0 m0 G (isT : (2 <= 2)%N)) m20 (deg3_subst HP (deg3_aff verts 0) (deg3_aff verts 1) (deg3_aff verts 2)).
move=> ->. rewrite [RHS]mulrA [RHS]mulr_sumr. apply: eq_bigr => x _. rewrite [RHS]mulr_sumr. apply: eq_bigr => y _. rewrite [RHS]mulr_sumr. apply: eq_bigr => z _.
rewrite /= ev3_subst -/(ht z) -/(hs y z) -/(hr x y z).
move: (gj_weight 0 0 m x) (gj_weight 1 0 m y) (gj_weight 2 0 m z) (jac_det 3 verts) (ev3 P _ _ _) => w1 w2 w3 J v.
rewrite !mulrA; congr (_ * _ * _ * _ * _). rewrite [8%:R^-1 * _]mulrC -mulrA; congr (_ * _). by rewrite -invfM -natrM.
Qed.
