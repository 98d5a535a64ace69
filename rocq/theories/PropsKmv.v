(** C29, continued: the Kong-Mulder-Veldhuizen tables. *)
Set Warnings "-notation-overridden,-ambiguous-paths".
From Coq Require Import ZArith QArith String.
From mathcomp Require Import all_ssreflect all_algebra zify.
From Verif Require Base.
From Verif Require Import FieldTac SpecJacobi ProofsJacobi SpecExpansion ModelQuad SpecQuad ProofsQuadMap ModelTables ModelScheme SpecScheme ProofsScheme ProofsBeta ProofsTables ProofsGaussReal PropsScheme PropsTables ProofsKmv.
Set Implicit Arguments. Unset Strict Implicit. Unset Printing Implicit Defensive.
Import Order.TTheory GRing.Theory Num.Theory.
Local Open Scope ring_scope.

Local Arguments kmv_scheme : simpl never.
Section KMV.
Variable F : realFieldType.
Notation v2 := ([:: [:: 0; 0]; [:: 1; 0]; [:: 0; 1]] : seq (seq F)).
Notation v3 := ([:: [:: 0; 0; 0]; [:: 1; 0; 0]; [:: 0; 1; 0]; [:: 0; 0; 1]] : seq (seq F)).
Let q0 : qF F (0 # 1) = 0. Proof. exact: qF0. Qed.
Let q1 : qF F (1 # 1) = 1. Proof. exact: qF1. Qed.
Let qh : qF F (1 # 2) = 1 / 2%:R. Proof. by rewrite /qF /= -mulr2n. Qed.
Let qt : qF F (1 # 3) = 1 / 3%:R. Proof. by rewrite /qF posFE. Qed.
Lemma qpts_cat a b : qpts F (a ++ b) = qpts F a ++ qpts F b. Proof. exact: map_cat. Qed.
Lemma q2E : qpts F q2 = v2. Proof. by rewrite /q2 /qpts [map _ _]/= q0 q1. Qed.
Lemma q3E : qpts F q3 = v3. Proof. by rewrite /q3 /qpts [map _ _]/= q0 q1. Qed.
Lemma midE : edge_midpoints v2 = qpts F qmid.
Proof. by rewrite /edge_midpoints /mean /mkseq /qmid /qpts /= !big_cons !big_nil /= q0 qh !addr0 !add0r mul0r. Qed.
Lemma barE : mean v2 = [:: qF F (1 # 3); qF F (1 # 3)].
Proof. by rewrite /mean /mkseq /= !big_cons !big_nil /= qt !addr0 !add0r. Qed.
Lemma kmv2E p : (1 <= p <= 5)%N -> kmv_scheme 2 v2 p = quadrature_rule (UFCTriangle F) (qpts F (kmv2 p).1) (qwts F (kmv2 p).2).
Proof.
have f1 A B (a : A) (b : B) : (a, b).1 = a by []. have f2 A B (a : A) (b : B) : (a, b).2 = b by [].
case: p => [|[|[|[|[|[|p]]]]]] // _; rewrite /kmv_scheme /kmv2 f1 f2; move: (qwts F _) => ws.
- by rewrite cats0 -q2E.
- by rewrite !qpts_cat q2E midE barE.
- by rewrite qpts_cat q2E.
- by rewrite (qpts_cat q2) (qpts_cat qmid) q2E midE.
- by rewrite qpts_cat q2E.
Qed.
Lemma kmv3E p : (1 <= p <= 3)%N -> kmv_scheme 3 v3 p = quadrature_rule (UFCTetrahedron F) (qpts F (kmv3 p).1) (qwts F (kmv3 p).2).
Proof.
have f1 A B (a : A) (b : B) : (a, b).1 = a by []. have f2 A B (a : A) (b : B) : (a, b).2 = b by [].
case: p => [|[|[|[|p]]]] // _; rewrite /kmv_scheme /kmv3 f1 f2; move: (qwts F _) => ws.
- by rewrite cats0 -q3E.
- by rewrite qpts_cat q3E.
- by rewrite qpts_cat q3E.
Qed.
End KMV.

(** The lumped KMV rules on the UFC triangle and tetrahedron: degree [p] is
    exact for polynomials of degree [2p - 1], with positive weights. *)
Theorem C29_kmv_triangle : forall (F : realFieldType) (gjp : nat -> nat -> nat -> seq F) (p : nat), (1 <= p <= 5)%N ->
  exists r, [/\ create_quadrature gjp (UFCTriangle F) (DInt (Z.of_nat p)) "KMV" = Base.Ok r,
    q_cell r = UFCTriangle F /\ size (q_pts r) = nth 0%N [:: 0; 3; 7; 12; 18; 30]%N p,
    (forall x, x \in q_pts r -> size x = 2%N /\ in_unit_simplex x) /\ (forall w, w \in q_wts r -> 0 < w) &
    (forall P : {poly {poly F}}, deg2_le (2 * p - 1) P ->
       `|integrate r (fun x => ev2 P (nth 0 x 0) (nth 0 x 1)) - int_triangle [:: [:: 0; 0]; [:: 1; 0]; [:: 0; 1]] P| <= tol F * norm2 P)].
Proof.
move=> F gjp p Hp. set t := kmv2 p. have [C1 C2 C3 [C4 C5 C6]] := kmv2_checks Hp.
exists (Rule (UFCTriangle F) (qpts F t.1) (qwts F t.2)). split.
- rewrite /= /simplex_quadrature /=. case: Z.ltb_spec => [|_]; first lia. by rewrite Nat2Z.id (kmv2E _ Hp) /quadrature_rule !size_map C4 eqxx.
- by split; rewrite //= size_map.
- split=> /=; last exact: (chk_posP C3). move=> x Hx. split; [exact: (chk_size C6)|exact: (chk_inP C2)].
- have -> : (2 * p - 1)%N = p.*2.-1 by rewrite mul2n subn1. move=> P D. rewrite int_ufc2 /tol -(qF_dec F 15). exact: (table2 _ C1 D).
Qed.
Theorem C29_kmv_tetrahedron : forall (F : realFieldType) (gjp : nat -> nat -> nat -> seq F) (p : nat), (1 <= p <= 3)%N ->
  exists r, [/\ create_quadrature gjp (UFCTetrahedron F) (DInt (Z.of_nat p)) "KMV" = Base.Ok r,
    q_cell r = UFCTetrahedron F /\ size (q_pts r) = nth 0%N [:: 0; 4; 15; 32]%N p,
    (forall x, x \in q_pts r -> [/\ size x = 3%N, all (fun c => 0 <= c) x, \sum_(c <- x) c <= 1 + tol F & (p <= 2)%N -> in_unit_simplex x]) /\
    (forall w, w \in q_wts r -> 0 < w) &
    (forall P : {poly {poly {poly F}}}, deg3_le (2 * p - 1) P ->
       `|integrate r (fun x => ev3 P (nth 0 x 0) (nth 0 x 1) (nth 0 x 2)) -
         int_tetrahedron [:: [:: 0; 0; 0]; [:: 1; 0; 0]; [:: 0; 1; 0]; [:: 0; 0; 1]] P| <= tol F * norm3 P)].
Proof.
move=> F gjp p Hp. set t := kmv3 p. have [C1 [C2 C2'] C3 [C4 C5 C6]] := kmv3_checks Hp.
exists (Rule (UFCTetrahedron F) (qpts F t.1) (qwts F t.2)). split.
- rewrite /= /simplex_quadrature /=. case: Z.ltb_spec => [|_]; first lia. by rewrite Nat2Z.id (kmv3E _ Hp) /quadrature_rule !size_map C4 eqxx.
- by split; rewrite //= size_map.
- split=> /=; last exact: (chk_posP C3). move=> x Hx. have /andP [A B] := chk_in_epsP C2 Hx.
  split; [exact: (chk_size C6)|exact: A| |by move=> H2; exact: (chk_inP (C2' H2))]. by rewrite /tol -(qF_dec F 15).
- have -> : (2 * p - 1)%N = p.*2.-1 by rewrite mul2n subn1. move=> P D. rewrite int_ufc3 /tol -(qF_dec F 15). exact: (table3 _ C1 D).
Qed.
(** What the KMV scheme refuses, whatever the simplex. *)
Theorem C29_kmv_refused : forall (F : fieldType) (gjp : nat -> nat -> nat -> seq F) (dim p : nat) (ufc : bool) (v : seq (seq F)),
  let run := create_quadrature gjp (QSimp dim ufc v) (DInt (Z.of_nat p)) "KMV" in
  (dim <> 2%N -> dim <> 3%N -> run = Base.Err Base.ValueError) /\
  (dim = 2%N \/ dim = 3%N -> p = 0%N \/ (6 <= p)%N -> run = Base.Err Base.UnboundLocalError) /\
  (dim = 3%N -> p = 4%N \/ p = 5%N -> run = Base.Err Base.ValueError).
Proof.
move=> F gjp dim p ufc v /=. rewrite /simplex_quadrature /=. case: Z.ltb_spec => [|_]; first lia. rewrite Nat2Z.id. split; [|split].
- case: dim => [|[|[|[|d]]]] //.
- case=> ->; case=> [->|H] //; by case: p H => [|[|[|[|[|[|p]]]]]].
- by move=> ->; case=> ->.
Qed.
(** The KMV rule for another triangle claims the UFC triangle as its cell while
    its points are the other triangle's vertices: on [DefaultTriangle], degree
    1, neither cell's integral of the constant or of [x] is reproduced. *)
Theorem C29_kmv_other_cell_refuted : forall (F : realFieldType) (gjp : nat -> nat -> nat -> seq F),
  exists r, [/\ create_quadrature gjp (QSimp 2 false (default_verts F 2)) (DInt 1) "KMV" = Base.Ok r,
    q_cell r = UFCTriangle F, q_pts r = default_verts F 2,
    integrate r (fun=> 1) != int_triangle (default_verts F 2) 1 &
    integrate r (fun x => nth 0 x 0) != int_triangle [:: [:: 0; 0]; [:: 1; 0]; [:: 0; 1]] 'X].
Proof.
move=> F gjp. have n0 n : (n.+1%:R : F) != 0 by rewrite pnatr_eq0.
have d0 : default_verts F 2 = [:: [:: -1; -1]; [:: 1; -1]; [:: -1; 1]] by [].
have w0 : qF F (1 # 6) = 6%:R^-1 by rewrite /qF posFE div1r.
have C0 := @num_char0 F.
exists (Rule (UFCTriangle F) (default_verts F 2) (nseq 3 (qF F (1 # 6)))). split=> //.
- rewrite /integrate /= !big_cons big_nil /= !mulr1 addr0.
  have -> : int_triangle (default_verts F 2) 1 = 2%:R.
  { rewrite /int_triangle. have -> : jac_det 2 (default_verts F 2) = 2%:R ^+ 2.
    { rewrite /jac_det -(det_scalar 2). congr (\det _). apply/matrixP => i j. rewrite !mxE.
      case: i j => [[|[|i]] Hi] [[|[|j]] Hj] //=; rewrite /vtx /= ?subrr ?opprK ?mulr0n // mulr2n //. }
    have -> : subst2 (1 : {poly {poly F}}) (aff2 (default_verts F 2) 0) (aff2 (default_verts F 2) 1) = 1.
    { by rewrite /subst2 size_poly1 big_ord1 coef1 eqxx size_poly1 big_ord1 coef1 eqxx !expr0 !mulr1. }
    rewrite (int_unit2E C0) size_poly1 big_ord1 coef1 eqxx size_poly1 big_ord1 coef1 eqxx mul1r /mom2 /= expr2 mulrA mulr1 -mulrA mulfV ?mulr1 //. }
  rewrite w0 -!mulr2n -mulrS -mulr_natl. apply/eqP => E. have := congr1 (fun x => x * 6%:R) E. rewrite /= mulfVK ?n0 // => /eqP.
  by rewrite -natrM eqr_nat.
- rewrite /integrate /= !big_cons big_nil /= addr0 mulr1 mulrN1 [_ + - _]subrr addr0 int_ufc2.
  rewrite (int_unit2E C0) size_polyX !big_ord_recl big_ord0 !coefX /= size_poly0 big_ord0 add0r addr0 size_poly1 big_ord1 coef1 eqxx mul1r /mom2 /=.
  rewrite w0 -[(_ * _)%N]/1%N -[_`!]/6%N div1r eq_sym -subr_eq0 opprK -mulr2n mulrn_eq0 /=. rewrite invr_eq0. exact: n0.
Qed.
