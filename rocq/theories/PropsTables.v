(** C29, continued: the tetrahedron tables. *)
Set Warnings "-notation-overridden,-ambiguous-paths".
From Coq Require Import ZArith QArith String.
From mathcomp Require Import all_ssreflect all_algebra zify.
From Verif Require Base.
From Verif Require Import FieldTac SpecJacobi ProofsJacobi SpecExpansion ModelQuad SpecQuad ProofsQuadMap ModelTables ModelScheme SpecScheme ProofsScheme ProofsBeta ProofsTables ProofsGaussReal PropsScheme.
Set Implicit Arguments. Unset Strict Implicit. Unset Printing Implicit Defensive.
Import Order.TTheory GRing.Theory Num.Theory.
Local Open Scope ring_scope.

Lemma tet_all : all (chk_table check3 3 tet_npts tet_table) (iota 0 7). Proof. vm_cast_no_check (erefl true). Qed.
Lemma tet_pos : all (fun d => (d == 3%N) || chk_pos (tet_table d).2) (iota 0 7). Proof. vm_cast_no_check (erefl true). Qed.
Lemma tet_all0 : all (fun d => check3 d (0 # 1) (tet_table d).1 (tet_table d).2) (iota 0 2). Proof. vm_cast_no_check (erefl true). Qed.
Lemma tet_checks d : (d <= 6)%N -> [/\ check3 d (dec 1 15) (tet_table d).1 (tet_table d).2, chk_in (tet_table d).1, d <> 3%N -> chk_pos (tet_table d).2 &
  [/\ size (tet_table d).2 = size (tet_table d).1, size (tet_table d).1 = nth 0%N tet_npts d & all (fun x => size x == 3%N) (tet_table d).1]].
Proof.
move=> Hd. have Hi : d \in iota 0 7 by rewrite mem_iota.
have /and5P [A B /eqP C /eqP D E] := allP tet_all _ Hi. split; [exact: A|exact: B| |split; [exact: C|exact: D|exact: E]].
move=> N. have /orP [/eqP //|H] := allP tet_pos _ Hi. exact: H.
Qed.

(** The tables on the UFC tetrahedron; the degree-3 table has one negative
    weight (so does the program's comment). *)
Theorem C29_tetrahedron : forall (F : realFieldType) (gjp : nat -> nat -> nat -> seq F) (d : nat), (d <= 6)%N ->
  exists r, [/\ create_quadrature gjp (UFCTetrahedron F) (DInt (Z.of_nat d)) "default" = Base.Ok r,
    q_cell r = UFCTetrahedron F /\ size (q_pts r) = nth 0%N [:: 1; 1; 4; 5; 14; 15; 24]%N d,
    (forall p, p \in q_pts r -> size p = 3%N /\ in_unit_simplex p) /\ (d <> 3%N -> forall w, w \in q_wts r -> 0 < w) &
    (forall P : {poly {poly {poly F}}}, deg3_le d P ->
       `|integrate r (fun x => ev3 P (nth 0 x 0) (nth 0 x 1) (nth 0 x 2)) -
         int_tetrahedron [:: [:: 0; 0; 0]; [:: 1; 0; 0]; [:: 0; 1; 0]; [:: 0; 0; 1]] P| <= tol F * norm3 P)].
Proof.
move=> F gjp d Hd. set t := tet_table d. have [C1 C2 C3 [C4 C5 C6]] := tet_checks Hd.
exists (Rule (UFCTetrahedron F) (qpts F t.1) (qwts F t.2)). split.
- rewrite /= /simplex_quadrature /=. case: Z.ltb_spec => [|_]; first lia. by rewrite Nat2Z.id /tetrahedron_scheme Hd /quadrature_rule !size_map C4 eqxx.
- by split; rewrite //= size_map.
- split=> /=; last by move=> N; exact: (chk_posP (C3 N)). move=> p Hp. split; [exact: (chk_size C6)|exact: (chk_inP C2)].
- move=> P D. rewrite int_ufc3 /tol -(qF_dec F 15). exact: (table3 _ C1 D).
Qed.

