(** C29, continued: the Kong-Mulder-Veldhuizen tables. *)
Set Warnings "-notation-overridden,-ambiguous-paths".
From Coq Require Import ZArith QArith String.
From mathcomp Require Import all_ssreflect all_algebra zify.
From Verif Require Base.
From Verif Require Import FieldTac SpecJacobi ProofsJacobi SpecExpansion ModelQuad SpecQuad ProofsQuadMap ModelTables ModelScheme SpecScheme ProofsScheme ProofsBeta ProofsTables ProofsGaussReal PropsScheme.
Set Implicit Arguments. Unset Strict Implicit. Unset Printing Implicit Defensive.
Import Order.TTheory GRing.Theory Num.Theory.
Local Open Scope ring_scope.

(** *** KMV *)
Definition q2 : seq (seq Q) := [:: [:: 0#1; 0#1]; [:: 1#1; 0#1]; [:: 0#1; 1#1]].
Definition q3 : seq (seq Q) := [:: [:: 0#1; 0#1; 0#1]; [:: 1#1; 0#1; 0#1]; [:: 0#1; 1#1; 0#1]; [:: 0#1; 0#1; 1#1]].
Definition qmid : seq (seq Q) := [:: [:: 1#2; 1#2]; [:: 0#1; 1#2]; [:: 1#2; 0#1]].
Definition kmv2 (p : nat) : seq (seq Q) * seq Q :=
  match p with
  | 1%N => (q2, kmv_tri_w1) | 2%N => (q2 ++ qmid ++ [:: [:: 1#3; 1#3]], kmv_tri_w2) | 3%N => (q2 ++ kmv_tri_x3, kmv_tri_w3)
  | 4%N => (q2 ++ qmid ++ kmv_tri_x4, kmv_tri_w4) | _ => (q2 ++ kmv_tri_x5, kmv_tri_w5)
  end.
Definition kmv3 (p : nat) : seq (seq Q) * seq Q :=
  match p with 1%N => (q3, kmv_tet_w1) | 2%N => (q3 ++ kmv_tet_x2, kmv_tet_w2) | _ => (q3 ++ kmv_tet_x3, kmv_tet_w3) end.
(** in the unit simplex up to [eps] in the sum of the coordinates *)
Definition chk_in_eps (eps : Q) (pts : seq (seq Q)) : bool :=
  all (fun x => all (Qle_bool (0 # 1)) x && Qle_bool (foldr Qplus (0 # 1) x) (Qplus (1 # 1) eps)) pts.
Lemma chk_in_epsP (F : realFieldType) eps pts : chk_in_eps eps pts -> forall p, p \in qpts F pts -> all (fun c => 0 <= c) p && (\sum_(c <- p) c <= 1 + qF F eps).
Proof.
move=> H. apply/allP. rewrite /qpts all_map. apply: sub_all H => x /andP [A B] /=. rewrite qF_sum. apply/andP; split.
- rewrite all_map. apply: sub_all A => q Hq /=. rewrite -qF0. apply: qF_le. exact/Qle_bool_iff.
- rewrite -qF1 -qFD. apply: qF_le. exact/Qle_bool_iff.
Qed.
Definition kmv_chk (chk : nat -> Q -> seq (seq Q) -> seq Q -> bool) (t : nat -> seq (seq Q) * seq Q) (dim : nat) (ns : seq nat) p :=
  [&& chk p.*2.-1 (dec 1 15) (t p).1 (t p).2, chk_pos (t p).2, size (t p).2 == size (t p).1, size (t p).1 == nth 0%N ns p & all (fun x => size x == dim) (t p).1].
Lemma kmv2_all : all (kmv_chk check2 kmv2 2 [:: 0; 3; 7; 12; 18; 30]%N) (iota 1 5). Proof. vm_cast_no_check (erefl true). Qed.
Lemma kmv2_in : all (fun p => chk_in (kmv2 p).1) (iota 1 5). Proof. vm_cast_no_check (erefl true). Qed.
Lemma kmv3_all : all (kmv_chk check3 kmv3 3 [:: 0; 4; 15; 32]%N) (iota 1 3). Proof. vm_cast_no_check (erefl true). Qed.
Lemma kmv3_in : all (fun p => chk_in_eps (dec 1 15) (kmv3 p).1) (iota 1 3). Proof. vm_cast_no_check (erefl true). Qed.
Lemma kmv3_in2 : all (fun p => chk_in (kmv3 p).1) (iota 1 2). Proof. vm_cast_no_check (erefl true). Qed.
Lemma kmv2_checks p : (1 <= p <= 5)%N -> [/\ check2 p.*2.-1 (dec 1 15) (kmv2 p).1 (kmv2 p).2, chk_in (kmv2 p).1, chk_pos (kmv2 p).2 &
  [/\ size (kmv2 p).2 = size (kmv2 p).1, size (kmv2 p).1 = nth 0%N [:: 0; 3; 7; 12; 18; 30]%N p & all (fun x => size x == 2%N) (kmv2 p).1]].
Proof.
move=> Hd. have Hi : p \in iota 1 5 by rewrite mem_iota.
have /and5P [A B /eqP C /eqP D E] := allP kmv2_all _ Hi. have I := allP kmv2_in _ Hi. split; [exact: A|exact: I|exact: B|split; [exact: C|exact: D|exact: E]].
Qed.
Lemma kmv3_checks p : (1 <= p <= 3)%N -> [/\ check3 p.*2.-1 (dec 1 15) (kmv3 p).1 (kmv3 p).2, chk_in_eps (dec 1 15) (kmv3 p).1 /\ ((p <= 2)%N -> chk_in (kmv3 p).1), chk_pos (kmv3 p).2 &
  [/\ size (kmv3 p).2 = size (kmv3 p).1, size (kmv3 p).1 = nth 0%N [:: 0; 4; 15; 32]%N p & all (fun x => size x == 3%N) (kmv3 p).1]].
Proof.
move=> Hd. have Hi : p \in iota 1 3 by rewrite mem_iota.
have /and5P [A B /eqP C /eqP D E] := allP kmv3_all _ Hi. have I := allP kmv3_in _ Hi. split; [exact: A| |exact: B|split; [exact: C|exact: D|exact: E]].
split; first exact: I. move=> H2. apply: (allP kmv3_in2). rewrite mem_iota. lia.
Qed.
