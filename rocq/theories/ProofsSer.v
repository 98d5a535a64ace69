(** Serendipity basis: products of one-dimensional functions. *)
Set Warnings "-notation-overridden,-ambiguous-paths".
From mathcomp Require Import all_ssreflect all_algebra zify.
From Verif Require Base ModelCell ModelSerIds ProofsSerIds.
From Verif Require Import FieldTac ModelFunctional ModelSer ProofsUnisolv.
Set Implicit Arguments. Unset Strict Implicit. Unset Printing Implicit Defensive.
Import GRing.Theory.
Local Open Scope ring_scope.

Section Psi.
Variable F : fieldType.
Add Field FF_ser : (mc_field_theory F).
(** the one-dimensional factors: two hat functions and bubbles *)
Definition psi (a : nat) (t : F) : F :=
  match a with 0 => 1 - t | 1 => t | j.+2 => leg j (2 * t - 1) * ((1 - t) * t) end.
Lemma dcoordE (t : F) : dcoord t = [:: psi 0 t; psi 1 t].
Proof. by rewrite /dcoord /= subr0 subr0 !divr1. Qed.
Lemma midE (t : F) : mid t = 2 * t - 1. Proof. by rewrite /mid addr0. Qed.
Definition sgn (b : bool) : F := if b then -1 else 1.
Notation idx2 := (bool * (nat * nat))%type.
Notation idx3 := (bool * (nat * nat * nat))%type.
Definition val2 (x y : F) (i : idx2) : F := sgn i.1 * psi i.2.1 x * psi i.2.2 y.
Definition val3 (x y z : F) (i : idx3) : F := sgn i.1 * psi i.2.1.1 x * psi i.2.1.2 y * psi i.2.2 z.

Variable deg : nat.
(** the functions of each entity *)
Definition E1 := [seq j.+2 | j <- iota 0 deg.-1].
Definition F2 := [seq (q.2.+2, (q.1 - 4 - q.2).+2) | q <- kj deg].
Definition I3 := [seq ((q.1.1 - 6 - q.1.2).+2, (q.1.2 - q.2).+2, q.2.+2) | q <- ljk deg].
Definition b2 (x : nat * nat) : seq idx2 :=
  match x with
  | (0, e) => [:: (false, (e %/ 2, e %% 2)%N)]
  | (1, 0) => [seq (true, (0%N, j)) | j <- E1] | (1, 1) => [seq (true, (1%N, j)) | j <- E1]
  | (1, 2) => [seq (true, (j, 0%N)) | j <- E1] | (1, _) => [seq (true, (j, 1%N)) | j <- E1]
  | _ => [seq (false, q) | q <- F2]
  end.
Definition b3 (x : nat * nat) : seq idx3 :=
  match x with
  | (0, e) => [:: (false, (e %/ 4, (e %/ 2) %% 2, e %% 2)%N)]
  | (1, e) =>
    let u := ((e %% 4) %/ 2)%N in let v := (e %% 2)%N in
    match (e %/ 4)%N with
    | 0 => [seq (true, (u, v, j)) | j <- E1] | 1 => [seq (true, (u, j, v)) | j <- E1] | _ => [seq (true, (j, u, v)) | j <- E1]
    end
  | (2, e) =>
    let u := (e %% 2)%N in
    match (e %/ 2)%N with
    | 0 => [seq (false, (u, q.1, q.2)) | q <- F2] | 1 => [seq (false, (q.2, u, q.1)) | q <- F2] | _ => [seq (false, (q.1, q.2, u)) | q <- F2]
    end
  | _ => [seq (true, q) | q <- I3]
  end.
Definition ents2 := ModelSerIds.flat_entities ModelCell.UFCQuadrilateral.
Definition ents3 := ModelSerIds.flat_entities ModelCell.UFCHexahedron.
Definition ix2 : seq idx2 := flatten [seq b2 x | x <- ents2].
Definition ix3 : seq idx3 := flatten [seq b3 x | x <- ents3].

Lemma ents2E : ents2 = [:: (0,0);(0,1);(0,2);(0,3);(1,0);(1,1);(1,2);(1,3);(2,0)]%N. Proof. by []. Qed.
Lemma ents3E : ents3 = [:: (0,0);(0,1);(0,2);(0,3);(0,4);(0,5);(0,6);(0,7);(1,0);(1,1);(1,2);(1,3);(1,4);(1,5);(1,6);(1,7);(1,8);(1,9);(1,10);(1,11);
  (2,0);(2,1);(2,2);(2,3);(2,4);(2,5);(3,0)]%N. Proof. by []. Qed.

Ltac bits := rewrite /val2 /val3 /sgn /=; do ? (move: (leg _ _) => ?); fring.
Lemma s_list2 x y z : s_list deg 2 x y z = map (val2 x y) ix2.
Proof.
have -> : ix2 = flatten [seq b2 x | x <- [:: (0,0);(0,1);(0,2);(0,3);(1,0);(1,1);(1,2);(1,3);(2,0)]%N] by [].
rewrite /s_list !dcoordE !midE /interior /= cats0 /v_lambda_0 /e_lambda_0 /f_lambda_0 /=.
rewrite /E1 /F2 -!map_comp !cats0 -!catA /=.
congr [:: _, _, _, _ & _]; [by bits|by bits|by bits|by bits|].
rewrite !map_cat -!map_comp.
congr (_ ++ (_ ++ (_ ++ (_ ++ _)))); apply: eq_map => j /=; by bits. Qed.
Lemma s_list3 x y z : s_list deg 3 x y z = map (val3 x y z) ix3.
Proof.
rewrite (_ : ix3 = flatten [seq b3 x | x <- [:: (0,0);(0,1);(0,2);(0,3);(0,4);(0,5);(0,6);(0,7);(1,0);(1,1);(1,2);(1,3);(1,4);(1,5);(1,6);(1,7);(1,8);(1,9);(1,10);(1,11);
  (2,0);(2,1);(2,2);(2,3);(2,4);(2,5);(3,0)]%N]) //.
rewrite /s_list /interior eqxx !dcoordE !midE /= /v_lambda_0 /e_lambda_0 /f_lambda_0 /i_lambda_0 /=.
rewrite /E1 /F2 /I3 -!map_comp !cats0 -!catA /=.
do 8 (congr cons; [by bits|]).
rewrite !map_cat -!map_comp.
do 18 (congr cat; [apply: eq_map => j /=; by bits|]).
apply: eq_map => j /=; by bits. Qed.
End Psi.
