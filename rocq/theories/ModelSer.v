(** serendipity.py: basis functions and constructor of [Serendipity].  A sympy
    expression is represented by its value at a point (x, y, z). *)
Set Warnings "-notation-overridden,-ambiguous-paths".
From mathcomp Require Import all_ssreflect all_algebra.
From Verif Require Base ModelCell ModelSerIds.
From Verif Require Import ModelFunctional.
Set Implicit Arguments. Unset Strict Implicit. Unset Printing Implicit Defensive.
Import GRing.Theory.
Local Open Scope ring_scope.

Section Serendipity.
Variable F : fieldType.
(** sympy.legendre *)
Definition leg : nat -> F -> F := @legval F.

(** l.51-62; the vertices of the flat cells: verts[0] = (0, ..., 0), verts[-1] = (1, ..., 1) *)
Definition dcoord (t : F) : seq F := [:: (1 - t) / (1 - 0); (t - 0) / (1 - 0)].
Definition mid (t : F) : F := 2 * t - (1 + 0).

(** l.199-206, [v_lambda_0] *)
Definition v_lambda_0 (dim : nat) (dx dy dz : seq F) : seq F :=
  if dim == 2%N then [seq a * b | a <- dx, b <- dy]
  else [seq ab * c | ab <- [seq a * b | a <- dx, b <- dy], c <- dz].
(** l.209-219, [e_lambda_0] *)
Definition e_lambda_0 (i dim : nat) (dx dy dz : seq F) (x_mid y_mid z_mid : F) : seq F :=
  if dim == 2%N then
    [seq - leg j y_mid * dy`_0 * dy`_1 * a | a <- dx, j <- iota 0 i.-1] ++
    [seq - leg j x_mid * dx`_0 * dx`_1 * b | b <- dy, j <- iota 0 i.-1]
  else
    [seq - leg j z_mid * dz`_0 * dz`_1 * ba.2 * ba.1 | ba <- [seq (b, a) | b <- dx, a <- dy], j <- iota 0 i.-1] ++
    [seq - leg j y_mid * dy`_0 * dy`_1 * ac.1 * ac.2 | ac <- [seq (a, c) | a <- dx, c <- dz], j <- iota 0 i.-1] ++
    [seq - leg j x_mid * dx`_0 * dx`_1 * cb.2 * cb.1 | cb <- [seq (c, b) | c <- dy, b <- dz], j <- iota 0 i.-1].
(** the pairs (k, j) with 4 <= k <= i and 0 <= j < k - 3, l.225-226, 228-233 *)
Definition kj (i : nat) : seq (nat * nat) := flatten [seq [seq (k, j) | j <- iota 0 (k - 3)] | k <- iota 4 (i.+1 - 4)].
(** l.222-235, [f_lambda_0] *)
Definition f_lambda_0 (i dim : nat) (dx dy dz : seq F) (x_mid y_mid z_mid : F) : seq F :=
  if dim == 2%N then
    [seq leg q.2 x_mid * leg (q.1 - 4 - q.2) y_mid * dx`_0 * dx`_1 * dy`_0 * dy`_1 | q <- kj i]
  else
    [seq leg q.2 y_mid * leg (q.1 - 4 - q.2) z_mid * dy`_0 * dy`_1 * dz`_0 * dz`_1 * a | a <- dx, q <- kj i] ++
    [seq leg q.2 z_mid * leg (q.1 - 4 - q.2) x_mid * dx`_0 * dx`_1 * dz`_0 * dz`_1 * b | b <- dy, q <- kj i] ++
    [seq leg q.2 x_mid * leg (q.1 - 4 - q.2) y_mid * dx`_0 * dx`_1 * dy`_0 * dy`_1 * c | c <- dz, q <- kj i].
(** the triples (l, j, k) with 6 <= l <= i, 0 <= j < l - 5, 0 <= k <= j, l.242 *)
Definition ljk (i : nat) : seq (nat * nat * nat) :=
  flatten [seq flatten [seq [seq (l, j, k) | k <- iota 0 j.+1] | j <- iota 0 (l - 5)] | l <- iota 6 (i.+1 - 6)].
(** l.238-244, [i_lambda_0] *)
Definition i_lambda_0 (i : nat) (dx dy dz : seq F) (x_mid y_mid z_mid : F) : seq F :=
  [seq - leg (q.1.1 - 6 - q.1.2) x_mid * leg (q.1.2 - q.2) y_mid * leg q.2 z_mid *
         dx`_0 * dx`_1 * dy`_0 * dy`_1 * dz`_0 * dz`_1 | q <- ljk i].
(** l.93-94, IL, empty in two dimensions *)
Definition interior (degree dim : nat) (x y z : F) : seq F :=
  if dim == 3%N then i_lambda_0 degree (dcoord x) (dcoord y) (dcoord z) (mid x) (mid y) (mid z) else [::].
(** l.100, [s_list = VL + EL + FL + IL] at the point (x, y, z) *)
Definition s_list (degree dim : nat) (x y z : F) : seq F :=
  let dx := dcoord x in let dy := dcoord y in let dz := dcoord z in
  v_lambda_0 dim dx dy dz ++ e_lambda_0 degree dim dx dy dz (mid x) (mid y) (mid z) ++
  f_lambda_0 degree dim dx dy dz (mid x) (mid y) (mid z) ++ interior degree dim x y z.

(** l.35-43 and l.45-128, up to the construction of the dual.  [space_dimension]
    is the length of the list of basis functions (l.195-196). *)
Inductive element :=
| IsLagrange (c : ModelCell.cell) (degree : nat)
| IsSerendipity (ids : seq (ModelCell.dimT * seq (nat * seq nat))) (dimension : nat) (basis : F -> F -> F -> seq F).
Definition Serendipity (c : ModelCell.cell) (degree : nat) : Base.result element :=
  if ModelCell.spatial_dimension c == 1%N then Base.Ok (IsLagrange c degree)
  else if ModelCell.spatial_dimension c == 0%N then Base.Err Base.IndexError
  else match ModelCell.flatten_reference_cube c with
       | Base.Err e => Base.Err e
       | Base.Ok flat =>
         let dim := ModelCell.spatial_dimension flat in
         let '(ids, cur) := ModelSerIds.flat_ids flat degree (size (interior degree dim 0 0 0)) in
         let n := size (s_list degree dim 0 0 0) in
         if ~~ BinInt.Z.eqb (BinInt.Z.of_nat n) cur then Base.Err Base.AssertionError     (* l.101 *)
         else match ModelSerIds.unflatten_ids c flat ids with
              | Base.Err e => Base.Err e
              | Base.Ok ids' => Base.Ok (IsSerendipity ids' n (s_list degree dim))
              end
       end.
End Serendipity.
