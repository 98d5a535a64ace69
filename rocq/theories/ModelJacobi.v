(** Jacobi polynomials (jacobi.py) and recurrence coefficients of the
    expansions (expansions.py [jrc]), in exact arithmetic over a field. *)
Set Warnings "-notation-overridden,-ambiguous-paths".
From mathcomp Require Import all_ssreflect all_algebra.
Set Implicit Arguments. Unset Strict Implicit. Unset Printing Implicit Defensive.
Import GRing.Theory.
Local Open Scope ring_scope.

Section Jacobi.
Variable F : fieldType.
Implicit Types (a b x : F) (n k : nat).

(** jacobi.py l.30-39: the coefficients of one step. *)
Definition jac_a1 a b k : F := 2%:R * k%:R * (k%:R + (a + b)) * (2%:R * k%:R + (a + b) - 2%:R).
Definition jac_a2 a b k : F := (2%:R * k%:R + (a + b) - 1) * (a * a - b * b).
Definition jac_a3 a b k : F :=
  (2%:R * k%:R + (a + b) - 2%:R) * (2%:R * k%:R + (a + b) - 1) * (2%:R * k%:R + (a + b)).
Definition jac_a4 a b k : F := 2%:R * (k%:R + a - 1) * (k%:R + b - 1) * (2%:R * k%:R + (a + b)).

(** jacobi.py l.15-43, [eval_jacobi]; the loop state is (pn2, pn1, p). *)
Definition jac_step a b x (st : F * F * F) k : F * F * F :=
  let: (pn2, pn1, _) := st in
  let a2 := jac_a2 a b k / jac_a1 a b k in
  let a3 := jac_a3 a b k / jac_a1 a b k in
  let a4 := jac_a4 a b k / jac_a1 a b k in
  let p := (a2 + a3 * x) * pn1 - a4 * pn2 in
  (pn1, p, p).
Definition eval_jacobi a b n x : F :=
  match n with
  | 0%N => 1
  | 1%N => 2%:R^-1 * (a - b + (a + b + 2%:R) * x)
  | _ => (foldl (jac_step a b x) (1, 2%:R^-1 * (a - b + (a + b + 2%:R) * x), 0) (iota 2 n.-1)).2
  end.

(** jacobi.py l.46-76, [eval_jacobi_batch]: [result] is a zero-initialised
    array of [n + 1] rows; a row assignment replaces the whole row. *)
Definition arr2 := nat -> nat -> F.
Definition set_row (A : arr2) k (r : nat -> F) : arr2 := fun k' => if k' == k then r else A k'.
Definition eval_jacobi_batch a b n (xs : seq F) : arr2 :=
  let xsnew := fun i => nth 0 xs i in
  let r0 := foldl (fun (A : arr2) ii => fun k i => if (k == 0%N) && (i == ii) then 1 + nth 0 xs ii - nth 0 xs ii else A k i)
                  (fun _ _ => 0) (iota 0 (size xs)) in
  if (0 < n)%N then
    let r1 := set_row r0 1 (fun i => 2%:R^-1 * (a - b + (a + b + 2%:R) * xsnew i)) in
    foldl (fun A k =>
      let a2 := jac_a2 a b k / jac_a1 a b k in
      let a3 := jac_a3 a b k / jac_a1 a b k in
      let a4 := jac_a4 a b k / jac_a1 a b k in
      set_row A k (fun i => (a2 + a3 * xsnew i) * A k.-1 i - a4 * A k.-2 i))
      r1 (iota 2 n.-1)
  else r0.

(** jacobi.py l.79-84 *)
Definition eval_jacobi_deriv a b n x : F :=
  if n is n'.+1 then 2%:R^-1 * (a + b + n%:R + 1) * eval_jacobi (a + 1) (b + 1) n' x else 0.

(** jacobi.py l.87-100: [results[1:, :] = batch], then row by row scaling. *)
Definition eval_jacobi_deriv_batch a b n (xs : seq F) : arr2 :=
  if n is n'.+1 then
    let r := fun k i => if k is k'.+1 then eval_jacobi_batch (a + 1) (b + 1) n' xs k' i else 0 in
    foldl (fun (A : arr2) j => set_row A j (fun i => A j i * (2%:R^-1 * (a + b + j%:R + 1)))) r (iota 1 n)
  else fun _ _ => 0.

(** expansions.py l.17-21 *)
Definition jrc a b n : F * F * F :=
  let m : F := n%:R in
  ((2%:R * m + 1 + a + b) * (2%:R * m + 2%:R + a + b) / (2%:R * (m + 1) * (m + 1 + a + b)),
   (a * a - b * b) * (2%:R * m + 1 + a + b) / (2%:R * (m + 1) * (2%:R * m + a + b) * (m + 1 + a + b)),
   (m + a) * (m + b) * (2%:R * m + 2%:R + a + b) / ((m + 1) * (m + 1 + a + b) * (2%:R * m + a + b))).
End Jacobi.
