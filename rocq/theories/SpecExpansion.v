(** Specification vocabulary for the expansion sets: polynomials in two and
    three variables as iterated polynomials, their total degree, their values
    and their integrals over the default cells. *)
Set Warnings "-notation-overridden,-ambiguous-paths".
From mathcomp Require Import all_ssreflect all_algebra.
Set Implicit Arguments. Unset Strict Implicit. Unset Printing Implicit Defensive.
Import GRing.Theory.
Local Open Scope ring_scope.

(** integral of [P(x) dx] from [lo] to [hi], where coefficients and bounds may
    depend on further variables *)
Section Integ.
Variables (F : fieldType) (A : comRingType) (emb : F -> A).
Definition antid (P : {poly A}) : {poly A} :=
  \poly_(i < (size P).+1) (if i is j.+1 then emb (i%:R^-1) * P`_j else 0).
Definition integ (lo hi : A) (P : {poly A}) : A := (antid P).[hi] - (antid P).[lo].
End Integ.

Section Spec.
Variable F : fieldType.
(** polynomials in (x, y): the outer variable is x, the coefficients are in y *)
Notation poly2 := {poly {poly F}}.
(** polynomials in (x, y, z) *)
Notation poly3 := {poly {poly {poly F}}}.
Definition deg2_le (n : nat) (P : poly2) : Prop := forall i j, (n < i + j)%N -> P`_i`_j = 0.
Definition deg3_le (n : nat) (P : poly3) : Prop := forall i j k, (n < i + j + k)%N -> P`_i`_j`_k = 0.
Definition ev2 (P : poly2) (x y : F) : F := P.[x%:P].[y].
Definition ev3 (P : poly3) (x y z : F) : F := P.[x%:P%:P].[y%:P].[z].
(** triangle (-1,-1), (1,-1), (-1,1):   int_{y=-1}^{1} int_{x=-1}^{-y} *)
Definition int_tri (P : poly2) : F :=
  integ id (-1) 1 (integ (fun c : F => c%:P) (-1) (- 'X) P).
(** tetrahedron (-1,-1,-1), (1,-1,-1), (-1,1,-1), (-1,-1,1):
    int_{z=-1}^{1} int_{y=-1}^{-z} int_{x=-1}^{-1-y-z} *)
Definition int_tet (P : poly3) : F :=
  integ id (-1) 1 (integ (fun c : F => c%:P) (-1) (- 'X)
    (integ (fun c : F => c%:P%:P) (-1) (-1 - 'X - 'X%:P) P)).
End Spec.
