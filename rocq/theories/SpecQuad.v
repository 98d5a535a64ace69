(** Integrals of polynomials over simplices, for the quadrature properties. *)
Set Warnings "-notation-overridden,-ambiguous-paths".
From mathcomp Require Import all_ssreflect all_algebra.
From Verif Require Import SpecJacobi SpecExpansion.
Set Implicit Arguments. Unset Strict Implicit. Unset Printing Implicit Defensive.
Import GRing.Theory.
Local Open Scope ring_scope.

Section Spec.
Variable F : fieldType.
Notation poly2 := {poly {poly F}}.
Notation poly3 := {poly {poly {poly F}}}.
(** the unit triangle:    int_{y=0}^{1} int_{x=0}^{1-y} *)
Definition int_unit2 (P : poly2) : F := integ id 0 1 (integ (fun c : F => c%:P) 0 (1 - 'X) P).
(** the unit tetrahedron: int_{z=0}^{1} int_{y=0}^{1-z} int_{x=0}^{1-y-z} *)
Definition int_unit3 (P : poly3) : F :=
  integ id 0 1 (integ (fun c : F => c%:P) 0 (1 - 'X)
    (integ (fun c : F => c%:P%:P) 0 (1 - 'X - 'X%:P) P)).
(** substitution: P(u, v), P(u, v, w) *)
Definition subst2 (P u v : poly2) : poly2 :=
  \sum_(i < size P) \sum_(j < size P`_i) (P`_i`_j)%:P%:P * u ^+ i * v ^+ j.
Definition subst3 (P u v w : poly3) : poly3 :=
  \sum_(i < size P) \sum_(j < size P`_i) \sum_(k < size P`_i`_j) (P`_i`_j`_k)%:P%:P%:P * u ^+ i * v ^+ j * w ^+ k.
(** coordinate [j] of vertex [i] *)
Definition vtx (verts : seq (seq F)) (i j : nat) : F := nth 0 (nth [::] verts i) j.
(** coordinate [j] of  v_0 + x (v_1 - v_0) + y (v_2 - v_0)  *)
Definition aff2 (verts : seq (seq F)) (j : nat) : poly2 :=
  (vtx verts 0 j)%:P%:P + (vtx verts 1 j - vtx verts 0 j)%:P%:P * 'X
  + (vtx verts 2 j - vtx verts 0 j)%:P%:P * 'X%:P.
Definition aff3 (verts : seq (seq F)) (j : nat) : poly3 :=
  (vtx verts 0 j)%:P%:P%:P + (vtx verts 1 j - vtx verts 0 j)%:P%:P%:P * 'X
  + (vtx verts 2 j - vtx verts 0 j)%:P%:P%:P * 'X%:P + (vtx verts 3 j - vtx verts 0 j)%:P%:P%:P * 'X%:P%:P.
(** determinant of (v_1 - v_0, ..., v_d - v_0): d! times the signed volume *)
Definition jac_det (d : nat) (verts : seq (seq F)) : F :=
  \det (\matrix_(i < d, j < d) (vtx verts i.+1 j - vtx verts 0 j)).
(** Integral over the simplex with the given vertices, by the change of
    variables from the unit simplex; negative for negatively oriented ones. *)
Definition int_interval (verts : seq (seq F)) (P : {poly F}) : F := integral (vtx verts 0 0) (vtx verts 1 0) P.
Definition int_triangle (verts : seq (seq F)) (P : poly2) : F :=
  jac_det 2 verts * int_unit2 (subst2 P (aff2 verts 0) (aff2 verts 1)).
Definition int_tetrahedron (verts : seq (seq F)) (P : poly3) : F :=
  jac_det 3 verts * int_unit3 (subst3 P (aff3 verts 0) (aff3 verts 1) (aff3 verts 2)).
(** [gjp a 0 m] returns the [m] roots of P_m^(a,0) *)
Definition gauss_points (gjp : nat -> nat -> nat -> seq F) (m : nat) : Prop :=
  forall a, (a <= 2)%N ->
    [/\ size (gjp a 0%N m) = m, uniq (gjp a 0%N m) &
        forall x, x \in gjp a 0%N m -> root (jacobi_poly a%:R 0 m) x].
(** vertices of a d-simplex in d-space, degenerate ones included *)
Definition simplex_verts (d : nat) (verts : seq (seq F)) : Prop :=
  size verts = d.+1 /\ forall v, v \in verts -> size v = d.
End Spec.
