(** Specification vocabulary for Bernstein polynomials, with the polynomials
    in [d] variables of the multinomials library. *)
Set Warnings "-notation-overridden,-ambiguous-paths".
From mathcomp Require Import all_ssreflect all_algebra.
From SsrMultinomials Require Import mpoly.
Set Implicit Arguments. Unset Strict Implicit. Unset Printing Implicit Defensive.
Import GRing.Theory.
Local Open Scope ring_scope.

Section Spec.
Variables (F : fieldType) (d : nat).
(** the value of a polynomial at a point given by its list of coordinates *)
Definition at_point (P : {mpoly F[d]}) (p : seq F) : F := P.@[fun j => nth 0 p j].
(** the affine polynomial  sum_j a_j X_j + b *)
Definition affine_poly (a : 'I_d -> F) (b : F) : {mpoly F[d]} := \sum_j a j *: 'X_j + b%:MP.
(** barycentric coordinates for the vertices [vs]: affine, and 1 at their own
    vertex, 0 at the others *)
Definition barycentric (vs : seq (seq F)) (lam : 'I_d.+1 -> {mpoly F[d]}) : Prop :=
  (forall i, exists a b, lam i = affine_poly a b) /\
  forall i j : 'I_d.+1, at_point (lam i) (nth [::] vs j) = (i == j)%:R.
(** the Bernstein polynomial of exponents [ks] *)
Definition bern_poly (lam : 'I_d.+1 -> {mpoly F[d]}) (ks : seq nat) : {mpoly F[d]} :=
  ((sumn ks)`!%:R / \prod_(i < d.+1) (nth 0%N ks i)`!%:R) *: \prod_(i < d.+1) lam i ^+ nth 0%N ks i.
(** the derivative of orders [alpha] *)
Definition derivative (alpha : seq nat) (P : {mpoly F[d]}) : {mpoly F[d]} := P^`M[[multinom nth 0%N alpha j | j < d]].
End Spec.

(** entry [t[key][i, m]] of a dictionary of tables *)
Definition entry_at (F : ringType) (t : seq (seq nat * seq (seq F))) (key : seq nat) (i m : nat) : option F :=
  if [seq e.2 | e <- t & e.1 == key] is tab :: _ then
    if (i < size tab)%N && (m < size (nth [::] tab i))%N then Some (nth 0 (nth [::] tab i) m) else None
  else None.
