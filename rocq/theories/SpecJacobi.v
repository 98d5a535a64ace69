(** Jacobi polynomials by their explicit sum (DLMF 18.5.7):
      P_n^(a,b)(x) = sum_j (a+j+1)_(n-j)/(n-j)! (n+a+b+1)_j/j! ((x-1)/2)^j
    where (c)_m is the rising factorial. *)
Set Warnings "-notation-overridden,-ambiguous-paths".
From mathcomp Require Import all_ssreflect all_algebra.
Set Implicit Arguments. Unset Strict Implicit. Unset Printing Implicit Defensive.
Import GRing.Theory.
Local Open Scope ring_scope.

Section Spec.
Variable F : fieldType.
Definition poch (c : F) (m : nat) : F := \prod_(i < m) (c + i%:R).
Definition jacobi_coeff (a b : F) (n j : nat) : F :=
  poch (a + j%:R + 1) (n - j) / (n - j)`!%:R * (poch (n%:R + a + b + 1) j / j`!%:R).
(** as a polynomial in (x-1)/2, and in x *)
Definition jacobi_poly (a b : F) (n : nat) : {poly F} :=
  \sum_(j < n.+1) jacobi_coeff a b n j *: ((2%:R^-1 *: ('X - 1)) ^+ j).
(** no divisor of the recurrence vanishes *)
Definition jacobi_regular (a b : F) (n : nat) : Prop :=
  forall m : nat, (2 <= m <= n.*2)%N -> m%:R + a + b != 0.
Definition char_zero : Prop := forall m : nat, (0 < m)%N -> m%:R != 0 :> F.
(** integral over [-1,1] of a polynomial: difference of an antiderivative *)
Definition antideriv (p : {poly F}) : {poly F} := \poly_(i < (size p).+1) (if i is j.+1 then p`_j / i%:R else 0).
Definition integral (u v : F) (p : {poly F}) : F := (antideriv p).[v] - (antideriv p).[u].
End Spec.
