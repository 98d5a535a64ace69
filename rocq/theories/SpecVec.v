(** Vector valued polynomials given by the coefficients of their components, and
    the Raviart-Thomas fields p + x q. *)
Set Warnings "-notation-overridden,-ambiguous-paths".
From mathcomp Require Import all_ssreflect all_algebra.
From Verif Require Import ModelDual SpecDual SpecPoly.
Set Implicit Arguments. Unset Strict Implicit. Unset Printing Implicit Defensive.
Import GRing.Theory.
Local Open Scope ring_scope.

Section Vec.
Variable F : fieldType.
Notation pt := [eqType of seq F].
(** the vector function with components sum_a cfs i a x^a, |a| <= k *)
Definition vec_func (sd k : nat) (cfs : nat -> seq nat -> F) : func F pt :=
  @mkFunc F pt (fun c x => if c is [:: i] then pval sd k (cfs i) x else 0)
               (fun c al x => if c is [:: i] then pder sd k (cfs i) al x else 0).
(** coefficients of the i-th component of p + x q, where p and q have degree at
    most m: x^a occurs in p_i and, if a_i > 0, in x_i x^(a - e_i) *)
Definition rt_cf (m : nat) (p : nat -> seq nat -> F) (q : seq nat -> F) (i : nat) (a : seq nat) : F :=
  (if (sumn a <= m)%N then p i a else 0) +
  (if (0 < nth 0%N a i)%N then q (set_nth 0%N a i (nth 0%N a i).-1) else 0).
Definition rt_field (sd m : nat) (p : nat -> seq nat -> F) (q : seq nat -> F) : func F pt := vec_func sd m.+1 (rt_cf m p q).
(** equal values and equal derivatives of the [sd] components *)
Definition same_vec (sd : nat) (f g : func F pt) : Prop :=
  (forall i x, (i < sd)%N -> fval f [:: i] x = fval g [:: i] x) /\
  (forall i al x, (i < sd)%N -> size al = sd -> fder f [:: i] al x = fder g [:: i] al x).
(** sum_j t_j f_j *)
Definition vec_sum N (t : nat -> F) (f : nat -> func F pt) : func F pt :=
  @mkFunc F pt (fun c x => \sum_(i < N) t i * fval (f i) c x) (fun c al x => \sum_(i < N) t i * fder (f i) c al x).
End Vec.
