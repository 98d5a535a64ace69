(** The documented values of the functional classes, on a function [u] given by
    its component values [fval u c x] and partial derivatives [fder u c alpha x]
    (SpecDual.v). *)
Set Warnings "-notation-overridden,-ambiguous-paths".
From mathcomp Require Import all_ssreflect all_algebra.
From Verif Require Import ModelDual SpecDual ModelFunctional.
Set Implicit Arguments. Unset Strict Implicit. Unset Printing Implicit Defensive.
Import GRing.Theory.
Local Open Scope ring_scope.

Section Spec.
Variable F : fieldType.
Notation func := (func F [eqType of seq F]).
(** the quadrature sum of a function of the point *)
Definition quad (Q : rule F) (g : seq F -> F) : F :=
  \sum_(k < size (qpts Q)) (qwts Q)`_k * g (nth [::] (qpts Q) k).
(** one weight per point, and no two points coincide after mapping *)
Definition good_rule (Q : rule F) (m : seq F -> seq F) : Prop :=
  size (qwts Q) = size (qpts Q) /\ uniq (map m (qpts Q)).
(** v . u(x) for a vector function *)
Definition component_along (n : nat) (v : seq F) (u : func) (x : seq F) : F := \sum_(i < n) v`_i * fval u [:: val i] x.
(** s1 . (u(x) s2) for a matrix function *)
Definition bilinear (n : nat) (s1 s2 : seq F) (u : func) (x : seq F) : F :=
  \sum_(i < n) \sum_(j < n) s1`_i * fval u [:: val i; val j] x * s2`_j.
(** first and second partial derivatives of component [c] *)
Definition d1 (n : nat) (c : seq nat) (i : nat) (u : func) (x : seq F) : F :=
  fder u c [seq (j == i : nat) | j <- iota 0 n] x.
Definition d2 (n : nat) (c : seq nat) (i j : nat) (u : func) (x : seq F) : F :=
  fder u c [seq ((k == i) + (k == j))%N | k <- iota 0 n] x.
Definition along (n : nat) (v : seq F) (u : func) (x : seq F) : F := \sum_(i < n) v`_i * d1 n [::] i u x.
Definition along2 (n : nat) (v : seq F) (u : func) (x : seq F) : F :=
  \sum_(i < n) \sum_(j < n) v`_i * v`_j * d2 n [::] i j u x.
Definition divergence (n : nat) (u : func) (x : seq F) : F := \sum_(i < n) d1 n [:: val i] i u x.
(** the cross product *)
Definition cross (a b : seq F) : seq F :=
  [:: a`_1 * b`_2 - a`_2 * b`_1; a`_2 * b`_0 - a`_0 * b`_2; a`_0 * b`_1 - a`_1 * b`_0].
Definition dot3 (a b : seq F) : F := a`_0 * b`_0 + a`_1 * b`_1 + a`_2 * b`_2.
Definition vec3 (u : func) (x : seq F) : seq F := [:: fval u [:: 0%N] x; fval u [:: 1%N] x; fval u [:: 2%N] x].
End Spec.
