(** barycentric_interpolation.py.  Arrays are functions of their indices
    (numpy element-wise operations), with [n = len(xsrc)] rows; arithmetic is
    exact. *)
Set Warnings "-notation-overridden,-ambiguous-paths".
From mathcomp Require Import all_ssreflect all_algebra.
Set Implicit Arguments. Unset Strict Implicit. Unset Printing Implicit Defensive.
Import Order.TTheory GRing.Theory Num.Theory.
Local Open Scope ring_scope.

Section Bary.
Variable F : realFieldType.
Variables (xsrc xdst : seq F).
Let n := size xsrc.
(** l.27-28: outer sum with the diagonal set to 1 *)
Definition b_diff (i j : nat) : F := if i == j then 1 else - nth 0 xsrc i + nth 0 xsrc j.
(** l.29, product along axis 0 *)
Definition b_w (j : nat) : F := 1 / \prod_(0 <= i < n) b_diff i j.
(** l.30 *)
Definition b_D0 (i j : nat) : F := b_w i / b_w j / b_diff i j.
(** l.31 *)
Definition b_D (i j : nat) : F := if i == j then b_D0 j j - \sum_(0 <= i' < n) b_D0 i' j else b_D0 i j.
(** l.33 *)
Definition b_I0 (i k : nat) : F := - nth 0 xsrc i + nth 0 xdst k.
(** l.34, numpy.isclose(a, 0, rtol=1e-14), whose atol is 1e-8 *)
Definition isclose0 (a : F) : bool := `|a| <= (10 ^+ 8)^-1.
(** l.35-37 *)
Definition b_I1 (i k : nat) : F := 1 / (if isclose0 (b_I0 i k) then 1 else b_I0 i k) * b_w i.
(** l.38-39 *)
Definition b_I2 (i k : nat) : F :=
  if isclose0 (b_I0 i k) then 1
  else if has (fun i' => isclose0 (b_I0 i' k)) (iota 0 n) then 0 else b_I1 i k.
(** l.40 *)
Definition b_I (i k : nat) : F := 1 / (\sum_(0 <= i' < n) b_I2 i' k) * b_I2 i k.
(** l.42-44: entry [(k,)] of the dictionary *)
Fixpoint derivs (k : nat) : nat -> nat -> F :=
  match k with
  | 0%N => b_I
  | k'.+1 => fun i m => \sum_(0 <= j < n) b_D i j * derivs k' j m
  end.
End Bary.
(** l.12-46: the returned dictionary, keys [(0,)] .. [(order,)] in order, each
    a [len(xsrc)] by [len(xdst)] table *)
Definition barycentric_interpolation (F : realFieldType) (xsrc xdst : seq F) (order : nat) : seq (seq nat * seq (seq F)) :=
  [seq ([:: k], [seq [seq derivs xsrc xdst k i m | m <- iota 0 (size xdst)] | i <- iota 0 (size xsrc)]) | k <- iota 0 order.+1].
