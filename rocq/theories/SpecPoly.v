(** Polynomials in several variables given by their coefficients, with their
    values and derivatives; no reference to expansion sets. *)
Set Warnings "-notation-overridden,-ambiguous-paths".
From mathcomp Require Import all_ssreflect all_algebra.
From Verif Require Import ModelDual SpecDual.
Set Implicit Arguments. Unset Strict Implicit. Unset Printing Implicit Defensive.
Import GRing.Theory.
Local Open Scope ring_scope.

(** all exponents of [sd] variables with total degree at most [k] *)
Fixpoint exps (sd k : nat) : seq (seq nat) :=
  if sd is sd'.+1 then flatten [seq [seq i :: a | a <- exps sd' (k - i)] | i <- iota 0 k.+1] else [:: [::]].

Section Poly.
Variable F : fieldType.
Notation pt := [eqType of seq F].
(** x^a *)
Definition mono (a : seq nat) (x : seq F) : F := \prod_(i < size a) nth 0 x i ^+ nth 0%N a i.
(** the derivative d^al of x^a: falling factorials *)
Definition dmono (al a : seq nat) (x : seq F) : F :=
  \prod_(i < size a) ((nth 0%N a i ^_ nth 0%N al i)%:R * nth 0 x i ^+ (nth 0%N a i - nth 0%N al i)).
(** the polynomial with coefficients [cf] and degree at most [k] *)
Definition pval (sd k : nat) (cf : seq nat -> F) (x : seq F) : F := \sum_(a <- exps sd k) cf a * mono a x.
Definition pder (sd k : nat) (cf : seq nat -> F) (al : seq nat) (x : seq F) : F := \sum_(a <- exps sd k) cf a * dmono al a x.
(** as a scalar function with its derivatives *)
Definition poly_func (sd k : nat) (cf : seq nat -> F) : func F pt :=
  @mkFunc F pt (fun c x => if c == [::] then pval sd k cf x else 0) (fun c al x => if c == [::] then pder sd k cf al x else 0).
(** the function [f] is a polynomial of degree at most [k] in [sd] variables *)
Definition is_poly (sd k : nat) (f : seq F -> F) : Prop :=
  exists cf, forall x, size x = sd -> f x = pval sd k cf x.
End Poly.
