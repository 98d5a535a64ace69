(** Coq's [ring] for an arbitrary mathcomp commutative ring; same technique as
    FieldTac.v.  In a section over [A : comRingType] say
    [Add Ring RR : (mc_ring_theory A).] *)
Set Warnings "-notation-overridden,-ambiguous-paths".
From mathcomp Require Import all_ssreflect all_algebra.
From Coq Require Export Ring_theory Ring.
Set Implicit Arguments. Unset Strict Implicit. Unset Printing Implicit Defensive.
Import GRing.Theory.
Local Open Scope ring_scope.

Definition zeroR (A : comRingType) : A := 0.
Definition oneR (A : comRingType) : A := 1.
Definition addR (A : comRingType) (x y : A) : A := x + y.
Definition mulR (A : comRingType) (x y : A) : A := x * y.
Definition oppR (A : comRingType) (x : A) : A := - x.
Definition subR (A : comRingType) (x y : A) : A := x - y.
Arguments zeroR : simpl never. Arguments oneR : simpl never. Arguments addR : simpl never. Arguments mulR : simpl never.
Arguments oppR : simpl never. Arguments subR : simpl never.

Lemma mc_ring_theory (A : comRingType) :
  ring_theory (zeroR A) (oneR A) (@addR A) (@mulR A) (@subR A) (@oppR A) (@eq A).
Proof.
constructor; rewrite /zeroR /oneR /addR /mulR /oppR /subR => *; rewrite ?add0r ?mul1r ?mulrDl ?subrr //;
  by [rewrite addrC|rewrite addrA|rewrite mulrC|rewrite mulrA|].
Qed.

Ltac to_ring :=
  repeat match goal with
  | |- context [@GRing.natmul ?V ?x (S ?n)] => rewrite (@mulrS V x n)
  | |- context [@GRing.natmul ?V ?x 0] => rewrite (@mulr0n V x)
  | |- context [@GRing.exp ?R ?x (S ?n)] => rewrite (@exprS R x n)
  | |- context [@GRing.exp ?R ?x 0] => rewrite (@expr0 R x)
  end;
  repeat match goal with
  | |- context [@GRing.add ?T ?x ?y] => change (@GRing.add T x y) with (addR x y)
  | |- context [@GRing.mul ?T ?x ?y] => change (@GRing.mul T x y) with (mulR x y)
  | |- context [@GRing.opp ?T ?x] => change (@GRing.opp T x) with (oppR x)
  end;
  let go A :=
    repeat match goal with
    | |- context [GRing.zero ?T] => change (GRing.zero T) with (zeroR A)
    | |- context [GRing.one ?T] => change (GRing.one T) with (oneR A)
    end;
    match goal with |- @eq _ ?a ?b => change (@eq (GRing.ComRing.sort A) a b) end in
  match goal with
  | |- context [@addR ?A _ _] => go A
  | |- context [@mulR ?A _ _] => go A
  | |- context [@oppR ?A _] => go A
  | _ => idtac
  end.
Ltac cring := to_ring; ring.
