(** Coq's [ring] and [field] for an arbitrary mathcomp field: operations are
    renamed to syntactically rigid heads first.  In a section over
    [F : fieldType] say [Add Field FF : (mc_field_theory F).] *)
Set Warnings "-notation-overridden,-ambiguous-paths".
From mathcomp Require Import all_ssreflect all_algebra.
From Coq Require Export Field_theory Field.
Set Implicit Arguments. Unset Strict Implicit. Unset Printing Implicit Defensive.
Import GRing.Theory.
Local Open Scope ring_scope.

Definition zeroF (F : fieldType) : F := 0.
Definition oneF (F : fieldType) : F := 1.
Definition addF (F : fieldType) (x y : F) : F := x + y.
Definition mulF (F : fieldType) (x y : F) : F := x * y.
Definition oppF (F : fieldType) (x : F) : F := - x.
Definition subF (F : fieldType) (x y : F) : F := x - y.
Definition invF (F : fieldType) (x : F) : F := x^-1.
Definition divF (F : fieldType) (x y : F) : F := x / y.
Arguments zeroF : simpl never. Arguments oneF : simpl never. Arguments addF : simpl never. Arguments mulF : simpl never.
Arguments oppF : simpl never. Arguments subF : simpl never. Arguments invF : simpl never. Arguments divF : simpl never.

Lemma mc_field_theory (F : fieldType) :
  field_theory (zeroF F) (oneF F) (@addF F) (@mulF F) (@subF F) (@oppF F) (@divF F) (@invF F) (@eq F).
Proof.
constructor; rewrite /zeroF /oneF /addF /mulF /oppF /subF /invF /divF.
- constructor=> *; rewrite ?add0r ?mul1r ?mulrDl ?subrr //; by [rewrite addrC|rewrite addrA|rewrite mulrC|rewrite mulrA|].
- exact/eqP/oner_neq0.
- by [].
- by move=> p /eqP Hp; rewrite mulVf.
Qed.

Ltac to_field :=
  repeat match goal with
  | |- context [@GRing.natmul ?V ?x (S ?n)] => rewrite (@mulrS V x n)
  | |- context [@GRing.natmul ?V ?x 0] => rewrite (@mulr0n V x)
  | |- context [@GRing.exp ?R ?x (S ?n)] => rewrite (@exprS R x n)
  | |- context [@GRing.exp ?R ?x 0] => rewrite (@expr0 R x)
  end;
  repeat match goal with
  | |- context [@GRing.add ?T ?x ?y] => change (@GRing.add T x y) with (addF x y)
  | |- context [@GRing.mul ?T ?x ?y] => change (@GRing.mul T x y) with (mulF x y)
  | |- context [@GRing.opp ?T ?x] => change (@GRing.opp T x) with (oppF x)
  | |- context [@GRing.inv ?T ?x] => change (@GRing.inv T x) with (invF x)
  end;
  let go F :=
    repeat match goal with
    | |- context [GRing.zero ?T] => change (GRing.zero T) with (zeroF F)
    | |- context [GRing.one ?T] => change (GRing.one T) with (oneF F)
    end;
    match goal with |- @eq _ ?a ?b => change (@eq (GRing.Field.sort F) a b) end in
  match goal with
  | |- context [@addF ?F _ _] => go F
  | |- context [@mulF ?F _ _] => go F
  | |- context [@oppF ?F _] => go F
  | |- context [@invF ?F _] => go F
  | _ => idtac
  end.
Ltac unone :=
  repeat match goal with
  | F : fieldType |- context [?t] =>
    match t with match _ with _ => _ end =>
      first [change t with (oneF F) | change t with (zeroF F) | change t with (@addF F) | change t with (@mulF F) | change t with (@oppF F)] end
  end.
Ltac of_field := unone; rewrite /zeroF /oneF /addF /mulF /oppF /subF /invF /divF.
Ltac fring := to_field; ring.
Ltac ffield := to_field; field; of_field.
(** closes side conditions [e <> 0] and [e != 0] from a hypothesis [e' != 0]
    with [e = e'] provable by [ring] (tries all such hypotheses) *)
Ltac nz1 :=
  match goal with
  | |- is_true (1 != 0) => exact: oner_neq0
  | H : is_true (?e' != _) |- is_true (?e != _) => exact H
  | H : is_true (?e' != _) |- is_true (?e != _) =>
      let Q := fresh in assert (Q : e = e') by fring; rewrite Q; exact H
  end.
Ltac nz :=
  repeat match goal with |- _ /\ _ => split end;
  try match goal with |- ~ (_ = _) => apply/eqP end; try match goal with |- _ -> False => apply/eqP end;
  nz1.
