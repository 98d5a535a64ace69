(** Convex hulls, and ordered fields as coordinate fields of the cell model. *)
Set Warnings "-notation-overridden,-ambiguous-paths".
From mathcomp Require Import all_ssreflect all_algebra.
From Verif Require Base ModelCell.
From Verif Require Import FieldTac.
Set Implicit Arguments. Unset Strict Implicit. Unset Printing Implicit Defensive.
Import Order.TTheory GRing.Theory Num.Theory.
Local Open Scope ring_scope.

Section Hull.
Variable F : realFieldType.
(** the field operations of [F] as the record used by the cell model *)
Definition ordF : Base.fieldT := @Base.mkField F _ _ _ _ _ _ _ _ (mc_field_theory F).
Definition le_dec : Base.car ordF -> Base.car ordF -> bool := fun x y : F => x <= y.
(** [p] is a convex combination of finitely many points of [vs] *)
Definition in_hull (vs : seq (seq F)) (p : seq F) : Prop :=
  exists L : seq (F * seq F),
    [/\ forall a, a \in L -> 0 <= a.1 /\ a.2 \in vs, \sum_(a <- L) a.1 = 1 &
        forall k, (k < size p)%N -> nth 0 p k = \sum_(a <- L) a.1 * nth 0 a.2 k].
End Hull.
(** cells with a [contains_point] method all the way down *)
Fixpoint containable (c : ModelCell.cell) : bool :=
  match c with
  | ModelCell.UFCInterval | ModelCell.UFCTriangle | ModelCell.UFCTetrahedron
  | ModelCell.UFCQuadrilateral | ModelCell.UFCHexahedron => true
  | ModelCell.TensorProductCell cs => all containable cs
  | _ => false
  end.
