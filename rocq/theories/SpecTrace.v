(** Specification vocabulary for the trace element. *)
From Coq Require Import Sorting.Sorted.
From Verif Require Import Base ModelCell ModelTPE.

(** the entity [(D, i)] of the cell is a facet: its reference sub-element has
    codimension one *)
Definition is_facet (c : cell) (x : dimT * nat) : Prop :=
  lookup (topology c) (fst x) (snd x) <> None /\
  exists sub, construct_subelement c (fst x) = Ok sub /\ S (spatial_dimension sub) = spatial_dimension c.

(** facets are ordered by dimension first, then by number *)
Definition facet_before (x y : dimT * nat) : Prop :=
  (fst x = fst y /\ snd x < snd y) \/ (fst x <> fst y /\ dleb (fst x) (fst y) = true).

(** the list of all facets, in order *)
Definition facet_list (c : cell) (L : list (dimT * nat)) : Prop :=
  StronglySorted facet_before L /\ forall x, In x L <-> is_facet c x.
