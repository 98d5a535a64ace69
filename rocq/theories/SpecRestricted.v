(** Which dofs a restriction domain stands for. *)
From Coq Require Import String.
From Verif Require Import Base ModelCell.

(** entities of dimension [d] belong to the domain, on a cell of spatial
    dimension [sd] *)
Definition admissible (domain : string) (sd d : nat) : Prop :=
  (domain = "vertex" /\ d = 0)%string \/ (domain = "edge" /\ d <= 1)%string \/
  (domain = "face" /\ d <= 2)%string \/ (domain = "facet" /\ d < sd)%string.
Definition documented_domain (domain : string) : Prop :=
  (domain = "interior" \/ domain = "vertex" \/ domain = "edge" \/ domain = "face" \/ domain = "facet")%string.
