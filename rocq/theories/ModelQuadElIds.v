(** quadrature_element.py l.22-26: the entity dofs of a [QuadratureElement] with
    [n] points: all lists empty, then the entry of the cell's own dimension is
    replaced by [{0: list(range(n))}]. *)
From Verif Require Import Base ModelCell.
Definition qe_entity_dofs (c : cell) (n : nat) : dict (list nat) :=
  map (fun '(d, es) => (d, if deqb d (get_dimension c) then [(0, range 0 n)] else map (fun '(e, _) => (e, [])) es)) (topology c).
