(** What [ufc_cell] should do: documented names, joined by " * ". *)
From Coq Require Import String.
From Verif Require Import Base ModelCell.
Open Scope string_scope.

Inductive documented : string -> cell -> Prop :=
| doc_vertex : documented "vertex" Point
| doc_interval : documented "interval" UFCInterval
| doc_triangle : documented "triangle" UFCTriangle
| doc_tet : documented "tetrahedron" UFCTetrahedron
| doc_quad : documented "quadrilateral" UFCQuadrilateral
| doc_hex : documented "hexahedron" UFCHexahedron.

Definition joined (names : list string) : string := String.concat " * " names.

(** the cell for a list of factors: a single factor is not wrapped *)
Definition product_of (cs : list cell) : cell :=
  match cs with [c] => c | _ => TensorProductCell cs end.

(** product hypercubes *)
Inductive hypercube : cell -> Prop :=
| hc_line : hypercube DefaultLine
| hc_interval : hypercube UFCInterval
| hc_quad : hypercube UFCQuadrilateral
| hc_hex : hypercube UFCHexahedron
| hc_tp c cs : Forall hypercube (c :: cs) -> hypercube (TensorProductCell (c :: cs)).

(** every tuple of dimensions at one nesting level has the same shape, so that
    the dimension is a numerical array *)
Inductive uniform : list nat -> dimT -> Prop :=
| uni_int n : uniform [] (DI n)
| uni_nil : uniform [0] (DT [])
| uni_tuple s d l : Forall (uniform s) (d :: l) -> uniform (S (List.length l) :: s) (DT (d :: l)).
