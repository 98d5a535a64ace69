(** Specification vocabulary for entity transforms. *)
From Verif Require Import Base ModelCell.

Section Spec.
  Context {K : fieldT}.
  (** the combination  sum_i ws_i ps_i  of points with [n] coordinates *)
  Definition comb (n : nat) (ws : list K) (ps : list (list K)) : list K :=
    map (fun k => fsum (map (fun '(w, p) => fmul w (nth k p f0)) (combine ws ps))) (seq 0 n).
  (** barycentric coordinates of a point of the unit simplex *)
  Definition bary (x : list K) : list K := fsub f1 (fsum x) :: x.
  (** the points number [ids] of a list *)
  Definition picked (vs : list (list K)) (ids : list nat) : list (list K) := map (fun i => nth i vs []) ids.
End Spec.
(** cells of the UFC family that are not themselves products *)
Definition ufc_factor (c : cell) : Prop :=
  match c with
  | Point | UFCInterval | UFCTriangle | UFCTetrahedron | UFCQuadrilateral | UFCHexahedron => True
  | _ => False
  end.
(** ... and products of one or more of them *)
Definition ufc_family (c : cell) : Prop :=
  match c with
  | TensorProductCell cs => cs <> [] /\ Forall ufc_factor cs
  | _ => ufc_factor c
  end.
(** [T] is defined on points with [d] coordinates and is affine: it maps
    combinations with weights summing to one to the same combinations. *)
Definition affine_map {K : fieldT} (T : list K -> result (list K)) (d n : nat) : Prop :=
  forall ws ps, fsum ws = f1 -> length ws = length ps -> Forall (fun p => length p = d) ps ->
    exists ys, Forall2 (fun p y => T p = Ok y /\ length y = n) ps ys /\ T (comb d ws ps) = Ok (comb n ws ys).
