(** The nodes of the DPC element: the lattice of order n of a simplex. *)
Set Warnings "-notation-overridden,-ambiguous-paths".
From mathcomp Require Import all_ssreflect all_algebra.
From Verif Require Base ModelCell.
Set Implicit Arguments. Unset Strict Implicit. Unset Printing Implicit Defensive.
Import GRing.Theory Num.Theory.
Local Open Scope ring_scope.

Section Spec.
Variable F : fieldType.
(** the simplex of the nodes on each flat cell, and the simplex cell that
    provides the expansion set *)
Definition node_simplex (f : ModelCell.cell) : option (ModelCell.cell * seq (seq F)) :=
  match f with
  | ModelCell.DefaultLine => Some (ModelCell.DefaultLine, [:: [:: -1]; [:: 1]])
  | ModelCell.UFCInterval => Some (ModelCell.UFCInterval, [:: [:: 0]; [:: 1]])
  | ModelCell.UFCQuadrilateral => Some (ModelCell.UFCTriangle, [:: [:: 0; 0]; [:: 1; 0]; [:: 1 / 2%:R; 1]])
  | ModelCell.UFCHexahedron => Some (ModelCell.UFCTetrahedron,
      [:: [:: 0; 0; 0]; [:: 1; 0; 0]; [:: 1 / 2%:R; 3%:R / 2%:R; 0]; [:: 1 / 2%:R; 1 / 2%:R; 1]])
  | _ => None
  end.
(** v_0 + sum_k y_k (v_{k+1} - v_0) *)
Definition simplex_point (V : seq (seq F)) (y : seq F) : seq F :=
  mkseq (fun j => nth 0 (nth [::] V 0) j + \sum_(k < size y) nth 0 y k * (nth 0 (nth [::] V k.+1) j - nth 0 (nth [::] V 0) j)) (size y).
(** the lattice point with numerators [idx] *)
Definition lattice_point (V : seq (seq F)) (n : nat) (idx : seq nat) : seq F := simplex_point V [seq i%:R / n%:R | i <- idx].
End Spec.

(** [x] is a convex combination of the points [P] *)
Definition in_hull (R : numDomainType) (P : seq (seq R)) (x : seq R) : Prop :=
  exists w : seq R, [/\ size w = size P, (forall t, t \in w -> 0 <= t), \sum_(t <- w) t = 1 &
    forall j, (j < size x)%N -> nth 0 x j = \sum_(i < size P) nth 0 w i * nth 0 (nth [::] P i) j].
