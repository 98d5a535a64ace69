(** The nodes of the Morley and Argyris elements on a triangle. *)
Set Warnings "-notation-overridden,-ambiguous-paths".
From mathcomp Require Import all_ssreflect all_algebra.
From Verif Require Base ModelCell ModelFam.
From Verif Require Import ModelDual SpecDual ProofsDmatsReg SpecPoly ModelSpace SpecJet SpecNormal PropsNormalCells.
Set Implicit Arguments. Unset Strict Implicit. Unset Printing Implicit Defensive.
Import GRing.Theory.
Local Open Scope ring_scope.

Section C1.
Variable R : rcfType.
Notation V c v := (nth [::] (ModelCell.vertices (mcF R) c : seq (seq R)) v).
(** [nu e] is a unit normal of edge [e] *)
Definition unit_normals (c : cell) (nu : nat -> seq R) : Prop :=
  forall e W, facet_is c e W -> orthogonal_to 2 (ModelCell.vertices (mcF R) c : seq (seq R)) W (nu e) /\ inner 2 (nu e) (nu e) = 1.
(** the point k/m of the way from vertex [a] to vertex [b]; the point with
    weights i/m, j/m, k/m *)
Definition on_edge (c : cell) (a b k m : nat) : seq R :=
  mkseq (fun i => nth 0 (V c a) i + k%:R / m%:R * (nth 0 (V c b) i - nth 0 (V c a) i)) 2.
Definition inside (c : cell) (i j k m : nat) : seq R :=
  mkseq (fun l => (i%:R * nth 0 (V c 0) l + j%:R * nth 0 (V c 1) l + k%:R * nth 0 (V c 2) l) / m%:R) 2.
(** a node of the dual set as terms; [nu e] is the normal of edge [e] *)
Definition node_terms (nu : nat -> seq R) (l : ModelFam.node (mcF R)) : dnode R :=
  match l with
  | ModelFam.PointEvaluation x => at_pt (x : seq R)
  | ModelFam.PointDerivative x a => der_at (x : seq R) a
  | ModelFam.PointNormalDerivative e x => along_at 2 (x : seq R) (nu e)
  | _ => [::]
  end.
(** Morley: values at the vertices, normal derivatives at the edge midpoints *)
Definition morley_spec (c : cell) (nu : nat -> seq R) (nds : seq (dnode R)) : Prop :=
  [/\ size nds = 6%N, forall v, (v <= 2)%N -> at_pt (V c v) \in nds &
      forall e a b, facet_is c e [:: a; b] -> along_at 2 (on_edge c a b 1 2) (nu e) \in nds].
(** Argyris of degree [q]: value, gradient and second derivatives at the
    vertices; on every edge normal derivatives at the points k/(q-3) and values at
    the points k/(q-4); values at the interior lattice points of order q-3 *)
Definition argyris_spec (c : cell) (q : nat) (nu : nat -> seq R) (nds : seq (dnode R)) : Prop :=
  [/\ size nds = Base.binom (q + 2) 2,
      forall v, (v <= 2)%N -> at_pt (V c v) \in nds /\
        forall al, al \in [:: [:: 1; 0]; [:: 0; 1]; [:: 2; 0]; [:: 1; 1]; [:: 0; 2]]%N -> der_at (V c v) al \in nds,
      forall e a b k, facet_is c e [:: a; b] -> (0 < k < q - 3)%N -> along_at 2 (on_edge c a b k (q - 3)) (nu e) \in nds,
      forall e a b k, facet_is c e [:: a; b] -> (0 < k < q - 4)%N -> at_pt (on_edge c a b k (q - 4)) \in nds &
      forall i j k, (0 < i)%N -> (0 < j)%N -> (0 < k)%N -> (i + j + k = q - 3)%N -> at_pt (inside c i j k (q - 3)) \in nds].
End C1.
