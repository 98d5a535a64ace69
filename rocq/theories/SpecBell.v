(** The nodes of the Bell element on a triangle. *)
Set Warnings "-notation-overridden,-ambiguous-paths".
From mathcomp Require Import all_ssreflect all_algebra.
From Verif Require Base ModelCell.
From Verif Require Import ModelDual SpecDual ProofsDmatsReg SpecJacobi SpecPoly ModelSpace SpecJet SpecNormal PropsNormalCells.
Set Implicit Arguments. Unset Strict Implicit. Unset Printing Implicit Defensive.
Import GRing.Theory.
Local Open Scope ring_scope.

Section Bell.
Variable R : rcfType.
Notation V c v := (nth [::] (ModelCell.vertices (mcF R) c : seq (seq R)) v).
(** the Legendre polynomial of degree 4 on [0, 1] *)
Definition leg4 : {poly R} := 70%:R *: 'X^4 - 140%:R *: 'X^3 + 90%:R *: 'X^2 - 20%:R *: 'X + 1.
(** the point [t] of the way from vertex [a] to vertex [b] *)
Definition edge_point (c : cell) (a b : nat) (t : R) : seq R :=
  mkseq (fun i => nth 0 (V c a) i + t * (nth 0 (V c b) i - nth 0 (V c a) i)) 2.
(** the polynomial [N] is the derivative in direction [n] along the edge, of a
    function whose derivatives are [fd] *)
Definition normal_trace (c : cell) (a b : nat) (n : seq R) (fd : seq nat -> seq R -> R) (N : {poly R}) : Prop :=
  forall t, N.[t] = nth 0 n 0 * fd [:: 1; 0]%N (edge_point c a b t) + nth 0 n 1 * fd [:: 0; 1]%N (edge_point c a b t).
(** The nodes, for functions whose normal derivatives are polynomials of degree at
    most 5 along the edges: node 6 v, ..., 6 v + 5: value, gradient and second derivatives at vertex [v];
    node 18 + e: integral of the normal derivative on edge [e], times [leg4] *)
Definition bell_spec (c : cell) (nu : nat -> seq R) (nds : seq (dnode R)) : Prop :=
  [/\ size nds = 21%N,
      forall v, (v <= 2)%N -> nth [::] nds (6 * v) = at_pt (V c v) /\
        forall k, (k < 5)%N -> nth [::] nds (6 * v + k.+1) = der_at (V c v) (nth [::] [:: [:: 1; 0]; [:: 0; 1]; [:: 2; 0]; [:: 1; 1]; [:: 0; 2]]%N k) &
      forall e a b f fd (N : {poly R}), facet_is c e [:: a; b] -> (size N <= 6)%N -> normal_trace c a b (nu e) fd N ->
        dval (nth [::] nds (18 + e)) f fd = integral 0 1 (leg4 * N)].
End Bell.
