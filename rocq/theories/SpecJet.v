(** Nodes that are combinations of values and derivatives at points, and what a
    nodal basis for such nodes is. *)
Set Warnings "-notation-overridden,-ambiguous-paths".
From mathcomp Require Import all_ssreflect all_algebra.
From Verif Require Import ModelDual SpecDual ProofsDmatsReg SpecPoly ModelSpace.
Set Implicit Arguments. Unset Strict Implicit. Unset Printing Implicit Defensive.
Import GRing.Theory.
Local Open Scope ring_scope.

Section Jet.
Variable F : fieldType.
Notation pt := [eqType of seq F].
(** a node: terms (w, x, al); the term stands for w times the derivative [al] at
    [x], the value at [x] if [al] is empty *)
Definition dnode := seq (F * seq F * seq nat).
Definition dval (N : dnode) (f : seq F -> F) (fd : seq nat -> seq F -> F) : F :=
  \sum_(t <- N) t.1.1 * (if t.2 == [::] then f t.1.2 else fd t.2 t.1.2).
(** value and derivative of basis function [j] of an element with degree-[n]
    expansion set on [c]: what [element.tabulate] returns *)
Definition bval (sqrt : F -> F) (c : cell) (n : nat) (U : polyset F) (j : nat) (x : seq F) : F :=
  fval (@member F pt (exp_set sqrt c n (num_members U)) U j) [::] x.
Definition bder (sqrt : F -> F) (c : cell) (n : nat) (U : polyset F) (j : nat) (al : seq nat) (x : seq F) : F :=
  fder (@member F pt (exp_set sqrt c n (num_members U)) U j) [::] al x.
(** the basis functions are polynomials of degree at most [n], dual to the nodes
    [nds]; interpolation reproduces every polynomial of degree at most [n] with
    all its derivatives *)
Definition jet_nodal (sqrt : F -> F) (c : cell) (n : nat) (U : polyset F) (nds : seq dnode) : Prop :=
  let sd := sdim_of c in
  [/\ num_members U = size nds /\ pshape U = [::],
      forall j, (j < size nds)%N -> exists cf, (forall x, bval sqrt c n U j x = pval sd n cf x) /\
        forall al x, size al = sd -> bder sqrt c n U j al x = pder sd n cf al x,
      forall i j, (i < size nds)%N -> (j < size nds)%N -> dval (nth [::] nds i) (bval sqrt c n U j) (bder sqrt c n U j) = (i == j)%:R,
      forall cf x, pval sd n cf x = \sum_(j < size nds) dval (nth [::] nds j) (pval sd n cf) (pder sd n cf) * bval sqrt c n U j x &
      forall cf al x, size al = sd -> pder sd n cf al x = \sum_(j < size nds) dval (nth [::] nds j) (pval sd n cf) (pder sd n cf) * bder sqrt c n U j al x].
(** value at [x]; derivative [al] at [x]; derivative in direction [n] at [x] *)
Definition at_pt (x : seq F) : dnode := [:: (1, x, [::])].
Definition der_at (x : seq F) (al : seq nat) : dnode := [:: (1, x, al)].
Definition along_at (sd : nat) (x n : seq F) : dnode := [seq (nth 0 n i, x, [seq (k == i : nat) | k <- iota 0 sd]) | i <- iota 0 sd].
End Jet.
