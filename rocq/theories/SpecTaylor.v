(** Integrals over a simplex of polynomials given by their coefficients, and the
    nodes of the discontinuous Taylor element. *)
Set Warnings "-notation-overridden,-ambiguous-paths".
From mathcomp Require Import all_ssreflect all_algebra.
From Verif Require Base ModelCell.
From Verif Require Import ModelDual SpecDual ProofsDmatsReg SpecJacobi SpecExpansion SpecQuad SpecPoly ModelSpace SpecJet.
Set Implicit Arguments. Unset Strict Implicit. Unset Printing Implicit Defensive.
Import GRing.Theory.
Local Open Scope ring_scope.

Section Taylor.
Variable F : fieldType.
Notation vts c := (ModelCell.vertices (mcF F) c : seq (seq F)).
(** integral over the cell of the polynomial of degree at most [n] with
    coefficients [cf]; negative orientation counts negative *)
Definition cell_integral (c : cell) (n : nat) (cf : seq nat -> F) : F :=
  match sdim_of c with
  | 1 => int_interval (vts c) (\poly_(i < n.+1) cf [:: i])
  | 2 => int_triangle (vts c) (\poly_(i < n.+1) \poly_(j < (n - i).+1) cf [:: i; j])
  | _ => int_tetrahedron (vts c) (\poly_(i < n.+1) \poly_(j < (n - i).+1) \poly_(k < (n - i - j).+1) cf [:: i; j; k])
  end.
(** the mean of the vertices *)
Definition center (c : cell) : seq F :=
  mkseq (fun i => (\sum_(v <- vts c) nth 0 v i) / (size (vts c))%:R) (sdim_of c).
(** [nds]: first a combination of point values whose value on every polynomial of
    degree at most [n] is its integral over the cell, then all derivatives of
    order 1 to [n] at the center, by increasing order *)
Definition taylor_spec (c : cell) (n : nat) (nds : seq (dnode F)) : Prop :=
  exists w al, [/\ nds = w :: [seq der_at (center c) a | a <- al],
    forall t, t \in w -> t.2 = [::],
    forall cf fd, dval w (pval (sdim_of c) n cf) fd = cell_integral c n cf,
    perm_eq al [seq a <- exps (sdim_of c) n | (0 < sumn a)%N] & sorted (fun a b => sumn a <= sumn b)%N al].
End Taylor.
