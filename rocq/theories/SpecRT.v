(** What a nodal basis of a space of vector fields is, the Raviart-Thomas space and
    the plane of a facet. *)
Set Warnings "-notation-overridden,-ambiguous-paths".
From mathcomp Require Import all_ssreflect all_algebra.
From Verif Require Import ModelDual SpecDual ProofsDmatsReg SpecPoly ModelSpace SpecVec.
Set Implicit Arguments. Unset Strict Implicit. Unset Printing Implicit Defensive.
Import GRing.Theory.
Local Open Scope ring_scope.

(** what a nodal basis of a space [S] of polynomial fields of degree [n] is:
    the [U] returned by the constructor has one member per node, its members are
    fields of [S] (values and derivatives), dual to the nodes, and every field of
    [S] is the combination of the members with its node values *)
Definition vec_nodal (F : fieldType) (sqrt : F -> F) (c : cell) (n : nat) (S : (nat -> seq nat -> F) -> Prop) (nodes : seq (functional F [eqType of seq F])) (U : polyset F) : Prop :=
  let sd := sdim_of c in
  let E := exp_set sqrt c n (size (exps sd n)) in
  let node i := nth (@mkFunctional F [eqType of seq F] [::] [::] [::]) nodes i in
  [/\ num_members U = size nodes, pshape U = [:: sd],
      forall j, (j < size nodes)%N -> exists2 cfs, S cfs & same_vec sd (member E U j) (vec_func sd n cfs),
      forall i j, (i < size nodes)%N -> (j < size nodes)%N -> apply (node i) (member E U j) = (i == j)%:R &
      forall cfs, S cfs -> same_vec sd (vec_func sd n cfs) (vec_sum (size nodes) (fun j => apply (node j) (vec_func sd n cfs)) (member E U))].
(** the Raviart-Thomas fields p + x q of degree at most deg + 1 *)
Definition rt_space_of (F : fieldType) (deg : nat) (cfs : nat -> seq nat -> F) : Prop := exists p q, cfs = rt_cf deg p q.


(** [x] is an affine combination of the vertices [W] of the cell with vertex
    coordinates [vs]: a point of the line or plane of a facet *)
Definition in_plane (F : fieldType) (sd : nat) (vs : seq (seq F)) (W : seq nat) (x : seq F) : Prop :=
  size x = sd /\ exists l : nat -> F, \sum_(v <- W) l v = 1 /\ forall j, (j < sd)%N -> nth 0 x j = \sum_(v <- W) l v * nth 0 (nth [::] vs v) j.
