(** Tensor valued polynomials given by the coefficients of their components, and
    what a nodal basis of a space of such fields is. *)
Set Warnings "-notation-overridden,-ambiguous-paths".
From mathcomp Require Import all_ssreflect all_algebra.
From Verif Require Import ModelDual SpecDual ProofsDmatsReg SpecPoly ModelSpace.
Set Implicit Arguments. Unset Strict Implicit. Unset Printing Implicit Defensive.
Import GRing.Theory.
Local Open Scope ring_scope.

Section Tens.
Variable F : fieldType.
Notation pt := [eqType of seq F].
(** the field whose component [c] is sum_a cfs c a x^a, |a| <= k *)
Definition tens_func (sd k : nat) (cfs : seq nat -> seq nat -> F) : func F pt :=
  @mkFunc F pt (fun c x => pval sd k (cfs c) x) (fun c al x => pder sd k (cfs c) al x).
(** equal values and equal derivatives of the components of shape [shp] *)
Definition same_tens (shp : seq nat) (sd : nat) (f g : func F pt) : Prop :=
  (forall c x, c \in comps shp -> fval f c x = fval g c x) /\
  (forall c al x, c \in comps shp -> size al = sd -> fder f c al x = fder g c al x).
(** sum_j t_j f_j *)
Definition tens_sum N (t : nat -> F) (f : nat -> func F pt) : func F pt :=
  @mkFunc F pt (fun c x => \sum_(i < N) t i * fval (f i) c x) (fun c al x => \sum_(i < N) t i * fder (f i) c al x).
(** The [U] returned by the constructor is a nodal basis of the space [S] of
    polynomial fields of degree [n] and shape [shp]: one member per node, members
    are fields of [S] (values and derivatives), dual to the nodes, and every field
    of [S] is the combination of the members with its node values. *)
Definition tens_nodal (sqrt : F -> F) (c : cell) (n : nat) (shp : seq nat) (S : (seq nat -> seq nat -> F) -> Prop) (nodes : seq (functional F pt)) (U : polyset F) : Prop :=
  let sd := sdim_of c in
  let E := exp_set sqrt c n (size (exps sd n)) in
  let node i := nth (@mkFunctional F pt [::] [::] [::]) nodes i in
  [/\ num_members U = size nodes, pshape U = shp,
      forall j, (j < size nodes)%N -> exists2 cfs, S cfs & same_tens shp sd (member E U j) (tens_func sd n cfs),
      forall i j, (i < size nodes)%N -> (j < size nodes)%N -> apply (node i) (member E U j) = (i == j)%:R &
      forall cfs, S cfs -> same_tens shp sd (tens_func sd n cfs) (tens_sum (size nodes) (fun j => apply (node j) (tens_func sd n cfs)) (member E U))].
(** symmetric matrix valued polynomials *)
Definition sym_field (sd : nat) (cfs : seq nat -> seq nat -> F) : Prop :=
  forall i j a, (i < sd)%N -> (j < sd)%N -> cfs [:: i; j] a = cfs [:: j; i] a.
(** v^T M w *)
Definition bilin (sd : nat) (v w : seq F) (M : nat -> nat -> F) : F :=
  \sum_(i < sd) \sum_(j < sd) nth 0 v i * M i j * nth 0 w j.
End Tens.
