(** Pointwise duals (pointwise_dual.py), in exact arithmetic over an ordered
    field.  The element is what the function asks of it: dimension, value shape,
    spatial dimension, values of the basis functions, entity dofs. *)
Set Warnings "-notation-overridden,-ambiguous-paths".
From mathcomp Require Import all_ssreflect all_algebra.
From Verif Require Base ModelCell.
From Verif Require Import ModelDual.
Set Implicit Arguments. Unset Strict Implicit. Unset Printing Implicit Defensive.
Import Order.TTheory GRing.Theory Num.Theory.
Local Open Scope ring_scope.

Section Pointwise.
Variable F : realFieldType.
Notation point := (seq F).
Notation fnl := (functional F [eqType of seq F]).

(** [space_dimension()], [value_shape()], spatial dimension of [ref_el],
    component [c] of basis function [j] at a point (what [tabulate(0, pts)]
    tabulates), [entity_dofs()]. *)
Record element := mkElement {
  e_dim : nat; e_shape : seq nat; e_sd : nat;
  e_basis : nat -> comp -> point -> F;
  e_ids : seq (ModelCell.dimT * seq (nat * seq nat)) }.

(** pointwise_dual.py l.63-66: [pt_dict[tuple(pt)].append(coeff_comp)] on a
    [defaultdict(list)], an association list in insertion order. *)
Fixpoint append_to (pt : point) (w : F * comp) (d : seq (point * seq (F * comp))) : seq (point * seq (F * comp)) :=
  if d is (pt', ws) :: d' then
    if pt == pt' then (pt', rcons ws w) :: d' else (pt', ws) :: append_to pt w d'
  else [:: (pt, [:: w])].

(** the index tuples of an array of shape [shp ++ [npts]] in C order, which is
    the order of [np.where] (l.60) *)
Definition entries (shp : seq nat) (npts : nat) : seq (comp * nat) := [seq (c, p) | c <- comps shp, p <- iota 0 npts].

(** the literal 1.e-12 of l.60 *)
Definition drop_tol : F := (10 ^+ 12)^-1.

(** l.58-68, one row of [alphas] *)
Definition row_functional (shp : seq nat) (pts : seq point) (coeffs : comp -> nat -> F) : fnl :=
  let nonzero := [seq cp <- entries shp (size pts) | drop_tol < `|coeffs cp.1 cp.2|] in
  mkFunctional (P := [eqType of seq F]) shp
    (foldl (fun d cp => append_to (nth [::] pts cp.2) (coeffs cp.1 cp.2, cp.1) d) [::] nonzero) [::].

(** l.45-48: [V.reshape((nbf, -1)).T]; [V] has shape (nbf, *shp, npts), so column
    [q] of the reshaped array is component number [q / npts], point [q mod npts] *)
Definition point_matrix (el : element) (pts : seq point) : 'M[F]_(e_dim el) :=
  (\matrix_(j, q) e_basis el j (nth [::] (comps (e_shape el)) (q %/ size pts)) (nth [::] pts (q %% size pts)))^T.

(** l.32-70, [compute_pointwise_dual].  An empty component range divides by zero
    on l.37 (OverflowError in Python, PlainException here); ragged point lists
    fail the shape assertion.  [numpy.linalg.inv] raises LinAlgError on non-square
    and on singular matrices.  The result is the list of nodes and the entity
    dofs given to [DualSet]. *)
Definition compute_pointwise_dual (el : element) (pts : seq point) : result (seq fnl * seq (ModelCell.dimT * seq (nat * seq nat))) :=
  let nc := size (comps (e_shape el)) in
  let nbf := e_dim el in
  if nc == 0%N then Err Base.PlainException
  else if ~~ ((size pts == (nbf %/ nc)%N) && all (fun x => size x == e_sd el) pts) then Err Base.AssertionError
  else if (nc * size pts)%N != nbf then Err Base.LinAlgError
  else let M := point_matrix el pts in
  if M \in unitmx then
    let alphas := invmx M in
    let coeffs := fun (i : 'I_nbf) c p =>
      if insub (index c (comps (e_shape el)) * size pts + p)%N is Some q then alphas i q else 0 in
    Ok ([seq row_functional (e_shape el) pts (coeffs i) | i <- enum 'I_nbf], e_ids el)
  else Err Base.LinAlgError.
End Pointwise.
