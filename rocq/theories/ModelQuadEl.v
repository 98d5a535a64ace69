(** quadrature_element.py, [QuadratureElement]. *)
Set Warnings "-notation-overridden,-ambiguous-paths".
From mathcomp Require Import all_ssreflect all_algebra.
From Verif Require Base ModelCell ModelQuadElIds.
From Verif Require Import ModelDual ModelFunctional.
Set Implicit Arguments. Unset Strict Implicit. Unset Printing Implicit Defensive.
Import GRing.Theory Num.Theory.
Local Open Scope ring_scope.

Section QuadratureElement.
Variable R : realFieldType.
Notation fnl := (functional R [eqType of seq R]).
Record quadrature_element := mkQE {
  qe_cell : ModelCell.cell;
  qe_points : seq (seq R);
  qe_nodes : seq fnl;
  qe_ids : seq (ModelCell.dimT * seq (nat * seq nat)) }.
(** l.22-37 *)
Definition QuadratureElement (c : ModelCell.cell) (points : seq (seq R)) : quadrature_element :=
  mkQE c points [seq PointEvaluation x | x <- points] (ModelQuadElIds.qe_entity_dofs c (size points)).
(** one row of [numpy.array(points) - self._points]: a row of length 1 is
    broadcast, other mismatches raise ValueError *)
Definition row_diff (p q : seq R) : Base.result (seq R) :=
  if size p == size q then Base.Ok [seq xy.1 - xy.2 | xy <- zip p q]
  else if size p == 1%N then Base.Ok [seq head 0 p - y | y <- q]
  else if size q == 1%N then Base.Ok [seq x - head 0 q | x <- p]
  else Base.Err Base.ValueError.
Fixpoint diffs (ps qs : seq (seq R)) : Base.result (seq R) :=
  match ps, qs with
  | p :: ps', q :: qs' =>
    match row_diff p q, diffs ps' qs' with
    | Base.Ok d, Base.Ok ds => Base.Ok (d ++ ds)
    | Base.Err e, _ | _, Base.Err e => Base.Err e
    end
  | _, _ => Base.Ok [::]
  end.
(** [abs(...).max() > 1e-12]; [max] of an empty array raises ValueError *)
Definition mismatch (ps qs : seq (seq R)) : Base.result bool :=
  match diffs ps qs with
  | Base.Err e => Base.Err e
  | Base.Ok [::] => Base.Err Base.ValueError
  | Base.Ok ds => Base.Ok (has (fun d => (10 ^+ 12)^-1 < `|d|) ds)
  end.
(** l.43-61; the rows of [points] all have the same length, and so have those
    of [self._points] (else numpy.array is not rectangular).  The result has
    one key and the identity matrix. *)
Definition qe_tabulate (E : quadrature_element) (order : nat) (points : seq (seq R)) (entity : option (ModelCell.dimT * nat))
  : Base.result (seq (seq nat * seq (seq R))) :=
  let bad := match entity with
             | None => false
             | Some (d, e) => ~~ (ModelCell.deqb d (ModelCell.get_dimension (qe_cell E)) && (e == 0%N))
             end in
  if bad then Base.Err Base.ValueError
  else if order != 0%N then Base.Err Base.ValueError
  else if size points != size (qe_points E) then Base.Err Base.AssertionError
  else match mismatch points (qe_points E) with
       | Base.Err e => Base.Err e
       | Base.Ok true => Base.Err Base.AssertionError
       | Base.Ok false =>
         let n := size (qe_points E) in
         Base.Ok [:: (nseq (ModelCell.spatial_dimension (qe_cell E)) 0%N, [seq [seq (i == j)%:R | j <- iota 0 n] | i <- iota 0 n])]
       end.
End QuadratureElement.
