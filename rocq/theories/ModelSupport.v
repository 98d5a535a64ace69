(** finite_element.py, [entity_support_dofs]: the degrees of freedom whose basis
    functions do not vanish on an entity.  Exact arithmetic.  The cache on the
    element (l.209-215, l.243) is not modelled: it returns the same dictionary. *)
Set Warnings "-notation-overridden,-ambiguous-paths".
From mathcomp Require Import all_ssreflect all_algebra.
From Verif Require Base ModelCell ModelTPE ModelGeom.
From Verif Require Import ProofsDmatsReg.
Set Implicit Arguments. Unset Strict Implicit. Unset Printing Implicit Defensive.
Import Order.TTheory GRing.Theory Num.Theory.
Local Open Scope ring_scope.

Section Support.
Variable R : realFieldType.
Notation K := (mcF R).

(** [list(map(f, l))] for functions that may raise *)
Fixpoint map_ok (A B : Type) (f : A -> Base.result B) (l : seq A) : Base.result (seq B) :=
  if l is a :: l' then Base.bind (f a) (fun b => Base.bind (map_ok f l') (fun bs => Base.Ok (b :: bs))) else Base.Ok [::].
(** l.224 *)
Definition eps : R := 10%:R ^- 8.
(** l.235-239 at one point: the square of a scalar function; for a value shape
    [s ++ [n]] the einsum sums over the last index only, so that one sum is left
    for each index of shape [s]; here the first of them (index 0 ... 0). *)
Definition square (vshape : seq nat) (phi : nat -> seq nat -> seq R -> R) (dof : nat) (x : seq R) : R :=
  if vshape is [::] then phi dof [::] x ^+ 2
  else \sum_(i < last 0%N vshape) phi dof (rcons (nseq (size vshape).-1 0%N) i) x ^+ 2.
(** l.235-239: the sum over the points of the square times the weight *)
Definition ints (vshape : seq nat) (phi : nat -> seq nat -> seq R -> R) (points : seq (seq R)) (weights : seq R) (dof : nat) : R :=
  \sum_(xw <- zip points weights) square vshape phi dof xw.1 * xw.2.
(** l.241, [if i > eps]: the truth value of an array whose size is not 1 raises
    ValueError (the size 0 does so in recent versions of numpy). *)
Definition listed (vshape : seq nat) (phi : nat -> seq nat -> seq R -> R) (points : seq (seq R)) (weights : seq R) (dof : nat) : Base.result bool :=
  if Base.nprod (take (size vshape).-1 vshape) == 1%N then Base.Ok (eps < ints vshape phi points weights dof)
  else Base.Err Base.ValueError.
(** finite_element.py l.202-244.  [ids] is [entity_dofs()], [vshape] is
    [value_shape()], [phi] the tabulated basis with [nb] members (degree of
    freedom, component, point), [quad sub] the points and weights of
    [create_quadrature(sub, max(2*degree, 1))]. *)
Definition entity_support_dofs (c : ModelCell.cell) (ids : ModelCell.dict (seq nat)) (nb : nat) (vshape : seq nat)
    (phi : nat -> seq nat -> seq R -> R)
    (quad : ModelCell.cell -> Base.result (seq (seq R) * seq R)) (entity_dim : nat) : Base.result (seq (nat * seq nat)) :=
  Base.bind (ModelTPE.construct_subelement c (ModelCell.DI entity_dim)) (fun entity_cell =>
  Base.bind (quad entity_cell) (fun pw =>
  match ModelCell.dlookup (ModelCell.DI entity_dim) ids with
  | None => Base.Err Base.KeyError
  | Some es =>
    map_ok (fun f =>
      Base.bind (@ModelGeom.get_entity_transform K c (ModelCell.DI entity_dim) f) (fun T =>
      Base.bind (map_ok T pw.1) (fun points =>
      Base.bind (map_ok (listed vshape phi points pw.2) (iota 0 nb)) (fun bs =>
      Base.Ok (f, [seq p.1 | p <- zip (iota 0 nb) bs & p.2]))))) [seq kv.1 | kv <- es]
  end)).
End Support.
