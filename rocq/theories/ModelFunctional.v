(** functional.py l.177-795: the functional classes.  A functional is the record
    of ModelDual.v ([target_shape], [pt_dict], [deriv_dict]).  The geometry a
    constructor asks the cell for is a record of functions; a quadrature rule is
    its points and weights.  Exact arithmetic. *)
Set Warnings "-notation-overridden,-ambiguous-paths".
From mathcomp Require Import all_ssreflect all_algebra.
From Verif Require Base ModelIndex.
From Verif Require Import ModelDual.
Set Implicit Arguments. Unset Strict Implicit. Unset Printing Implicit Defensive.
Import GRing.Theory.
Local Open Scope ring_scope.

Section Functionals.
Variable F : fieldType.
Notation point := (seq F).
Notation fnl := (functional F [eqType of seq F]).
Notation mk := (@mkFunctional F [eqType of seq F]).

(** What is asked of [ref_el]: get_spatial_dimension, compute_normal,
    compute_scaled_normal, compute_edge_tangent, compute_normalized_edge_tangent,
    compute_face_tangents, get_entity_transform, volume_of_subcomplex. *)
Record geometry := mkGeometry {
  sd : nat;
  normal : nat -> seq F;
  scaled_normal : nat -> seq F;
  edge_tangent : nat -> seq F;
  unit_tangent : nat -> seq F;
  face_tangents : nat -> nat -> seq F;
  transform : nat -> nat -> point -> point;
  volume_of : nat -> nat -> F }.
Record rule := mkRule { qpts : seq point; qwts : seq F }.

(** [d[k] = v] on a dictionary *)
Fixpoint dset {V} (k : point) (v : V) (d : seq (point * V)) : seq (point * V) :=
  if d is (k', v') :: d' then if k == k' then (k, v) :: d' else (k', v') :: dset k v d' else [:: (k, v)].
(** a loop of assignments into an empty dictionary *)
Definition build {V} (items : seq (point * V)) : seq (point * V) := foldl (fun d kv => dset kv.1 kv.2 d) [::] items.

(** a multi-index that is 1 in direction [i], l.245-249, 332, 449, 476 *)
Definition e_ (n i : nat) : alpha := [seq (j == i : nat) | j <- iota 0 n].
Definition dot (a b : seq F) : F := \sum_(p <- zip a b) p.1 * p.2.

(** l.177-191, PointEvaluation, and its [__call__] on a scalar function *)
Definition PointEvaluation (x : point) : fnl := mk [::] [:: (x, [:: (1, [::])])] [::].
Definition call_PointEvaluation (l : fnl) (fn : point -> F) : option F :=
  if pt_dict l is (x, _) :: _ then Some (fn x) else None.
(** l.194-210 *)
Definition ComponentPointEvaluation (c : int) (shp : seq nat) (x : point) : Base.result fnl :=
  if size shp != 1%N then Base.Err Base.PlainException
  else if (c < 0)%R || (Posz (nth 0%N shp 0) <= c)%R then Base.Err Base.PlainException
  else Base.Ok (mk shp [:: (x, [:: (1, [:: absz c])])] [::]).
(** l.213-235 (the sympy based [__call__] is not modelled) *)
Definition PointDerivative (x : point) (a : alpha) : fnl := mk [::] [::] [:: (x, [:: (1, a, [::])])].
(** l.238-252 *)
Definition PointNormalDerivative (g : geometry) (facet : nat) (x : point) : fnl :=
  mk [::] [::] [:: (x, [seq ((normal g facet)`_i, e_ (sd g) i, [::]) | i <- iota 0 (sd g)])].
(** l.255-278; [alphas] l.262-272; [tau] is computed and not used *)
Definition second_alphas (n : nat) : seq alpha :=
  flatten [seq [seq [seq ((k == i) + (k == j))%N | k <- iota 0 n] | j <- iota i (n - i)] | i <- iota 0 n].
Definition PointNormalSecondDerivative (g : geometry) (facet : nat) (x : point) : fnl :=
  mk [::] [::] [:: (x, [seq ((normal g facet)`_i, nth [::] (second_alphas (sd g)) i, [::]) | i <- iota 0 (sd g)])].

(** l.281-311.  [f_at_qpts] shorter than the rule raises IndexError. *)
Definition IntegralMoment (Q : rule) (f : seq F) (c : comp) (shp : seq nat) : Base.result fnl :=
  if (size f < size (qpts Q))%N || (size (qwts Q) < size (qpts Q))%N then Base.Err Base.IndexError
  else Base.Ok (mk shp (build [seq ((nth [::] (qpts Q) i), [:: ((qwts Q)`_i * f`_i, c)]) | i <- iota 0 (size (qpts Q))]) [::]).
(** l.302-311, [__call__].  On a function returning numbers [numpy.dot] sums
    over the points; on one returning vectors of length [m], [fn(p) for p]
    is a points-by-[m] array, whose last axis is contracted with the weights
    (ValueError if [m] is not the number of points) before indexing with
    [self.comp]. *)
Definition moment_weights (l : fnl) : seq F := [seq (head (0, [::]) kv.2).1 | kv <- pt_dict l].
Definition call_IntegralMoment_scalar (l : fnl) (fn : point -> F) : F :=
  dot [seq fn kv.1 | kv <- pt_dict l] (moment_weights l).
Definition call_IntegralMoment_vector (l : fnl) (i m : nat) (fn : point -> seq F) : Base.result F :=
  if m != size (pt_dict l) then Base.Err Base.ValueError
  else if (size (pt_dict l) <= i)%N then Base.Err Base.IndexError
  else Base.Ok (dot (nth [::] [seq fn kv.1 | kv <- pt_dict l] i) (moment_weights l)).

(** l.314-339 *)
Definition IntegralMomentOfNormalDerivative (g : geometry) (facet : nat) (Q : rule) (f : seq F) : fnl :=
  mk [::] [::] (build [seq (transform g (sd g).-1 facet (nth [::] (qpts Q) j),
    [seq ((qwts Q)`_j * (normal g facet)`_i * f`_j, e_ (sd g) i, [::]) | i <- iota 0 (sd g)]) | j <- iota 0 (size (qpts Q))]).

(** numpy.polynomial.legendre.legval(x, [0]*n + [1]): the Legendre polynomial,
    by its three term recurrence *)
Fixpoint legendre2 (n : nat) (x : F) : F * F :=
  if n is n'.+1 then let '(p, q) := legendre2 n' x in
    (((2 * n' + 1)%:R * x * p - n'%:R * q) / n'.+1%:R, p)
  else (1, 0).
Definition legval (n : nat) (x : F) : F := (legendre2 n x).1.
(** l.342-381, IntegralLegendreDirectionalMoment and its normal and tangential
    subclasses; [Q] stands for GaussLegendreQuadratureLineRule(interval(),
    comp_deg + 1), whose points have one coordinate *)
Definition leg_at (Q : rule) (mom_deg k : nat) : F := legval mom_deg (2 * (head 0 (nth [::] (qpts Q) k)) - 1).
Definition IntegralLegendreDirectionalMoment (g : geometry) (s : seq F) (entity mom_deg : nat) (Q : rule) : Base.result fnl :=
  if sd g != 2%N then Base.Err Base.AssertionError
  else Base.Ok (mk [:: 2%N] (build [seq (transform g 1 entity (nth [::] (qpts Q) k),
    [seq ((qwts Q)`_k * (s`_i * leg_at Q mom_deg k), [:: i]) | i <- iota 0 2]) | k <- iota 0 (size (qpts Q))]) [::]).
Definition IntegralLegendreNormalMoment g entity mom_deg Q :=
  IntegralLegendreDirectionalMoment g (scaled_normal g entity) entity mom_deg Q.
Definition IntegralLegendreTangentialMoment g entity mom_deg Q :=
  IntegralLegendreDirectionalMoment g (edge_tangent g entity) entity mom_deg Q.
(** l.384-434; the absolute value of the volume does not matter, it is squared *)
Definition IntegralLegendreBidirectionalMoment (g : geometry) (s1 s2 : seq F) (entity mom_deg : nat) (Q : rule) : fnl :=
  let v := volume_of g 1 entity in
  mk [:: sd g; sd g] (build [seq (transform g (sd g).-1 entity (nth [::] (qpts Q) k),
    [seq ((qwts Q)`_k * (s1`_(nth 0%N ij 0) * s2`_(nth 0%N ij 1) * (leg_at Q mom_deg k * (v * v))), ij)
    | ij <- ModelIndex.index_iterator [:: sd g; sd g]]) | k <- iota 0 (size (qpts Q))]) [::].
Definition IntegralLegendreNormalNormalMoment g entity mom_deg Q :=
  IntegralLegendreBidirectionalMoment g (normal g entity) (normal g entity) entity mom_deg Q.
Definition IntegralLegendreNormalTangentialMoment g entity mom_deg Q :=
  IntegralLegendreBidirectionalMoment g (normal g entity) (unit_tangent g entity) entity mom_deg Q.

(** l.437-457 *)
Definition IntegralMomentOfDivergence (g : geometry) (Q : rule) (f : seq F) : fnl :=
  mk [::] [::] (build [seq ((nth [::] (qpts Q) j),
    [seq ((qwts Q)`_j * f`_j, e_ (sd g) i, [:: i]) | i <- iota 0 (sd g)]) | j <- iota 0 (size (qpts Q))]).
(** l.460-484; [f] has one row per component; cells of dimension below 2 have
    too few [alphas] (IndexError, unless the rule has no points) *)
Definition IntegralMomentOfTensorDivergence (g : geometry) (Q : rule) (f : seq (seq F)) : Base.result fnl :=
  if (size f != 2%N) || ~~ all (fun r => size r == size (qpts Q)) f then Base.Err Base.AssertionError
  else if (sd g < 2)%N && (qpts Q != [::]) then Base.Err Base.IndexError
  else Base.Ok (mk [::] [::] (build [seq ((nth [::] (qpts Q) q),
    flatten [seq [seq ((qwts Q)`_q * (nth [::] f i)`_q, e_ (sd g) j, [:: i; j]) | j <- iota 0 2] | i <- iota 0 2]) | q <- iota 0 (size (qpts Q))])).
(** l.487-504; [f c] is the row of values of component [c] (of the array
    [f_at_qpts] of shape [shp] x [nq]) *)
Definition FrobeniusIntegralMoment (Q : rule) (shp : seq nat) (nq : nat) (f : comp -> seq F) : Base.result fnl :=
  if size (qpts Q) != nq then Base.Err Base.PlainException
  else Base.Ok (mk shp (build [seq ((nth [::] (qpts Q) i),
    [seq ((qwts Q)`_i * (f c)`_i, c) | c <- ModelIndex.index_iterator shp]) | i <- iota 0 (size (qpts Q))]) [::]).

(** a weight for each component, as in l.516, 531, 575, 648 *)
Definition against (w : seq F) (n : nat) : seq (F * comp) := [seq (w`_i, [:: i]) | i <- iota 0 n].
(** l.507-519 *)
Definition PointNormalEvaluation (g : geometry) (facet : nat) (x : point) : fnl :=
  mk [:: sd g] [:: (x, against (normal g facet) (sd g))] [::].
(** l.522-536 *)
Definition PointEdgeTangentEvaluation (g : geometry) (edge : nat) (x : point) : fnl :=
  mk [:: sd g] [:: (x, against (edge_tangent g edge) (sd g))] [::].
(** l.563-578 *)
Definition PointFaceTangentEvaluation (g : geometry) (face tno : nat) (x : point) : fnl :=
  mk [:: sd g] [:: (x, against (face_tangents g face tno) (sd g))] [::].
(** l.635-650 *)
Definition PointScaledNormalEvaluation (g : geometry) (facet : nat) (x : point) : fnl :=
  mk [:: sd g] [:: (x, against (scaled_normal g facet) (sd g))] [::].

(** the loop [for pt, wgt, phi in zip(pts, weights, P_at_qpts)] of l.552-556,
    602-609, 627-631, 667-671, 743-746, 767-770, 791-794, over mapped points *)
Definition moment_dict {V W} (m : point -> point) (Q : rule) (phi : seq W) (entry : F -> W -> V) : seq (point * V) :=
  build [seq (p.1.1, entry p.1.2 p.2) | p <- zip (zip (map m (qpts Q)) (qwts Q)) phi].
Definition scaled_against (v : seq F) (n : nat) (w phi : F) : seq (F * comp) := [seq (w * phi * v`_i, [:: i]) | i <- iota 0 n].
(** l.539-560 *)
Definition IntegralMomentOfEdgeTangentEvaluation (g : geometry) (Q : rule) (phi : seq F) (edge : nat) : fnl :=
  mk [:: sd g] (moment_dict (transform g 1 edge) Q phi (scaled_against (edge_tangent g edge) (sd g))) [::].
(** l.653-673 *)
Definition IntegralMomentOfScaledNormalEvaluation (g : geometry) (Q : rule) (phi : seq F) (facet : nat) : fnl :=
  mk [:: sd g] (moment_dict (transform g (sd g).-1 facet) Q phi (scaled_against (scaled_normal g facet) (sd g))) [::].
(** l.728-748 *)
Definition IntegralMomentOfNormalEvaluation (g : geometry) (Q : rule) (phi : seq F) (facet : nat) : fnl :=
  mk [:: sd g] (moment_dict (transform g (sd g).-1 facet) Q phi (scaled_against (scaled_normal g facet) (sd g))) [::].
(** l.751-772 *)
Definition IntegralMomentOfTangentialEvaluation (g : geometry) (Q : rule) (phi : seq F) (facet : nat) : Base.result fnl :=
  if sd g != 2%N then Base.Err Base.AssertionError
  else Base.Ok (mk [:: sd g] (moment_dict (transform g (sd g).-1 facet) Q phi (scaled_against (edge_tangent g facet) (sd g))) [::]).
(** l.775-795 *)
Definition IntegralMomentOfNormalNormalEvaluation (g : geometry) (Q : rule) (phi : seq F) (facet : nat) : fnl :=
  mk [:: sd g] (moment_dict (transform g (sd g).-1 facet) Q phi (scaled_against (scaled_normal g facet) (sd g))) [::].
(** l.612-632; [phi] has one vector per quadrature point *)
Definition MonkIntegralMoment (g : geometry) (Q : rule) (phi : seq (seq F)) (facet : nat) : fnl :=
  mk [:: sd g] (moment_dict (transform g (sd g).-1 facet) Q phi (fun w p => [seq (w * p`_i, [:: i]) | i <- iota 0 (sd g)])) [::].
(** l.581-609; [phi] has three rows of values, all of length [nq] *)
Definition face_tangent_entry (n : seq F) (w : F) (p : seq F) : seq (F * comp) :=
  let x0 := p`_1 * n`_2 - p`_2 * n`_1 in
  let x1 := p`_2 * n`_0 - p`_0 * n`_2 in
  let x2 := p`_0 * n`_1 - p`_1 * n`_0 in
  [:: (w * (- n`_2 * x1 + n`_1 * x2), [:: 0%N]);
      (w * (n`_2 * x0 - n`_0 * x2), [:: 1%N]);
      (w * (- n`_1 * x0 + n`_0 * x1), [:: 2%N])].
Definition IntegralMomentOfFaceTangentEvaluation (g : geometry) (Q : rule) (nq : nat) (phi : seq (seq F)) (facet : nat) : fnl :=
  let phi' := [seq [:: (nth [::] phi 0)`_i; (nth [::] phi 1)`_i; (nth [::] phi 2)`_i] | i <- iota 0 nq] in
  mk [:: sd g] (moment_dict (transform g (sd g).-1 facet) Q phi' (face_tangent_entry (scaled_normal g facet))) [::].
(** l.676-696 *)
Definition PointwiseInnerProductEvaluation (g : geometry) (v w : seq F) (p : point) : fnl :=
  mk [:: sd g; sd g] [:: (p, [seq (w`_(nth 0%N ij 0) * v`_(nth 0%N ij 1), ij) | ij <- ModelIndex.index_iterator [:: sd g; sd g]])] [::].
(** l.699-725: [map(tuple(qpts))] is a call of [map] with one argument *)
Definition TensorBidirectionalMomentInnerProductEvaluation (g : geometry) (v w : seq F) (Q : rule) (f : comp -> seq F) (comp_deg : nat)
  : Base.result fnl := Base.Err Base.TypeError.
End Functionals.
