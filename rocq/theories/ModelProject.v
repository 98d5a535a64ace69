(** polynomial_set.py l.179-190, [project]: the projection of a function onto
    a polynomial set.  Exact arithmetic.  Scalar valued functions and sets
    only (one row of the coefficient array for each member). *)
Set Warnings "-notation-overridden,-ambiguous-paths".
From mathcomp Require Import all_ssreflect all_algebra.
From Verif Require Base ModelIndex.
From Verif Require Import ModelJacobi ModelExpansion ModelDmats.
Set Implicit Arguments. Unset Strict Implicit. Unset Printing Implicit Defensive.
Import GRing.Theory.
Local Open Scope ring_scope.

Section Project.
Variable F : fieldType.

(** numpy broadcasting of [a * b] for arrays with one axis: a length 1 is
    stretched to the other length, other different lengths raise ValueError. *)
Definition bcast_mul (a b : seq F) : result (seq F) :=
  if size a == size b then Ok [seq p.1 * p.2 | p <- zip a b]
  else if size a == 1%N then Ok [seq nth 0 a 0 * y | y <- b]
  else if size b == 1%N then Ok [seq x * nth 0 b 0 | x <- a]
  else Err Base.ValueError.

(** polynomial_set.py l.179-190.  [pts], [wts]: what [Q.get_points()] and
    [Q.get_weights()] return (l.185-186; quadrature.py l.29-33, the weights as
    a numpy array); [f] the function (l.187); [dmats], [coeffs] and [base] are
    the fields of [U] and the table of its expansion set at [pts], as in
    [ps_tabulate], which models l.71-87.  [U.tabulate] (l.188) returns a
    dictionary, so that [for phi in U_at_qps] (l.189) runs over its keys,
    tuples of integers, which numpy converts to arrays; [sum] is the builtin. *)
Definition project N r (P : Type) (sd : nat) (dmats : seq 'M[F]_N) (coeffs : 'M[F]_(r, N))
    (pts : seq P) (wts : seq F) (base : 'M[F]_(N, size pts)) (f : P -> F) : result (seq F) :=
  let f_at_qps := [seq f x | x <- pts] in
  bind (ps_tabulate sd dmats coeffs base false 0) (fun U_at_qps =>
  map_res (fun phi : seq nat =>
      bind (bcast_mul wts f_at_qps) (fun wf =>
      bind (bcast_mul wf [seq k%:R | k <- phi]) (fun l => Ok (\sum_(x <- l) x))))
    [seq kv.1 | kv <- U_at_qps]).
End Project.
