(** Differentiation matrices and jets of polynomial sets (polynomial_set.py)
    and the symbolic tabulation of derivatives (expansions.py).  Exact
    arithmetic; sympy expressions in the point coordinates are iterated
    polynomials and [sympy.diff] is the formal derivative;
    [numpy.linalg.inv] is the exact inverse, LinAlgError for a singular or
    non-square matrix. *)
Set Warnings "-notation-overridden,-ambiguous-paths".
From mathcomp Require Import all_ssreflect all_algebra.
From Verif Require Base ModelIndex.
From Verif Require Import ModelJacobi ModelExpansion.
Set Implicit Arguments. Unset Strict Implicit. Unset Printing Implicit Defensive.
Import GRing.Theory.
Local Open Scope ring_scope.

(** numpy.array of a list of values that may still hold [None]: arithmetic on
    such an object array raises TypeError. *)
Definition full (A : Type) (s : store A) : result (seq A) :=
  if all isSome s then Ok (pmap id s) else Err Base.TypeError.
Fixpoint map_res (A B : Type) (f : A -> result B) (l : seq A) : result (seq B) :=
  if l is a :: l' then bind (f a) (fun b => bind (map_res f l') (fun bs => Ok (b :: bs))) else Ok [::].

Section Linear.
Variable F : fieldType.
(** a 2-dimensional array given by its rows *)
Definition mx_of (m n : nat) (rows : seq (seq F)) : 'M[F]_(m, n) := \matrix_(i, j) nth 0 (nth [::] rows i) j.

(** polynomial_set.py l.193-200, [form_matrix_product]. *)
Definition form_matrix_product N (mats : seq 'M[F]_N) (alpha : seq nat) : 'M[F]_N :=
  foldl (fun R i => iter (nth 0%N alpha i) (fun R => nth 0 mats i *m R) R) 1%:M (iota 0 (size alpha)).

(** polynomial_set.py l.159-173, the dmats of [ONPolynomialSet.__init__]:
    [tab] is [expansion_set.tabulate(degree, pts)] given by the list of its
    values at each point, [dtildes] l.165-170 has rows indexed by the basis
    function and columns by the point. *)
Definition on_dmats (N sd degree : nat) (tab : seq (seq F)) (dtildes : seq (seq (seq F))) : result (seq 'M[F]_N) :=
  if degree == 0%N then Ok (nseq sd 0)
  else
    let v := mx_of N N tab in
    if (size tab == N) && (v \in unitmx) then Ok [seq invmx v *m (mx_of N N dt)^T | dt <- dtildes]
    else Err Base.LinAlgError.

(** polynomial_set.py l.71-87, [PolynomialSet.tabulate]: dictionary in
    insertion order.  The rows of [coeffs] run over all (member, component)
    pairs; [base] is [base_vals]; [no_coords] tells whether [pts == [()]]. *)
Definition ps_tabulate N r npts (sd : nat) (dmats : seq 'M[F]_N) (coeffs : 'M[F]_(r, N)) (base : 'M[F]_(N, npts))
    (no_coords : bool) (jet_order : nat) : result (seq (seq nat * 'M[F]_(r, npts))) :=
  let alphas := flatten [seq ModelIndex.mis sd i | i <- iota 0 (jet_order + 1)] in
  if dmats is [::] then
    if no_coords then Ok [seq (a, coeffs *m ((1%:M)^T *m base)) | a <- alphas] else Err Base.AssertionError
  else Ok [seq (a, coeffs *m ((form_matrix_product dmats a)^T *m base)) | a <- alphas].
End Linear.

Section Tables.
Variables (F : fieldType) (sqrt : F -> F).
Implicit Types (n : nat).

(** Triangle.  expansions.py l.217-221 [TriangleExpansionSet.tabulate]: numpy
    evaluates [_tabulate] elementwise over the points. *)
Definition tri_table (M : nat -> nat -> F) (b : nat -> F) n (pts : seq (F * F)) : result (seq (seq F)) :=
  map_res (fun p => bind (tri_tabulate id sqrt M b n [:: p.1; p.2]) (@full F)) pts.
(** symbolic derivatives, expansions.py l.27-44 [form_derivative] *)
Definition dx2 (P : {poly {poly F}}) := P^`().
Definition dy2 (P : {poly {poly F}}) := map_poly (@deriv F) P.
Definition eval2 (P : {poly {poly F}}) (p : F * F) : F := P.[p.1%:P].[p.2].
(** expansions.py l.24-92 [_tabulate_dpts] with order 1, l.274-285
    [tabulate_derivatives], and the [dtildes] of polynomial_set.py l.169 *)
Definition tri_dtildes (M : nat -> nat -> F) (b : nat -> F) n (pts : seq (F * F)) : result (seq (seq (seq F))) :=
  bind (tri_tabulate (fun c => c%:P%:P) sqrt M b n [:: 'X; 'X%:P]) (fun s => bind (full s) (fun syms =>
  Ok [:: [seq [seq eval2 (dx2 P) p | p <- pts] | P <- syms]; [seq [seq eval2 (dy2 P) p | p <- pts] | P <- syms]])).
Definition tri_dmats (M : nat -> nat -> F) (b : nat -> F) n (pts : seq (F * F)) : result (seq 'M[F]_(tri_num n)) :=
  bind (tri_table M b n pts) (fun tab => bind (tri_dtildes M b n pts) (fun dts => on_dmats _ 2 n tab dts)).
(** l.71-87 on the triangle: values of the jets at [pts] *)
Definition tri_jets (M : nat -> nat -> F) (b : nat -> F) n r (dmats : seq 'M[F]_(tri_num n)) (coeffs : 'M[F]_(r, tri_num n))
    (pts : seq (F * F)) (jet_order : nat) : result (seq (seq nat * 'M[F]_(r, size pts))) :=
  bind (tri_table M b n pts) (fun tab =>
    ps_tabulate 2 dmats coeffs (mx_of (size pts) (tri_num n) tab)^T false jet_order).

(** Tetrahedron. *)
Definition tet_table (M : nat -> nat -> F) (b : nat -> F) n (pts : seq (F * F * F)) : result (seq (seq F)) :=
  map_res (fun p => bind (tet_tabulate id sqrt M b n [:: p.1.1; p.1.2; p.2]) (@full F)) pts.
Definition dx3 (P : {poly {poly {poly F}}}) := P^`().
Definition dy3 (P : {poly {poly {poly F}}}) := map_poly (fun Q : {poly {poly F}} => Q^`()) P.
Definition dz3 (P : {poly {poly {poly F}}}) := map_poly (fun Q : {poly {poly F}} => map_poly (@deriv F) Q) P.
Definition eval3 (P : {poly {poly {poly F}}}) (p : F * F * F) : F := P.[p.1.1%:P%:P].[p.1.2%:P].[p.2].
Definition tet_dtildes (M : nat -> nat -> F) (b : nat -> F) n (pts : seq (F * F * F)) : result (seq (seq (seq F))) :=
  bind (tet_tabulate (fun c => c%:P%:P%:P) sqrt M b n [:: 'X; 'X%:P; 'X%:P%:P]) (fun s => bind (full s) (fun syms =>
  Ok [:: [seq [seq eval3 (dx3 P) p | p <- pts] | P <- syms]; [seq [seq eval3 (dy3 P) p | p <- pts] | P <- syms];
         [seq [seq eval3 (dz3 P) p | p <- pts] | P <- syms]])).
Definition tet_dmats (M : nat -> nat -> F) (b : nat -> F) n (pts : seq (F * F * F)) : result (seq 'M[F]_(tet_num n)) :=
  bind (tet_table M b n pts) (fun tab => bind (tet_dtildes M b n pts) (fun dts => on_dmats _ 3 n tab dts)).
Definition tet_jets (M : nat -> nat -> F) (b : nat -> F) n r (dmats : seq 'M[F]_(tet_num n)) (coeffs : 'M[F]_(r, tet_num n))
    (pts : seq (F * F * F)) (jet_order : nat) : result (seq (seq nat * 'M[F]_(r, size pts))) :=
  bind (tet_table M b n pts) (fun tab =>
    ps_tabulate 3 dmats coeffs (mx_of (size pts) (tet_num n) tab)^T false jet_order).

(** Line; expansions.py l.157-196.  [line_tabulate] is [results[k, i]]. *)
Definition line_table (M b : F) n (pts : seq F) : seq (seq F) :=
  [seq [seq line_tabulate sqrt M b n pts k i | k <- iota 0 (n + 1)] | i <- iota 0 (size pts)].
Definition line_dtildes (M b vol : F) n (pts : seq F) : seq (seq (seq F)) :=
  [:: [seq [seq (line_tabulate_derivatives sqrt M b vol n pts k i).2 | i <- iota 0 (size pts)] | k <- iota 0 (n + 1)]].
Definition line_dmats (M b vol : F) n (pts : seq F) : result (seq 'M[F]_(n + 1)) :=
  on_dmats _ 1 n (line_table M b n pts) (line_dtildes M b vol n pts).
Definition line_jets (M b : F) n r (dmats : seq 'M[F]_(n + 1)) (coeffs : 'M[F]_(r, n + 1))
    (pts : seq F) (jet_order : nat) : result (seq (seq nat * 'M[F]_(r, size pts))) :=
  ps_tabulate 1 dmats coeffs (mx_of (size pts) (n + 1) (line_table M b n pts))^T false jet_order.
End Tables.
