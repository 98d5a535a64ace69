(** Gauss and Lobatto rules from recurrence coefficients (orthopoly.py l.37-101)
    and the line rules of quadrature.py l.62-182.  Exact arithmetic over a real
    closed field, so that square roots exist; [numpy.linalg.eigh] and
    [numpy.polynomial.legendre.leggauss] are parameters, [numpy.linalg.solve]
    is exact and raises LinAlgError for a singular matrix. *)
Set Warnings "-notation-overridden,-ambiguous-paths".
From mathcomp Require Import all_ssreflect all_algebra.
From Verif Require Base.
From Verif Require Import ModelJacobi ModelOrthopoly ModelAffine ModelQuad.
Set Implicit Arguments. Unset Strict Implicit. Unset Printing Implicit Defensive.
Import Order.TTheory GRing.Theory Num.Theory.
Local Open Scope ring_scope.

Section Gauss.
Variable F : rcfType.
(** [eigh A] stands for [numpy.linalg.eigh(A, "U")]: a vector of eigenvalues and
    a matrix whose columns are eigenvectors. *)
Variable eigh : forall n, 'M[F]_n -> 'rV[F]_n * 'M[F]_n.

(** [numpy.diag(v, 1)] and [numpy.diag(v)], of the size [n] both have here *)
Definition superdiag n (v : seq F) : 'M[F]_n := \matrix_(i, j) (if j == i.+1 :> nat then nth 0 v i else 0).
Definition subdiag n (v : seq F) : 'M[F]_n := \matrix_(i, j) (if i == j.+1 :> nat then nth 0 v j else 0).
Definition maindiag n (v : seq F) : 'M[F]_n := \matrix_(i, j) (if i == j :> nat then nth 0 v i else 0).

(** orthopoly.py l.37-60, [gauss], on two arrays.  Only arrays of one common
    positive length are modelled: numpy reports a mismatch of the two matrix
    shapes by a ValueError (with one entry on one side it would broadcast), and
    the subscript [beta[0]] of an empty array by an IndexError.  A negative
    [beta] would give NaN; here the root of a negative number is 0. *)
Definition gauss (alpha beta : seq F) : Base.result (seq F * seq F) :=
  if size alpha != size beta then Base.Err Base.ValueError
  else if size beta == 0%N then Base.Err Base.IndexError
  else
    let n := size alpha in
    let A : 'M[F]_n := superdiag n (behead [seq Num.sqrt b | b <- beta]) + maindiag n alpha in
    let: (x, V) := eigh A in
    Base.Ok ([seq x 0 j | j <- enum 'I_n],
             [seq nth 0 beta 0 * (\sum_(i < n | i == 0%N :> nat) V i j) ^+ 2 | j <- enum 'I_n]).

(** [numpy.linalg.solve(M, b)] *)
Definition np_solve n (M : 'M[F]_n) (b : 'cV[F]_n) : Base.result ('cV[F]_n) :=
  if M \in unitmx then Base.Ok (invmx M *m b) else Base.Err Base.LinAlgError.
(** Python subscript [v[-1]] of a vector *)
Definition lastv n (v : 'cV[F]_n) : F := \sum_(i < n | i.+1 == n :> nat) v i 0.
(** [v[1:-1]] *)
Definition inner (v : seq F) : seq F := take (size v - 2) (behead v).
(** [v[-1] = a] *)
Definition set_last (v : seq F) (a : F) : seq F := set_nth 0 v (size v).-1 a.

(** orthopoly.py l.63-101, [lobatto].  Besides the nodes and weights it returns
    the caller's arrays [alpha] and [beta], whose last entries the function
    overwrites (l.95-98 take no copies).  An empty [alpha] makes
    [np.zeros(-1)] fail; one entry makes [en[-1]] fail; [np.vstack] wants equal
    lengths. *)
Definition lobatto_J n (alpha beta : seq F) (xl : F) : 'M[F]_n :=
  let a0 := [seq Num.sqrt b | b <- beta] in
  let a1 := [seq a - xl | a <- alpha] in
  superdiag n (inner a0) + maindiag n (behead a1) + subdiag n (inner a0).
Definition lobatto (alpha beta : seq F) (xl1 xl2 : F) :
    Base.result ((seq F * seq F) * (seq F * seq F)) :=
  if size alpha == 0%N then Base.Err Base.ValueError
  else if size alpha == 1%N then Base.Err Base.IndexError
  else if size alpha != size beta then Base.Err Base.ValueError
  else
    let n := (size alpha).-1 in
    let en : 'cV[F]_n := \col_i (if i.+1 == n then 1 else 0) in
    Base.bind (np_solve (lobatto_J n alpha beta xl1) en) (fun g1 =>
    Base.bind (np_solve (lobatto_J n alpha beta xl2) en) (fun g2 =>
    let C : 'M[F]_2 := \matrix_(i, j) nth 0 (nth [::] [:: [:: 1; - lastv g1]; [:: 1; - lastv g2]] i) j in
    let xl : 'cV[F]_2 := \col_i nth 0 [:: xl1; xl2] i in
    Base.bind (np_solve C xl) (fun ab =>
    let alphal := set_last alpha (ab 0 0) in
    let betal := set_last beta (ab 1 0) in
    Base.bind (gauss alphal betal) (fun xw => Base.Ok (xw, (alphal, betal)))))).

(** quadrature.py l.62-94, [GaussLobattoLegendreQuadratureLineRule].  The Gamma
    expression of [rec_jacobi(m, 0, 0)] is 2 * 1 * 1 / 1. *)
Definition gll_line_rule (c : qcell F) (verts : seq (seq F)) (m : nat) : Base.result (rule F) :=
  if (m < 2)%N then Base.Err Base.ValueError
  else
    Base.bind (if (2 < m)%N then
                 match rec_jacobi 2%:R m (0 : F) 0 with
                 | RArrays alpha beta => Base.bind (lobatto alpha beta (-1) 1) (fun r => Base.Ok r.1)
                 | RScalars _ _ => Base.Err Base.TypeError
                 end
               else let xs_ref := [:: -1; 1] in
                    Base.Ok (xs_ref, nseq 2 (2%:R^-1 * (nth 0 xs_ref 1 - nth 0 xs_ref 0))))
      (map_line_rule c verts).
End Gauss.

Section Lines.
Variable F : fieldType.
(** quadrature.py l.97-122, [GaussLegendreQuadratureLineRule].  [leggauss m]
    stands for numpy's function of that name.  Its source vertices
    [((-1.,), (1.))] are the number pair -1, 1: in [make_affine_mapping] the
    second one is the float 1, which numpy broadcasts over the slice of one
    entry, so that the mapping is the one of [map_line_rule]. *)
Definition gl_line_rule (leggauss : nat -> seq F * seq F) (c : qcell F) (verts : seq (seq F)) (m : nat) :
    Base.result (rule F) :=
  if (m < 1)%N then Base.Err Base.ValueError
  else map_line_rule c verts (leggauss m).

(** quadrature.py l.125-180, [RadauQuadratureLineRule].  [lgr N] stands for the
    entries [x[free]] at the end of the Newton iteration of l.136-157, which
    keeps [x[0] = -1]; column [N] of the table [P] is the Legendre polynomial
    [P_N] by the three-term recurrence of l.148-153 ([eval_legendre]). *)
Fixpoint legendre_table (x : F) (k : nat) : F * F :=
  (* columns k and k+1 *)
  if k is k'.+1 then
    let: (p, q) := legendre_table x k' in
    let j := k'.+2 in
    (q, ((2 * j - 1)%:R * x * q - (j - 1)%:R * p) / j%:R)
  else (1, x).
(** one Newton step at a free node, l.155 *)
Definition radau_step (x : F) (N : nat) : F :=
  let: (p, q) := legendre_table x N in x - (1 - x) / N.+1%:R * (p + q) / (p - q).
Definition radau_line_rule (lgr : nat -> seq F) (c : qcell F) (verts : seq (seq F)) (m : nat) (right : bool) :
    Base.result (rule F) :=
  if m == 0%N then Base.Err Base.AssertionError
  else
    let N := (m - 1)%N in
    let free := lgr N in
    let x := -1 :: free in
    let w := 2%:R / (N.+1%:R) ^+ 2 :: [seq (1 - y) / (N.+1%:R * (legendre_table y N).1) ^+ 2 | y <- free] in
    let xw := if right then (rev [seq - y | y <- x], rev w) else (x, w) in
    map_line_rule c verts xw.
End Lines.
