(** What numpy's decompositions promise, and what a facet normal is. *)
Set Warnings "-notation-overridden,-ambiguous-paths".
From mathcomp Require Import all_ssreflect all_algebra.
Set Implicit Arguments. Unset Strict Implicit. Unset Printing Implicit Defensive.
Import Order.TTheory GRing.Theory Num.Theory.
Local Open Scope ring_scope.
Section Spec.
Variable R : rcfType.
Notation arr := (seq (seq R)).
(** an array with m rows of n entries, and the matrix of its entries *)
Definition has_shape (m n : nat) (M : arr) : Prop := size M = m /\ forall r, r \in M -> size r = n.
Definition mx (m n : nat) (M : arr) : 'M[R]_(m, n) := \matrix_(i, j) nth 0 (nth [::] M i) j.
Definition orthonormal_columns m n (U : 'M[R]_(m, n)) : Prop := U^T *m U = 1%:M.
(** numpy.linalg.svd: M = u diag(s) vt, u and vt orthogonal, s nonnegative *)
Definition is_svd (m n : nat) (M : arr) (d : arr * seq R * arr) : Prop :=
  let: (u, s, vt) := d in
  [/\ has_shape m m u, has_shape n n vt, size s = minn m n & forall x, x \in s -> 0 <= x] /\
  [/\ orthonormal_columns (mx m m u), orthonormal_columns (mx n n vt) &
   mx m n M = mx m m u *m (\matrix_(i, j) (if i == j :> nat then nth 0 s i else 0)) *m mx n n vt].
(** numpy.linalg.qr of a matrix with at least as many rows as columns: A = q r
    with orthonormal columns in q *)
Definition is_qr (m p : nat) (A : arr) (d : arr * arr) : Prop :=
  let: (q, r) := d in
  [/\ has_shape m p q, has_shape p p r, orthonormal_columns (mx m p q) & mx m p A = mx m p q *m mx p p r].
Definition svd_correct (svd : arr -> arr * seq R * arr) : Prop :=
  forall m n M, (0 < m)%N -> (0 < n)%N -> has_shape m n M -> is_svd m n M (svd M).
Definition qr_correct (qr : arr -> arr * arr) : Prop :=
  forall m p A, (0 < p)%N -> (p <= m)%N -> has_shape m p A -> is_qr m p A (qr A).
(** set.pop takes an element of the (nonempty) set *)
Definition pop_correct (pop : seq nat -> nat) : Prop := forall l, l != [::] -> pop l \in l.

(** inner product of vectors of d-space *)
Definition inner (d : nat) (a b : seq R) : R := \sum_(j < d) nth 0 a j * nth 0 b j.
Definition diff (d : nat) (a b : seq R) : seq R := mkseq (fun j => nth 0 a j - nth 0 b j) d.
(** [n] is a vector of d-space orthogonal to the face spanned by the vertices
    numbered [facet] *)
Definition orthogonal_to (d : nat) (vs : arr) (facet : seq nat) (n : seq R) : Prop :=
  size n = d /\ forall a b, a \in facet -> b \in facet -> inner d n (diff d (nth [::] vs a) (nth [::] vs b)) = 0.
(** [n] points from the other vertices towards the face *)
Definition points_outward (d : nat) (vs : arr) (facet : seq nat) (n : seq R) : Prop :=
  forall a b, a \in facet -> b \notin facet -> (b < size vs)%N ->
    0 < inner d n (diff d (nth [::] vs a) (nth [::] vs b)).
(** every unit combination of the rows is longer than 1e-10: the rows are linearly
    independent with a margin *)
Definition well_conditioned (m n : nat) (M : arr) : Prop :=
  forall x : 'rV[R]_m, x *m x^T = 1%:M -> (10 ^+ 10) ^- 2 < ((x *m mx m n M) *m (x *m mx m n M)^T) 0 0.
End Spec.
