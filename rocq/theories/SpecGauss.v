(** Vocabulary for the Gauss and Lobatto rules of orthopoly.py. *)
Set Warnings "-notation-overridden,-ambiguous-paths".
From mathcomp Require Import all_ssreflect all_algebra.
Set Implicit Arguments. Unset Strict Implicit. Unset Printing Implicit Defensive.
Import Order.TTheory GRing.Theory Num.Theory.
Local Open Scope ring_scope.

(** The symmetric matrix that has the upper triangle of [A]: with UPLO = "U",
    LAPACK reads nothing else. *)
Definition sym_upper (F : fieldType) n (A : 'M[F]_n) : 'M[F]_n :=
  \matrix_(i, j) (if (i <= j)%N then A i j else A j i).
(** What numpy promises of [eigh(A, "U")]: ascending eigenvalues, an orthogonal
    matrix of eigenvectors. *)
Definition eigh_correct (F : rcfType) (eigh : forall n, 'M[F]_n -> 'rV[F]_n * 'M[F]_n) : Prop :=
  forall n (A : 'M[F]_n),
    [/\ sym_upper A *m (eigh n A).2 = (eigh n A).2 *m diag_mx (eigh n A).1,
        (eigh n A).2^T *m (eigh n A).2 = 1%:M &
        forall i j : 'I_n, (i <= j)%N -> (eigh n A).1 0 i <= (eigh n A).1 0 j].

(** [p_(k+1) = (x - alpha_k) p_k - beta_k p_(k-1)], as in the docstring of
    [rec_jacobi]: the polynomials of degree at most N of a recurrence. *)
Definition recurrence (F : fieldType) (alpha beta : seq F) (p : nat -> {poly F}) : Prop :=
  [/\ p 0%N = 1, p 1%N = 'X - (nth 0 alpha 0)%:P &
      forall k, (0 < k < size alpha)%N -> p k.+1 = ('X - (nth 0 alpha k)%:P) * p k - nth 0 beta k *: p k.-1].
(** a linear form on polynomials (an integral against a weight, say) *)
Definition linear_form (F : fieldType) (L : {poly F} -> F) : Prop :=
  (forall p q, L (p + q) = L p + L q) /\ (forall c p, L (c *: p) = c * L p).
Definition orthogonal_upto (F : fieldType) (L : {poly F} -> F) (p : nat -> {poly F}) (N : nat) : Prop :=
  forall j k, (j < k <= N)%N -> L (p j * p k) = 0.
(** the rule (xs, ws) has degree of precision d for L *)
Definition precision (F : fieldType) (L : {poly F} -> F) (xs ws : seq F) (d : nat) : Prop :=
  forall q : {poly F}, (size q <= d.+1)%N -> \sum_(xw <- zip xs ws) xw.2 * q.[xw.1] = L q.
