(** Affine independence of a list of points. *)
Set Warnings "-notation-overridden,-ambiguous-paths".
From mathcomp Require Import all_ssreflect all_algebra.
Set Implicit Arguments. Unset Strict Implicit. Unset Printing Implicit Defensive.
Import GRing.Theory.
Local Open Scope ring_scope.
Section Spec.
Variable F : fieldType.
(** the points have [d] coordinates each *)
Definition in_dim (d : nat) (xs : seq (seq F)) : Prop := forall x, x \in xs -> size x = d.
(** no affine function c_0 x_0 + ... + c_{d-1} x_{d-1} + e vanishes at all
    points, except the zero function; for d+1 points this is affine independence *)
Definition affinely_spanning (d : nat) (xs : seq (seq F)) : Prop :=
  forall (c : nat -> F) (e : F),
    (forall x, x \in xs -> \sum_(k < d) c k * nth 0 x k + e = 0) ->
    (forall k, (k < d)%N -> c k = 0) /\ e = 0.
(** the vertices of a non-degenerate d-simplex in d-space *)
Definition simplex_in (d : nat) (xs : seq (seq F)) : Prop :=
  [/\ size xs = d.+1, in_dim d xs & affinely_spanning d xs].
(** shape of a pair (matrix, vector) describing an affine map *)
Definition map_shape (dx dy : nat) (A : seq (seq F)) (b : seq F) : Prop :=
  size A = dy /\ (forall r, r \in A -> size r = dx) /\ size b = dy.
(** A x + b = y, coordinate by coordinate *)
Definition maps_to (A : seq (seq F)) (b x y : seq F) : Prop :=
  forall j, (j < size b)%N -> \sum_(k < size x) nth 0 (nth [::] A j) k * nth 0 x k + nth 0 b j = nth 0 y j.
End Spec.
