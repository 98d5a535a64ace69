(** Specification vocabulary for row-major (C order) products. *)
From Verif Require Import Base.

(** Row-major number of a multi-index, by Horner's rule. *)
Definition row_major (shape idx : list nat) : nat :=
  fold_left (fun acc '(s, i) => acc * s + i) (combine shape idx) 0.

(** [idx] is a valid multi-index for [shape]. *)
Definition in_shape (shape idx : list nat) : Prop := Forall2 (fun s i => i < s) shape idx.

(** [xs] consists of entry number [idx_j] of the [j]-th list, for every [j]. *)
Inductive picks {A} : list (list A) -> list nat -> list A -> Prop :=
| picks_nil : picks [] [] []
| picks_cons l ls i idx x xs :
    nth_error l i = Some x -> picks ls idx xs -> picks (l :: ls) (i :: idx) (x :: xs).
