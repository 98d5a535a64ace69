(** Affine maps between simplices (reference_element.py [make_affine_mapping]).
    Points are lists of coordinates; [numpy.linalg.solve] is exact and raises
    LinAlgError for a singular matrix. *)
Set Warnings "-notation-overridden,-ambiguous-paths".
From mathcomp Require Import all_ssreflect all_algebra.
From Verif Require Base.
Set Implicit Arguments. Unset Strict Implicit. Unset Printing Implicit Defensive.
Import GRing.Theory.
Local Open Scope ring_scope.

Section Affine.
Variable F : fieldType.
Definition point := seq F.

(** numpy broadcasting of a length-1 value over a longer slice *)
Definition bcast (x : point) (k : nat) : F := if size x == 1%N then nth 0 x 0 else nth 0 x k.

(** reference_element.py l.917-927: the double loop over the points and the
    components, assigning a slice of a row, one right-hand side entry and the
    coefficient of [b].  Arrays are functions of their indices. *)
Definition aff_step (dx dy : nat) (xs ys : seq point) (st : (nat -> nat -> F) * (nat -> F)) (ij : nat * nat) :=
  let: (mat, rhs) := st in
  let: (i, j) := ij in
  let row_cur := (i * dy + j)%N in
  let col_start := (dx * j)%N in
  let col_finish := (col_start + dx)%N in
  let mat1 := fun r c => if (r == row_cur) && (col_start <= c < col_finish)%N
                         then bcast (nth [::] xs i) (c - col_start) else mat r c in
  let rhs1 := fun r => if r == row_cur then nth 0 (nth [::] ys i) j else rhs r in
  let mat2 := fun r c => if (r == row_cur) && (c == dy * dx + j)%N then 1 else mat1 r c in
  (mat2, rhs1).
Definition aff_system dx dy xs ys :=
  foldl (aff_step dx dy xs ys) (fun _ _ => 0, fun _ => 0)
        [seq (i, j) | i <- iota 0 (size xs), j <- iota 0 dy].

(** entry of a vector, by Python index *)
Definition vget N (v : 'cV[F]_N) (c : nat) : F := if insub c is Some i then v i 0 else 0.

(** reference_element.py l.901-934, [make_affine_mapping].  If several
    arguments are faulty at once, the model may report another of the errors
    than Python does. *)
Definition make_affine_mapping (xs ys : seq point) : Base.result (seq (seq F) * seq F) :=
  if (size xs == 0%N) || (size ys == 0%N) then Base.Err Base.IndexError
  else
    let dx := size (nth [::] xs 0) in
    let dy := size (nth [::] ys 0) in
    if size xs != size ys then Base.Err Base.PlainException
    else if ~~ all (fun x => (size x == dx) || (size x == 1%N)) xs then Base.Err Base.ValueError
    else if ~~ all (fun y => dy <= size y)%N ys then Base.Err Base.IndexError
    else if (dx * dy + dy < size xs * dy)%N then Base.Err Base.IndexError
    else
      let N := (dx * dy + dy)%N in
      let st := aff_system dx dy xs ys in
      let mat : 'M[F]_N := \matrix_(r, c) st.1 r c in
      let rhs : 'cV[F]_N := \col_r st.2 r in
      if mat \in unitmx then
        let sol := invmx mat *m rhs in
        Base.Ok (mkseq (fun j => mkseq (fun k => vget sol (dx * j + k)) dx) dy,
                 mkseq (fun j => vget sol (dx * dy + j)) dy)
      else Base.Err Base.LinAlgError.

(** [lambda x: numpy.dot(A, x) + b], e.g. quadrature.py l.53 *)
Definition affine (A : seq (seq F)) (b : seq F) (x : point) : point :=
  mkseq (fun j => \sum_(k < size x) nth 0 (nth [::] A j) k * nth 0 x k + nth 0 b j) (size b).
End Affine.
