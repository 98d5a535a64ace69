(** [ufc_cell] on strings (reference_element.py l.965-990). *)
From Coq Require Import String Ascii.
From Verif Require Import Base ModelCell.
Open Scope char_scope.
Open Scope list_scope.

(** [celltype.split(" * ")]: leftmost, non-overlapping occurrences. *)
Fixpoint split_from (cur s : list ascii) : list (list ascii) :=
  match s with
  | [] => [rev cur]
  | " " :: (("*" :: ((" " :: r) as s2)) as s1) => rev cur :: split_from [] r
  | c :: r => split_from (c :: cur) r
  end.
Definition split_star (s : list ascii) : list (list ascii) := split_from [] s.

(** [" * " in celltype] *)
Fixpoint has_star (s : list ascii) : bool :=
  match s with
  | [] => false
  | " " :: "*" :: " " :: _ => true
  | _ :: r => has_star r
  end.

Definition chars (s : string) : list ascii := list_ascii_of_string s.
Definition is_name (s : list ascii) (n : string) : bool :=
  if list_eq_dec ascii_dec s (chars n) then true else false.

(** the branches after the product branch *)
Definition ufc_named (s : list ascii) : result cell :=
  if is_name s "quadrilateral" then Ok UFCQuadrilateral
  else if is_name s "hexahedron" then Ok UFCHexahedron
  else if is_name s "vertex" then ufc_simplex 0
  else if is_name s "interval" then ufc_simplex 1
  else if is_name s "triangle" then ufc_simplex 2
  else if is_name s "tetrahedron" then ufc_simplex 3
  else Err RuntimeError.

Fixpoint mapM {A B} (f : A -> result B) (l : list A) : result (list B) :=
  match l with
  | [] => Ok []
  | x :: l' => match f x with
               | Err e => Err e
               | Ok y => match mapM f l' with Err e => Err e | Ok ys => Ok (y :: ys) end
               end
  end.

(** l.965-990.  The recursive call on the pieces of [split] is bounded by
    fuel; [S (length s)] is enough because pieces are shorter than [s] (and in
    fact never contain " * " again). *)
Fixpoint ufc_cell_fuel (fuel : nat) (s : list ascii) : result cell :=
  match fuel with
  | 0 => Err PlainException                                (* never reached *)
  | S fuel' =>
    if has_star s then
      match mapM (ufc_cell_fuel fuel') (split_star s) with
      | Err e => Err e
      | Ok cs => Ok (TensorProductCell cs)
      end
    else ufc_named s
  end.
Definition ufc_cell (s : string) : result cell :=
  ufc_cell_fuel (S (List.length (chars s))) (chars s).
