(** check_format_variant.py.  Strings are lists of code points; integers are
    unbounded (an interpreter limit on the number of digits that [int] converts
    is not modelled).  [digit] gives the value of a decimal digit character:
    both [\d] and [int] accept every Unicode decimal digit. *)
From Coq Require Import ZArith Ascii String.
From Verif Require Import Base.

Definition ustring := list nat.
(** code points of an ASCII literal *)
Definition lit (s : string) : ustring := map nat_of_ascii (list_ascii_of_string s).

Section Variant.
  Context (digit : nat -> option nat).

  (** [^integral]: drop a prefix *)
  Fixpoint strip (p s : ustring) : option ustring :=
    match p, s with
    | [], _ => Some s
    | a :: p', b :: s' => if Nat.eqb a b then strip p' s' else None
    | _ :: _, [] => None
    end.
  (** [$] without MULTILINE: at the end, or before a newline that ends the string *)
  Definition at_end (s : ustring) : bool :=
    match s with [] => true | [c] => Nat.eqb c 10 | _ => false end.
  (** the longest run of digits ([\d+], greedy), with its values *)
  Fixpoint digits (s : ustring) : list nat * ustring :=
    match s with
    | c :: s' => match digit c with
                 | Some v => let '(ds, r) := digits s' in (v :: ds, r)
                 | None => ([], s)
                 end
    | [] => ([], [])
    end.
  (** the optional group, then [$].  Shorter runs of digits cannot match, since
      the character after them would have to be the closing parenthesis. *)
  Definition match_group (s : ustring) : option (list nat) :=
    match s with
    | c :: s1 => if Nat.eqb c 40 then
                   let '(ds, r) := digits s1 in
                   match ds, r with
                   | _ :: _, c' :: r' => if Nat.eqb c' 41 && at_end r' then Some ds else None
                   | _, _ => None
                   end
                 else None
    | [] => None
    end.
  (** l.11, [re.match]: [None] no match; [Some None] the group did not take part *)
  Definition match_variant (s : ustring) : option (option (list nat)) :=
    match strip (lit "integral") s with
    | None => None
    | Some r => match match_group r with
                | Some ds => Some (Some ds)
                | None => if at_end r then Some None else None
                end
    end.
  Definition to_int (ds : list nat) : Z := fold_left (fun a d => (10 * a + Z.of_nat d)%Z) ds 0%Z.

  Inductive variant_name := Point | Integral.
  Record outcome := mkOut { warned : bool; chosen : result (variant_name * option Z) }.

  (** l.5-25 *)
  Definition check_format_variant (variant : option ustring) (degree : Z) : outcome :=
    let '(warn, v) := match variant with None => (true, lit "point") | Some v => (false, v) end in
    mkOut warn
      (match match_variant v with
       | Some g =>
         let quad_degree := match g with Some ds => to_int ds | None => (5 * (degree + 1))%Z end in
         if (quad_degree <? degree + 1)%Z then Err ValueError else Ok (Integral, Some quad_degree)
       | None =>
         if list_eq_dec Nat.eq_dec v (lit "point") then Ok (Point, None) else Err ValueError
       end).
End Variant.
