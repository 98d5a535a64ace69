(** Restriction of an element to some of its dofs: index selection and
    renumbering (restricted.py).  The element-level constructor is in
    ModelRestrictedEl.v. *)
From Coq Require Import String.
From Verif Require Import Base ModelIndex Sorting ModelCell.

(** [max(entity_dofs().keys())]; None for an empty dictionary (ValueError). *)
Definition dmax (a b : dimT) : dimT := if dleb a b then b else a.
Definition max_key {V} (t : list (dimT * V)) : option dimT :=
  match t with
  | [] => None
  | (d, _) :: t' => Some (fold_left (fun m '(d', _) => dmax m d') t' d)
  end.

(** restricted.py l.80-93: the exclusive end of [range(dim + 1)]; [sd] is the
    spatial dimension of the reference element. *)
Definition domain_end (domain : string) (sd : nat) : result nat :=
  if String.eqb domain "vertex" then Ok 1
  else if String.eqb domain "edge" then Ok 2
  else if String.eqb domain "face" then Ok 3
  else if String.eqb domain "facet" then Ok sd
  else Err RuntimeError.

(** restricted.py l.65-70, [sorted_by_key] on the entities of one dimension
    (entity numbers are integers), then [indices += index]. *)
Definition entity_indices (es : ents (list nat)) : list nat := flat_map snd (sort_items es).

(** restricted.py l.73-110, [_get_indices]. *)
Definition get_indices (ids : dict (list nat)) (sd : nat) (domain : string) : result (list nat) :=
  if String.eqb domain "interior" then
    match max_key ids with
    | None => Err ValueError
    | Some d => match lookup ids d 0 with Some l => Ok l | None => Err KeyError end
    end
  else
    match domain_end domain sd with
    | Err e => Err e
    | Ok n =>
      match max_key ids with
      | None => Err ValueError
      | Some (DT _) =>
        Ok (flat_map (fun d => flat_map (fun a =>
              match dlookup (DT [DI a; DI (d - a)]) ids with
              | Some es => entity_indices es
              | None => []                        (* except KeyError: pass *)
              end) (range 0 (d + 1))) (range 0 n))
      | Some (DI _) =>
        fold_left (fun acc d =>
          match acc with
          | Err e => Err e
          | Ok l => match dlookup (DI d) ids with
                    | Some es => Ok (l ++ entity_indices es)
                    | None => Err KeyError
                    end
          end) (range 0 n) (Ok [])
      end
    end.

(** restricted.py l.17-27: which indices are used.  [None] and an empty
    argument are both falsy, so they are written [] and "". *)
Definition choose_indices (ids : dict (list nat)) (sd : nat) (indices : list nat) (domain : string)
  : result (list nat) :=
  match indices with
  | _ :: _ => Ok indices
  | [] =>
    if String.eqb domain "" then Err RuntimeError
    else match get_indices ids sd domain with
         | Err e => Err e
         | Ok [] => Err ValueError
         | Ok l => Ok l
         end
  end.

(** restricted.py l.39-53: the renumbering loops.  The state is
    [(dof_counter, selected old dofs so far)]; the result the new dictionary. *)
Definition memb (x : nat) (l : list nat) : bool := existsb (Nat.eqb x) l.
Fixpoint restrict_dofs (idx : list nat) (dofs : list nat) (st : nat * list nat) : list nat * (nat * list nat) :=
  match dofs with
  | [] => ([], st)
  | dof :: dofs' =>
    if memb dof idx then
      let '(l, st') := restrict_dofs idx dofs' (S (fst st), snd st ++ [dof]) in (fst st :: l, st')
    else restrict_dofs idx dofs' st
  end.
Fixpoint restrict_ents (idx : list nat) (es : ents (list nat)) (st : nat * list nat)
  : ents (list nat) * (nat * list nat) :=
  match es with
  | [] => ([], st)
  | (e, dofs) :: es' =>
    let '(l, st1) := restrict_dofs idx dofs st in
    let '(r, st2) := restrict_ents idx es' st1 in ((e, l) :: r, st2)
  end.
Fixpoint restrict_dict (idx : list nat) (t : dict (list nat)) (st : nat * list nat)
  : dict (list nat) * (nat * list nat) :=
  match t with
  | [] => ([], st)
  | (d, es) :: t' =>
    let '(es', st1) := restrict_ents idx es st in
    let '(r, st2) := restrict_dict idx t' st1 in ((d, es') :: r, st2)
  end.

(** bubble.py l.14-27, [CodimBubble.__init__]: the indices it restricts the
    Lagrange element to.  [ids] are the Lagrange entity dofs on a cell of
    dimension [cell_dim]; a dimension below zero has no entry. *)
Definition codim_bubble_indices (ids : dict (list nat)) (cell_dim codim : nat) : result (list nat) :=
  match max_key ids with
  | None => Err ValueError
  | Some m =>
    if deqb m (DI cell_dim) then
      if Nat.ltb cell_dim codim then Err KeyError
      else match dlookup (DI (cell_dim - codim)) ids with
           | None => Err KeyError
           | Some es => match Sorting.nsort (flat_map snd es) with
                        | [] => Err RuntimeError
                        | l => Ok l
                        end
           end
    else Err AssertionError
  end.
