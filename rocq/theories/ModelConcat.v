(** Mixed, enriched and nodally enriched elements (mixed.py, enriched.py,
    nodal_enriched.py). *)
From Verif Require Import Base ModelIndex ModelCell ModelArray.

(** ** Entity dofs *)

(** [entity_dofs[dim][ent] += l] on existing entries *)
Definition dappend (t : dict (list nat)) (d : dimT) (e : nat) (l : list nat) : result (dict (list nat)) :=
  match lookup t d e with
  | None => Err KeyError
  | Some l0 => match dset_in d e (l0 ++ l) t with Some t' => Ok t' | None => Err KeyError end
  end.

Definition flatten_dict {V} (t : dict V) : list (dimT * nat * V) :=
  flat_map (fun '(d, es) => map (fun '(e, v) => (d, e, v)) es) t.

(** mixed.py l.97-109, [concatenate_entity_dofs].  An element is given by its
    space dimension and entity_dofs; the offsets are the cumulative sums. *)
Fixpoint add_dofs (off : nat) (items : list (dimT * nat * list nat)) (acc : dict (list nat))
  : result (dict (list nat)) :=
  match items with
  | [] => Ok acc
  | (d, e, l) :: items' =>
    match dappend acc d e (map (Nat.add off) l) with
    | Err x => Err x
    | Ok acc' => add_dofs off items' acc'
    end
  end.
Fixpoint add_elements (off : nat) (els : list (nat * dict (list nat))) (acc : dict (list nat))
  : result (dict (list nat)) :=
  match els with
  | [] => Ok acc
  | (n, ids) :: els' =>
    match add_dofs off (flatten_dict ids) acc with
    | Err x => Err x
    | Ok acc' => add_elements (off + n) els' acc'
    end
  end.
Definition concatenate_entity_dofs (t : topo) (els : list (nat * dict (list nat))) : result (dict (list nat)) :=
  add_elements 0 els (map (fun '(d, es) => (d, map (fun '(i, _) => (i, [])) es)) t).

(** nodal_enriched.py l.120-130, [_merge_entity_ids]: entries are created on
    demand.  ([if not ret.get(dim)] also resets an empty dictionary to an empty
    dictionary, which changes nothing.) *)
Fixpoint dsetdefault (d : dimT) (t : dict (list nat)) : dict (list nat) :=
  match t with
  | [] => [(d, [])]
  | (d', es) :: t' => if deqb d d' then t else (d', es) :: dsetdefault d t'
  end.
Fixpoint eappend (e : nat) (l : list nat) (es : ents (list nat)) : ents (list nat) :=
  match es with
  | [] => [(e, l)]
  | (e', l') :: es' => if Nat.eqb e e' then (e', l' ++ l) :: es' else (e', l') :: eappend e l es'
  end.
Fixpoint dextend (d : dimT) (e : nat) (l : list nat) (t : dict (list nat)) : dict (list nat) :=
  match t with
  | [] => []
  | (d', es) :: t' => if deqb d d' then (d', eappend e l es) :: t' else (d', es) :: dextend d e l t'
  end.
Definition merge_one (off : nat) (ids : dict (list nat)) (acc : dict (list nat)) : dict (list nat) :=
  fold_left (fun acc '(d, es) =>
    fold_left (fun acc '(e, l) => dextend d e (map (fun x => x + off) l) acc) es (dsetdefault d acc)) ids acc.
Fixpoint merge_from (off : nat) (els : list (nat * dict (list nat))) (acc : dict (list nat)) : dict (list nat) :=
  match els with
  | [] => acc
  | (n, ids) :: els' => merge_from (off + n) els' (merge_one off ids acc)
  end.
Definition merge_entity_ids (els : list (nat * dict (list nat))) : dict (list nat) := merge_from 0 els [].

(** What numbering needs of an element: its dual nodes and entity dofs; the
    space dimension is the number of nodes (finite_element.py l.77-79,
    serendipity elements override it and are excluded here). *)
Record dual (F : Type) := mkDual { d_nodes : list F; d_ids : dict (list nat) }.
Arguments mkDual {F}. Arguments d_nodes {F}. Arguments d_ids {F}.
Definition numbering {F} (e : dual F) : nat * dict (list nat) := (length (d_nodes e), d_ids e).

(** mixed.py l.38-42 and enriched.py l.54-60: the dual set of a mixed or
    enriched element on a cell with topology [t]. *)
Definition concat_dual {F} (t : topo) (els : list (dual F)) : result (dual F) :=
  match concatenate_entity_dofs t (map numbering els) with
  | Err e => Err e
  | Ok ids => Ok (mkDual (flat_map d_nodes els) ids)
  end.
(** nodal_enriched.py l.71-78 *)
Definition nodal_enriched_dual {F} (els : list (dual F)) : dual F :=
  mkDual (flat_map d_nodes els) (merge_entity_ids (map numbering els)).

(** ** Tabulation *)
Section Tab.
  Context {K : Type} (zero : K).
  Definition table := list (list nat * array K).

  (** what tabulation sees of a constituent: space dimension, value shape and
      the table it returns for the request *)
  Record constituent := { c_dim : nat; c_vshape : list nat; c_table : table }.

  (** mixed.py l.61-89, [MixedElement.tabulate]; [npts] = [len(points)]. *)
  Fixpoint mixed_keys (shape : list nat) (i0 i1 c0 c1 : nat) (tab : table) (out : table) : result table :=
    match tab with
    | [] => Ok out
    | (d, t) :: tab' =>
      let arr := match tlookup d out with Some a => a | None => zeros zero shape end in
      match reshape_last t [i1 - i0; c1 - c0] with
      | Err e => Err e
      | Ok t' =>
        match assign_slice arr [(i0, i1); (c0, c1)] t' with
        | Err e => Err e
        | Ok arr' => mixed_keys shape i0 i1 c0 c1 tab' (tset d arr' out)
        end
      end
    end.
  Fixpoint mixed_elements (shape : list nat) (i0 c0 : nat) (els : list constituent) (out : table) : result table :=
    match els with
    | [] => Ok out
    | e :: els' =>
      match mixed_keys shape i0 (i0 + c_dim e) c0 (c0 + nprod (c_vshape e)) (c_table e) out with
      | Err x => Err x
      | Ok out' => mixed_elements shape (i0 + c_dim e) (c0 + nprod (c_vshape e)) els' out'
      end
    end.
  Definition mixed_tabulate (els : list constituent) (npts : nat) : result table :=
    mixed_elements [nsum (map c_dim els); nsum (map (fun e => nprod (c_vshape e)) els); npts] 0 0 els [].

  (** enriched.py l.88-115, [EnrichedElement.tabulate].  [value_shape()]
      unpacks the singleton set of value shapes (checked at construction). *)
  Fixpoint enriched_keys (shape : list nat) (i0 i1 : nat) (tab : table) (out : table) : result table :=
    match tab with
    | [] => Ok out
    | (d, t) :: tab' =>
      let arr := match tlookup d out with Some a => a | None => zeros zero shape end in
      match assign_slice arr [(i0, i1)] t with
      | Err e => Err e
      | Ok arr' => enriched_keys shape i0 i1 tab' (tset d arr' out)
      end
    end.
  Fixpoint enriched_elements (shape : list nat) (i0 : nat) (els : list constituent) (out : table) : result table :=
    match els with
    | [] => Ok out
    | e :: els' =>
      match enriched_keys shape i0 (i0 + c_dim e) (c_table e) out with
      | Err x => Err x
      | Ok out' => enriched_elements shape (i0 + c_dim e) els' out'
      end
    end.
  Definition enriched_tabulate (els : list constituent) (vshape : list nat) (npts : nat) : result table :=
    let dim := nsum (map c_dim els) in
    let nc := nprod vshape in
    enriched_elements (if Nat.eqb nc 1 then [dim; npts] else [dim; nc; npts]) 0 els [].
End Tab.

(** enriched.py l.27-60, construction checks.  [cells], [mappings], [vshapes]
    are what the constituents report; unpacking a non-singleton set raises
    ValueError as well. *)
Definition all_same {A} (dec : forall x y : A, {x = y} + {x <> y}) (l : list A) : bool :=
  match l with [] => true | x :: l' => forallb (fun y => if dec x y then true else false) l' end.
Definition enriched_checks {C M : Type} (decC : forall x y : C, {x = y} + {x <> y})
  (decM : forall x y : M, {x = y} + {x <> y})
  (els : list (C * list M * list nat)) : result unit :=
  if negb (all_same decC (map (fun e => fst (fst e)) els)) then Err ValueError
  else if negb (all_same decM (flat_map (fun e => snd (fst e)) els)) then Err ValueError
  else if negb (all_same (list_eq_dec Nat.eq_dec) (map snd els)) then Err ValueError
  else match els with
       | [] => Err ValueError                           (* max() of an empty sequence *)
       | _ => match flat_map (fun e => snd (fst e)) els with
              | [] => Err ValueError                    (* mapping, = set() *)
              | _ => Ok tt
              end
       end.

(** nodal_enriched.py l.83-104, [_merge_coeffs]; coefficient arrays have shape
    (members, *value_shape, expansion functions). *)
Section Coeffs.
  Context {K : Type} (zero : K).
  Definition lead (s : list nat) : nat := hd 0 s.
  Definition expdim (s : list nat) : nat := last s 0.
  Definition vshape_of (s : list nat) : list nat := removelast (tl s).
  Definition assign_coeffs (new : array K) (counter : nat) (c : array K) : array K :=
    mkArray (ashape new) (fun idx =>
      if Nat.leb counter (lead idx) && Nat.ltb (lead idx) (counter + lead (ashape c))
         && Nat.ltb (expdim idx) (expdim (ashape c))
      then aget c ((lead idx - counter) :: tl idx) else aget new idx).
  Fixpoint merge_coeffs_from (new : array K) (counter : nat) (cs : list (array K)) : array K :=
    match cs with
    | [] => new
    | c :: cs' => merge_coeffs_from (assign_coeffs new counter c) (counter + lead (ashape c)) cs'
    end.
  Definition merge_coeffs (cs : list (array K)) : result (array K) :=
    match cs with
    | [] => Err IndexError                                   (* coeffss[0] *)
    | c0 :: _ =>
      if forallb (fun c => keq (vshape_of (ashape c)) (vshape_of (ashape c0))) cs
      then Ok (merge_coeffs_from
                 (zeros zero (nsum (map (fun c => lead (ashape c)) cs) :: vshape_of (ashape c0)
                              ++ [list_max (map (fun c => expdim (ashape c)) cs)])) 0 cs)
      else Err AssertionError
    end.

  (** l.107-117, [_merge_dmats]: the constituent with the largest matrices (the
      last one among equals) provides the matrices, all others must agree with
      a leading block of it up to [numpy.allclose] ([close]). *)
  Context (close : K -> K -> bool).
  Definition dmatT := list (list K).                          (* square matrix, rows *)
  Definition best (a b : nat * list dmatT) : nat * list dmatT := if Nat.ltb (fst b) (fst a) then a else b.
  Definition sub_close (small big : dmatT) : bool :=
    forallb (fun '(r, r') => forallb (fun '(x, y) => close x y) (combine r r')) (combine small big).
  Definition merge_dmats (dss : list (list dmatT)) : result (list dmatT) :=
    match map (fun ds => (length (hd [] ds), ds)) dss with
    | [] => Err ValueError
    | x :: xs =>
      let '(_, big) := fold_left best xs x in
      if forallb (fun ds => forallb (fun '(d, b) => sub_close d b) (combine ds big)) dss
      then Ok big else Err AssertionError
    end.
End Coeffs.
