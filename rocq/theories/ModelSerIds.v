(** serendipity.py l.26-30 and 64-125: entity dofs of [Serendipity]. *)
From Verif Require Import Base ModelCell.

(** l.26-30, [tr(n)] for natural [n]; exact division replaces float division *)
Definition tr (n : nat) : nat := if Nat.leb n 1 then 0 else (n - 3) * (n - 2) / 2.

(** [list(range(a, b))] for integers; every number listed is nonnegative *)
Definition zrange (a b : Z) : list nat := map (fun k => Z.to_nat (a + Z.of_nat k)) (range 0 (Z.to_nat (b - a))).
(** [for j in es: ids[j] = list(range(cur, cur + n)); cur = cur + n] *)
Fixpoint number_z (n : Z) (es : list nat) (cur : Z) : ents (list nat) * Z :=
  match es with
  | [] => ([], cur)
  | e :: es' => let '(ids, cur') := number_z n es' (cur + n)%Z in ((e, zrange cur (cur + n)%Z) :: ids, cur')
  end.
(** l.69-98, on the flat cell: the entities of each dimension are 0..n-1.
    [nI] is the number of interior functions, len(IL).  Returns [entity_ids]
    and [cur]. *)
Definition count (flat : cell) (d : nat) : list nat :=
  range 0 (length (option_list (dlookup (DI d) (topology flat)))).
Definition flat_ids (flat : cell) (degree nI : nat) : dict (list nat) * Z :=
  let '(i0, c0) := number_z 1 (count flat 0) 0 in
  let '(i1, c1) := number_z (Z.of_nat degree - 1) (count flat 1) c0 in
  let '(i2, c2) := number_z (Z.of_nat (tr degree)) (count flat 2) c1 in
  if Nat.eqb (spatial_dimension flat) 3
  then ([(DI 0, i0); (DI 1, i1); (DI 2, i2); (DI 3, [(0, zrange c2 (c2 + Z.of_nat nI))])], (c2 + Z.of_nat nI)%Z)
  else ([(DI 0, i0); (DI 1, i1); (DI 2, i2)], c2).

(** l.109-125: every flat entity's list is stored under the entity of the given
    cell found in the unflattening map, a one-to-one map (C17), so nothing is
    overwritten.  A flat entity missing from the map raises KeyError. *)
Definition flat_entities (flat : cell) : list (nat * nat) :=
  flat_map (fun d => map (fun e => (d, e)) (count flat d)) (range 0 (S (spatial_dimension flat))).
Definition unflatten_ids (c flat : cell) (ids : dict (list nat)) : result (dict (list nat)) :=
  let m := compute_unflattening_map (topology c) in
  if forallb (fun x => match ulookup m (fst x) (snd x) with Some _ => true | None => false end) (flat_entities flat)
  then Ok (map (fun '(d, _) =>
         (d, flat_map (fun x => match ulookup m (fst x) (snd x) with
                                | Some (d', e) => if deqb d' d then [(e, option_list (lookup ids (DI (fst x)) (snd x)))] else []
                                | None => []
                                end) (flat_entities flat))) (sort_dims (topology c)))
  else Err KeyError.
