(** kong_mulder_veldhuizen.py: entity ids, size of the space, constructor. *)
From Verif Require Import Base ModelIndex ModelCell ModelConcat ModelRestricted ModelFam.

(** [dict((i, [i + a]) for i in range(n))] *)
Definition one_each (a n : nat) : ents (list nat) := map (fun i => (i, [i + a])) (range 0 n).
(** [dict((i, l[i]) for i in range(n))] *)
Definition listed (l : list (list nat)) : ents (list nat) := combine (range 0 (length l)) l.

(** l.25-80, [_get_entity_ids].  No branch taken: [entity_ids] is unbound. *)
Definition kmv_ids (c : cell) (degree : nat) : result (dict (list nat)) :=
  let sd := spatial_dimension c in
  match degree, sd with
  | 1, _ => Ok ((DI 0, one_each 0 (num c 0)) :: map (fun d => (DI d, empties (num c d))) (range 1 (sd + 1)))
  | 2, 2 => Ok [(DI 0, one_each 0 3); (DI 1, one_each 3 3); (DI 2, [(0, [6])])]
  | 2, 3 => Ok [(DI 0, one_each 0 4); (DI 1, one_each 4 6); (DI 2, one_each 10 4); (DI 3, [(0, [14])])]
  | 3, 2 => Ok [(DI 0, one_each 0 3); (DI 1, listed [[3; 4]; [6; 5]; [7; 8]]); (DI 2, [(0, [9; 10; 11])])]
  | 3, 3 => Ok [(DI 0, one_each 0 4);
                (DI 1, listed [[4; 5]; [7; 6]; [8; 9]; [11; 10]; [12; 13]; [14; 15]]);
                (DI 2, listed [[16; 17; 18]; [19; 20; 21]; [22; 23; 24]; [25; 26; 27]]);
                (DI 3, [(0, [28; 29; 30; 31])])]
  | 4, 2 => Ok [(DI 0, one_each 0 3); (DI 1, listed [[6; 3; 7]; [9; 4; 8]; [10; 5; 11]]); (DI 2, [(0, range 12 18)])]
  | 5, 2 => Ok [(DI 0, one_each 0 3); (DI 1, listed [[9; 3; 4; 10]; [12; 6; 5; 11]; [13; 7; 8; 14]]);
                (DI 2, [(0, range 15 30)])]
  | _, _ => Err UnboundLocalError
  end.

(** l.83-102, [bump] *)
Definition kmv_bump (c : cell) (deg : nat) : result (nat * nat) :=
  if Nat.eqb deg 1 then Ok (0, 0)
  else match spatial_dimension c with
       | 2 => if Nat.ltb deg 5 then Ok (1, 1) else if Nat.eqb deg 5 then Ok (2, 2) else Err ValueError
       | 3 => if Nat.ltb deg 4 then Ok (1, 2) else Err ValueError
       | _ => Err ValueError
       end.

Section Space.
  Context (K : fieldT).
  Definition dofs_of (ids : dict (list nat)) (d : nat) : list nat :=
    flat_map snd (option_list (dlookup (DI d) ids)).

  (** [Bubble] (codimension 0) and [FacetBubble] (1): number of dofs *)
  Definition bubble_size (c : cell) (degree codim : nat) : result nat :=
    bind (Lagrange K c degree) (fun el =>
    bind (codim_bubble_indices (el_ids K el) (spatial_dimension c) codim) (fun l => Ok (length l))).

  (** l.105-133, [KongMulderVeldhuizenSpace]: number of members.  The restricted
      Lagrange element keeps the dofs outside the cell (and, in 3D, outside the
      faces); the nodally enriched element has the sum of the sizes. *)
  Definition kmv_members (c : cell) (deg : nat) : result nat :=
    let sd := spatial_dimension c in
    bind (Lagrange K c deg) (fun L =>
    if Nat.eqb deg 1 then Ok (el_members K L)
    else
      let inner := dofs_of (el_ids K L) sd ++ (if Nat.eqb sd 3 then dofs_of (el_ids K L) (sd - 1) else []) in
      let inds := filter (fun i => negb (existsb (Nat.eqb i) inner)) (range 0 (length (el_nodes K L))) in
      bind (kmv_bump c deg) (fun b =>
      bind (bubble_size c (deg + snd b) 0) (fun nb =>
      if Nat.eqb sd 2 then Ok (length inds + nb)
      else bind (bubble_size c (deg + fst b) 1) (fun nf => Ok (length inds + nb + nf))))).

  (** l.136-178, the checks of the constructor, and the dual set over the
      quadrature points [pts] of the KMV scheme *)
  Definition KongMulderVeldhuizen (c : cell) (degree : nat) (pts : list (list K)) : result (element K) :=
    bind (match c with
          | UFCTriangle => if Nat.ltb 5 degree then Err NotImplementedError else Ok tt
          | UFCTetrahedron => if Nat.ltb 3 degree then Err NotImplementedError else Ok tt
          | _ => Err ValueError
          end) (fun _ =>
    bind (kmv_members c degree) (fun m =>
    bind (kmv_ids c degree) (fun ids =>
    Ok (mkEl K m (map (PointEvaluation K) pts) ids)))).
End Space.
