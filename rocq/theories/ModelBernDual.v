(** bernstein.py l.17-46, [BernsteinDualSet]: which basis function is registered
    on which entity.  (The nodes are all [None], l.43-44.) *)
From Verif Require Import Base ModelIndex ModelCell.

(** l.39, [numpy.nonzero(ks)] *)
Definition nonzero (ks : list nat) : list nat := filter (fun v => negb (Nat.eqb (nth v ks 0) 0)) (range 0 (length ks)).
Fixpoint leqb (a b : list nat) : bool :=
  match a, b with
  | [], [] => true
  | x :: a', y :: b' => Nat.eqb x y && leqb a' b'
  | _, _ => false
  end.
(** l.23-25, [entity_ids = {dim: {entity_i: []}}] *)
Definition empty_ids (t : topo) : dict (list nat) := map (fun '(d, es) => (d, map (fun '(e, _) => (e, [])) es)) t.
(** l.27-29, [inverse_topology], as the list of insertions in order *)
Definition inverse_topology (t : topo) : list (list nat * (dimT * nat)) :=
  flat_map (fun '(d, es) => map (fun '(e, vs) => (vs, (d, e))) es) t.
(** subscripting that dictionary: the last insertion under the key counts *)
Definition inverse_lookup (vs : list nat) (inv : list (list nat * (dimT * nat))) : result (dimT * nat) :=
  match find (fun kv => leqb vs (fst kv)) (rev inv) with
  | Some (_, x) => Ok x
  | None => Err KeyError
  end.
(** l.41, [entity_ids[entity_dim][entity_i].append(i)] *)
Definition append_at (x : dimT * nat) (i : nat) (ids : dict (list nat)) : dict (list nat) :=
  map (fun '(d, es) => if deqb d (fst x)
                       then (d, map (fun '(e, l) => if Nat.eqb e (snd x) then (e, l ++ [i]) else (e, l)) es)
                       else (d, es)) ids.
(** l.38-44, the loop over [enumerate(kss)] *)
Fixpoint fill (inv : list (list nat * (dimT * nat))) (i : nat) (kss : list (list nat)) (ids : dict (list nat))
  : result (dict (list nat)) :=
  match kss with
  | [] => Ok ids
  | ks :: kss' => bind (inverse_lookup (nonzero ks) inv) (fun x => fill inv (S i) kss' (append_at x i ids))
  end.
(** l.17-46 *)
Definition bernstein_ids (c : cell) (degree : nat) : result (dict (list nat)) :=
  fill (inverse_topology (topology c)) 0 (mis (spatial_dimension c + 1) degree) (empty_ids (topology c)).
