(** Specification vocabulary for concatenated elements. *)
From Coq Require Import Permutation.
From Verif Require Import Base ModelCell ModelArray ModelConcat SpecCell SpecCart.

(** start of block [i] for block sizes [sizes] *)
Definition block_start (sizes : list nat) (i : nat) : nat := nsum (firstn i sizes).

(** all dofs listed in an entity dof dictionary *)
Definition all_dofs (ids : dict (list nat)) : list nat := flat_map (fun '(_, es) => flat_map snd es) ids.

(** the dofs are [0..n-1], each on exactly one entity *)
Definition partitions (ids : dict (list nat)) (n : nat) : Prop := Permutation (all_dofs ids) (seq 0 n).

(** the dictionary has entries for exactly the entities of the cell *)
Definition same_entities {V W} (a : dict V) (b : dict W) : Prop :=
  forall d e, lookup a d e = None <-> lookup b d e = None.

(** a constituent returns arrays of the shape it announces *)
Definition well_shaped {K} (npts : nat) (e : @constituent K) : Prop :=
  0 < c_dim e /\ 0 < nprod (c_vshape e) /\ NoDup (map fst (c_table e)) /\
  forall d t, In (d, t) (c_table e) -> ashape t = c_dim e :: c_vshape e ++ [npts].

(** dofs of all constituents on one entity, with the numbering offsets *)
Definition concatenated (els : list (nat * dict (list nat))) (x : dimT * nat) : list nat :=
  flat_map (fun i => map (fun k => block_start (map fst els) i + k)
                         (dofs_on (snd (nth i els (0, []))) x))
           (seq 0 (length els)).

(** A derivative table for [sd] variables up to [order]: every multi-index has
    an array of [dim] functions with values of shape [vshape] at [npts]
    points. *)
Definition full_table {K} (sd order dim npts : nat) (vshape : list nat) (t : list (list nat * array K)) : Prop :=
  forall k, length k = sd -> nsum k <= order ->
    exists a, tlookup k t = Some a /\ ashape a = dim :: vshape ++ [npts].
