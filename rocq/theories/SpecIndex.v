(** Independent specification of index enumeration and lattice points. *)
From Verif Require Import Base.

(** The multi-indices of length [m] and order [n]. *)
Definition multi_index (m n : nat) (a : list nat) : Prop := length a = m /\ nsum a = n.

(** Barycentric lattice indices of a [d]-simplex subdivided [n] times: the
    coordinates [k_1..k_d] together with the implied [k_0 = n - sum k] are all
    at least [interior]. *)
Definition lattice_index (d n interior : nat) (k : list nat) : Prop :=
  length k = d /\ (forall x, In x k -> interior <= x) /\ nsum k + interior <= n.

(** Valid component indices of a tensor of the given shape. *)
Definition component_of (shp idx : list nat) : Prop := Forall2 lt idx shp.

(** The lattice point with index [k]: every coordinate [c] is the barycentric
    combination (k_0 v_0 + k_1 v_1 + ... ) / n of the vertices' coordinates. *)
Section LatticePoint.
  Context {K : fieldT}.
  Local Open Scope F_scope.
  Definition coord (c : nat) (v : list K) : K := nth c v f0.
  Fixpoint wsum (ws : list nat) (xs : list K) : K :=
    match ws, xs with
    | w :: ws', x :: xs' => of_nat w * x + wsum ws' xs'
    | _, _ => f0
    end.
  Definition is_lattice_point (verts : list (list K)) (n : nat) (k : list nat) (p : list K) : Prop :=
    exists v0, hd_error verts = Some v0 /\ length p = length v0 /\
    forall c, c < length v0 ->
      coord c p = wsum ((n - nsum k)%nat :: k) (map (coord c) verts) / of_nat n.
End LatticePoint.
