(** A small model of numpy arrays: a shape and a total function on
    multi-indices of that shape (values outside the shape are never read). *)
From Verif Require Import Base ModelIndex ModelCell.

Record array (K : Type) := mkArray { ashape : list nat; aget : list nat -> K }.
Arguments mkArray {K}. Arguments ashape {K}. Arguments aget {K}.

(** [numpy.zeros(shape)] *)
Definition zeros {K} (zero : K) (shape : list nat) : array K := mkArray shape (fun _ => zero).

(** [a.reshape(shape)] with an explicit shape, C order; ValueError on size
    mismatch. *)
Definition reshape {K} (a : array K) (shape : list nat) : result (array K) :=
  if Nat.eqb (nprod (ashape a)) (nprod shape)
  then Ok (mkArray shape (fun idx => aget a (unravel (ashape a) (ravel shape idx))))
  else Err ValueError.

(** [a.reshape(r, c, -1)]: the last extent is inferred; ValueError when
    [r * c] is zero or does not divide the size. *)
Definition reshape_last {K} (a : array K) (pre : list nat) : result (array K) :=
  let q := nprod pre in
  if Nat.eqb q 0 then Err ValueError
  else if Nat.eqb (nprod (ashape a) mod q) 0
       then reshape a (pre ++ [nprod (ashape a) / q]) else Err ValueError.

(** Broadcasting of the right hand side in [target[...] = source]: superfluous
    leading extents must be 1, the others equal to the target's or 1. *)
Fixpoint strip_ones (n : nat) (s : list nat) : option (list nat) :=
  match n, s with
  | 0, _ => Some s
  | S n', 1 :: s' => strip_ones n' s'
  | S _, _ => None
  end.
(** position in the source for a target index aligned on the right *)
Definition bcast_shape (src tgt : list nat) : option (list nat) :=
  match strip_ones (length src - length tgt) src with
  | None => None
  | Some s => Some (repeat 1 (length tgt - length s) ++ s)
  end.
Definition bcast_ok (s tgt : list nat) : bool :=
  forallb (fun '(a, b) => Nat.eqb a b || Nat.eqb a 1) (combine s tgt).
Definition bcast_idx (s idx : list nat) : list nat :=
  map (fun '(a, i) => if Nat.eqb a 1 then 0 else i) (combine s idx).

(** broadcast [a] to [tgt]: an array of shape [tgt] *)
Definition broadcast {K} (a : array K) (tgt : list nat) : result (array K) :=
  match bcast_shape (ashape a) tgt with
  | None => Err ValueError
  | Some s =>
    if bcast_ok s tgt then
      Ok (mkArray tgt (fun idx =>
            let i := bcast_idx s idx in
            (* drop padding ones / restore stripped ones *)
            aget a (repeat 0 (length (ashape a) - length tgt) ++ skipn (length tgt - length (ashape a)) i)))
    else Err ValueError
  end.

(** [target[lo_0:hi_0, lo_1:hi_1, ...] = source] for the leading axes given by
    [ranges]; the other axes are taken whole.  The ranges lie inside the
    target. *)
Fixpoint slice_shape (ranges : list (nat * nat)) (shape : list nat) : list nat :=
  match ranges, shape with
  | (lo, hi) :: r, s :: sh => (hi - lo) :: slice_shape r sh
  | _, _ => shape
  end.
Fixpoint in_ranges (ranges : list (nat * nat)) (idx : list nat) : bool :=
  match ranges, idx with
  | (lo, hi) :: r, i :: idx' => Nat.leb lo i && Nat.ltb i hi && in_ranges r idx'
  | _, _ => true
  end.
Fixpoint shift_idx (ranges : list (nat * nat)) (idx : list nat) : list nat :=
  match ranges, idx with
  | (lo, hi) :: r, i :: idx' => (i - lo) :: shift_idx r idx'
  | _, _ => idx
  end.
Definition assign_slice {K} (target : array K) (ranges : list (nat * nat)) (source : array K)
  : result (array K) :=
  match broadcast source (slice_shape ranges (ashape target)) with
  | Err e => Err e
  | Ok b => Ok (mkArray (ashape target)
      (fun idx => if in_ranges ranges idx then aget b (shift_idx ranges idx) else aget target idx))
  end.

(** Tables: dictionaries from derivative multi-indices to arrays. *)
Definition keq (a b : list nat) : bool := if list_eq_dec Nat.eq_dec a b then true else false.
Fixpoint tlookup {V} (k : list nat) (t : list (list nat * V)) : option V :=
  match t with [] => None | (k', v) :: t' => if keq k k' then Some v else tlookup k t' end.
Fixpoint tset {V} (k : list nat) (v : V) (t : list (list nat * V)) : list (list nat * V) :=
  match t with
  | [] => [(k, v)]
  | (k', v') :: t' => if keq k k' then (k', v) :: t' else (k', v') :: tset k v t'
  end.
