(** bernstein.py, evaluation.  Arrays over points are treated point by point;
    arithmetic is exact.  [d] is the spatial dimension (at least 1) and [vs]
    the [d + 1] vertices of a simplex. *)
Set Warnings "-notation-overridden,-ambiguous-paths".
From mathcomp Require Import all_ssreflect all_algebra.
From Verif Require Base ModelIndex.
Set Implicit Arguments. Unset Strict Implicit. Unset Printing Implicit Defensive.
Import GRing.Theory.
Local Open Scope ring_scope.

Section Bern.
Variable F : fieldType.
(** l.86-87, [B2R] *)
Definition B2R (d : nat) (vs : seq (seq F)) : 'M[F]_(d.+1) :=
  \matrix_(i, j) if (i < d)%N then nth 0 (nth [::] vs j) i else 1.
(** l.88, numpy.linalg.inv *)
Definition R2B (d : nat) (vs : seq (seq F)) : Base.result 'M[F]_(d.+1) :=
  if B2R d vs \in unitmx then Base.Ok (invmx (B2R d vs)) else Base.Err Base.LinAlgError.
(** l.90-91, barycentric coordinates of a point *)
Definition to_bary (d : nat) (R : 'M[F]_(d.+1)) (p : seq F) : seq F :=
  [seq \sum_(j < d.+1) (if (j < d)%N then nth 0 p j else 1) * R i j | i <- enum 'I_d.+1].
(** l.112-144, [bernstein_db] at one point; [len(ks)], [len(alpha)] and the
    number of barycentric coordinates agree in every call made by [tabulate] *)
Definition bernstein_db (b : seq F) (ks alpha : seq nat) : F :=
  if has (fun ka => (ka.1 < ka.2)%N) (zip ks alpha) then 0                    (* any(k < 0 for k in ls) *)
  else let ls := [seq (ka.1 - ka.2)%N | ka <- zip ks alpha] in
       if all (fun k => k == 0%N) ls then 1
       else (foldl (fun c k => c %/ k`!) (sumn ks)`! ls)%N%:R * \prod_(bl <- zip b ls) bl.1 ^+ bl.2.
(** l.174-177: [alpha[d] += 1 for d in ds] *)
Definition alpha_of (d1 : nat) (ds : seq nat) : seq nat := [seq count_mem i ds | i <- iota 0 d1].
(** l.186: [R2B[:, d].dot(values)], which sums over the last tensor index *)
Definition contract (d : nat) (R : 'M[F]_(d.+1)) (j : 'I_d.+1) (T : seq nat -> F) : seq nat -> F :=
  fun ds => \sum_(i < d.+1) R i j * T (rcons ds i).
(** l.147-188, [bernstein_Dx]: entry [alpha] of the dictionary *)
Definition bernstein_Dx (d : nat) (R : 'M[F]_(d.+1)) (b : seq F) (ks alpha : seq nat) : F :=
  let T0 := fun ds => bernstein_db b ks (alpha_of d.+1 ds) in
  foldl (fun T j => iter (nth 0%N alpha (nat_of_ord j)) (contract R j) T) T0 [seq widen_ord (leqnSn d) j | j <- enum 'I_d] [::].
(** l.65-109, [tabulate] at points already mapped to the cell (l.81-83) *)
Definition tabulate_cell (d : nat) (vs : seq (seq F)) (deg order : nat) (pts : seq (seq F)) : Base.result (seq (seq nat * seq (seq F))) :=
  match R2B d vs with
  | Base.Err e => Base.Err e
  | Base.Ok R =>
    let B := [seq to_bary R p | p <- pts] in
    Base.Ok [seq (alpha, [seq [seq bernstein_Dx R b ks alpha | b <- B] | ks <- ModelIndex.mis d.+1 deg])
            | alpha <- flatten [seq ModelIndex.mis d o | o <- iota 0 order.+1]]
  end.
End Bern.
