(** The orthonormal expansion sets (expansions.py).  Values live in a
    commutative ring [A] over the scalars: [A = F] for numeric points and a
    polynomial ring for the symbolic evaluation of [_tabulate_dpts].  Exact
    arithmetic replaces floats; [sqrt] is a parameter. *)
Set Warnings "-notation-overridden,-ambiguous-paths".
From mathcomp Require Import all_ssreflect all_algebra.
From Verif Require Base.
From Verif Require Import ModelJacobi.
Set Implicit Arguments. Unset Strict Implicit. Unset Printing Implicit Defensive.
Import GRing.Theory.
Local Open Scope ring_scope.
Notation Ok := Base.Ok.
Notation Err := Base.Err.
Notation result := Base.result.
Notation bind := Base.bind.

(** expansions.py l.230-231 and l.322-323: positions of the modes. *)
Definition tri_idx (p q : nat) : nat := ((p + q) * (p + q + 1)) %/ 2 + q.
Definition tet_idx (p q r : nat) : nat :=
  ((p + q + r) * (p + q + r + 1) * (p + q + r + 2)) %/ 6 + ((q + r) * (q + r + 1)) %/ 2 + r.
(** l.214-215, l.306-307, [get_num_members] *)
Definition tri_num (n : nat) : nat := ((n + 1) * (n + 2)) %/ 2.
Definition tet_num (n : nat) : nat := ((n + 1) * (n + 2) * (n + 3)) %/ 6.

Section Store.
Variable A : Type.
(** [results]: a list initialised with [None].  Reading a position that was
    never written gives [None], on which arithmetic raises TypeError; a
    position outside the list raises IndexError. *)
Definition store := seq (option A).
Definition sget (s : store) (i : nat) : result A :=
  if (i < size s)%N then (if nth None s i is Some v then Ok v else Err Base.TypeError) else Err Base.IndexError.
Definition sset (s : store) (i : nat) (v : A) : result store :=
  if (i < size s)%N then Ok (set_nth None s i (Some v)) else Err Base.IndexError.
(** [for i in l: body] *)
Definition loop {I S : Type} (l : seq I) (body : I -> S -> result S) (s : S) : result S :=
  foldl (fun r i => bind r (body i)) (Ok s) l.
End Store.
(** [range(lo, hi)] *)
Definition rng (lo hi : nat) : seq nat := iota lo (hi - lo).

Section Tabulate.
Variables (F : fieldType) (A : comRingType) (emb : F -> A) (sqrt : F -> F).
Notation "c %:S" := (emb c) (at level 2, format "c %:S").
Notation half := (2%:R^-1 : F).
Implicit Types (n p q r : nat) (s : store A).

(** l.226-228, l.318-320: the affine map to the base cell. *)
Definition ref_pts (m1 m2 : nat) (M : nat -> nat -> F) (b : nat -> F) (pts : seq A) : seq A :=
  [seq \sum_(j <- rng 0 m2) (M i j)%:S * nth 0 pts j + (b i)%:S | i <- rng 0 m1].

(** l.223-272, [TriangleExpansionSet._tabulate] *)
Definition tri_p_loop n (f1 f3 : A) : store A -> result (store A) :=
  loop (rng 1 n) (fun p s =>
    let a := (2%:R * p%:R + 1) / (1 + p%:R) : F in
    bind (sget s (tri_idx p 0)) (fun u =>
    bind (sget s (tri_idx (p - 1) 0)) (fun v =>
    sset s (tri_idx (p + 1) 0) (a%:S * f1 * u - (p%:R / (1 + p%:R))%:S * f3 * v)))).
Definition tri_q1_loop n (y : A) : store A -> result (store A) :=
  loop (rng 0 n) (fun p s =>
    bind (sget s (tri_idx p 0)) (fun u =>
    sset s (tri_idx p 1) (half%:S * ((1 + 2%:R * p%:R)%:S + (3%:R + 2%:R * p%:R)%:S * y) * u))).
Definition tri_q_loop n (y : A) : store A -> result (store A) :=
  loop (rng 0 (n - 1)) (fun p =>
    loop (rng 1 (n - p)) (fun q s =>
      let: (a1, a2, a3) := jrc (2 * p + 1)%:R (0 : F) q in
      bind (sget s (tri_idx p q)) (fun u =>
      bind (sget s (tri_idx p (q - 1))) (fun v =>
      sset s (tri_idx p (q + 1)) ((a1%:S * y + a2%:S) * u - a3%:S * v))))).
Definition tri_norm p q : F := sqrt ((p%:R + half) * (p%:R + q%:R + 1)).
Definition tri_scale_loop n : store A -> result (store A) :=
  loop (rng 0 (n + 1)) (fun p =>
    loop (rng 0 (n - p + 1)) (fun q s =>
      bind (sget s (tri_idx p q)) (fun u => sset s (tri_idx p q) (u * (tri_norm p q)%:S)))).
Definition tri_tabulate (M : nat -> nat -> F) (b : nat -> F) n (pts : seq A) : result (store A) :=
  let rp := ref_pts 2 2 M b pts in
  bind (sset (nseq (tri_num n) None) 0 (1 + nth 0 pts 0 - nth 0 pts 0 + nth 0 pts 1 - nth 0 pts 1)) (fun s =>
  if n == 0%N then Ok s else
  let x := nth 0 rp 0 in
  let y := nth 0 rp 1 in
  let f1 := (1 + 2%:R * x + y) * half%:S in
  let f2 := (1 - y) * half%:S in
  let f3 := f2 ^+ 2 in
  bind (sset s (tri_idx 1 0) f1) (fun s =>
  bind (tri_p_loop n f1 f3 s) (fun s =>
  bind (tri_q1_loop n y s) (fun s =>
  bind (tri_q_loop n y s) (fun s =>
  tri_scale_loop n s))))).

(** l.315-385, [TetrahedronExpansionSet._tabulate] *)
Definition tet_p_loop n (f1 f2 : A) : store A -> result (store A) :=
  loop (rng 1 n) (fun p s =>
    let a1 := (2%:R * p%:R + 1) / (p%:R + 1) : F in
    let a2 := p%:R / (p%:R + 1) : F in
    bind (sget s (tet_idx p 0 0)) (fun u =>
    bind (sget s (tet_idx (p - 1) 0 0)) (fun v =>
    sset s (tet_idx (p + 1) 0 0) (a1%:S * f1 * u - a2%:S * f2 * v)))).
Definition tet_q1_loop n (y z : A) : store A -> result (store A) :=
  loop (rng 0 n) (fun p s =>
    bind (sget s (tet_idx p 0 0)) (fun u =>
    sset s (tet_idx p 1 0) (u * ((p%:R)%:S * (1 + y) + (2%:R + 3%:R * y + z) * half%:S)))).
Definition tet_q_loop n (f3 f4 f5 : A) : store A -> result (store A) :=
  loop (rng 0 (n - 1)) (fun p =>
    loop (rng 1 (n - p)) (fun q s =>
      let: (aq, bq, cq) := jrc (2 * p + 1)%:R (0 : F) q in
      let qm := aq%:S * f3 + bq%:S * f4 in
      let qm1 := cq%:S * f5 in
      bind (sget s (tet_idx p q 0)) (fun u =>
      bind (sget s (tet_idx p (q - 1) 0)) (fun v =>
      sset s (tet_idx p (q + 1) 0) (qm * u - qm1 * v))))).
Definition tet_r1_loop n (z : A) : store A -> result (store A) :=
  loop (rng 0 n) (fun p =>
    loop (rng 0 (n - p)) (fun q s =>
      bind (sget s (tet_idx p q 0)) (fun u =>
      sset s (tet_idx p q 1) (u * ((1 + p%:R + q%:R)%:S + (2%:R + q%:R + p%:R)%:S * z))))).
Definition tet_r_loop n (z : A) : store A -> result (store A) :=
  loop (rng 0 (n - 1)) (fun p =>
    loop (rng 0 (n - p - 1)) (fun q =>
      loop (rng 1 (n - p - q)) (fun r s =>
        let: (ar, br, cr) := jrc (2 * p + 2 * q + 2)%:R (0 : F) r in
        bind (sget s (tet_idx p q r)) (fun u =>
        bind (sget s (tet_idx p q (r - 1))) (fun v =>
        sset s (tet_idx p q (r + 1)) ((ar%:S * z + br%:S) * u - cr%:S * v)))))).
Definition tet_norm p q r : F :=
  sqrt ((p%:R + half) * (p%:R + q%:R + 1) * (p%:R + q%:R + r%:R + (1 + half))).
Definition tet_scale_loop n : store A -> result (store A) :=
  loop (rng 0 (n + 1)) (fun p =>
    loop (rng 0 (n - p + 1)) (fun q =>
      loop (rng 0 (n - p - q + 1)) (fun r s =>
        bind (sget s (tet_idx p q r)) (fun u => sset s (tet_idx p q r) (u * (tet_norm p q r)%:S))))).
Definition tet_tabulate (M : nat -> nat -> F) (b : nat -> F) n (pts : seq A) : result (store A) :=
  let rp := ref_pts 3 3 M b pts in
  bind (sset (nseq (tet_num n) None) 0
    (1 + nth 0 pts 0 - nth 0 pts 0 + nth 0 pts 1 - nth 0 pts 1 + nth 0 pts 2 - nth 0 pts 2)) (fun s =>
  if n == 0%N then Ok s else
  let x := nth 0 rp 0 in
  let y := nth 0 rp 1 in
  let z := nth 0 rp 2 in
  let factor1 := half%:S * (2%:R + 2%:R * x + y + z) in
  let factor2 := (half%:S * (y + z)) ^+ 2 in
  let factor3 := half%:S * (1 + 2%:R * y + z) in
  let factor4 := half%:S * (1 - z) in
  let factor5 := factor4 ^+ 2 in
  bind (sset s (tet_idx 1 0 0) factor1) (fun s =>
  bind (tet_p_loop n factor1 factor2 s) (fun s =>
  bind (tet_q1_loop n y z s) (fun s =>
  bind (tet_q_loop n factor3 factor4 factor5 s) (fun s =>
  bind (tet_r1_loop n z s) (fun s =>
  bind (tet_r_loop n z s) (fun s =>
  tet_scale_loop n s))))))).

End Tabulate.

Section Line.
Variables (F : fieldType) (sqrt : F -> F).
(** l.95-109, [xi_triangle], [xi_tetrahedron] *)
Definition xi_triangle (e1 e2 : F) : F * F :=
  (2%:R^-1 * (1 + e1) * (1 - e2) - 1, e2).
Definition xi_tetrahedron (e1 e2 e3 : F) : F * F * F :=
  (2%:R^-1 * 2%:R^-1 * (1 + e1) * (1 - e2) * (1 - e3) - 1, 2%:R^-1 * (1 + e2) * (1 - e3) - 1, e3).
(** l.157-169, [LineExpansionSet.tabulate]: row [k] of the batch times
    sqrt(k + 1/2), at every point *)
Definition line_tabulate (M b : F) (n : nat) (pts : seq F) : nat -> nat -> F :=
  let rp := [seq M * x + b | x <- pts] in
  fun k i => eval_jacobi_batch 0 0 n rp k i * sqrt (k%:R + 2%:R^-1).
(** l.171-196, [LineExpansionSet.tabulate_derivatives]; [vol] is the volume of
    the cell *)
Definition line_tabulate_derivatives (M b vol : F) (n : nat) (pts : seq F) : nat -> nat -> F * F :=
  let rp := [seq M * x + b | x <- pts] in
  fun k i => (line_tabulate M b n pts k i,
              eval_jacobi_deriv_batch 0 0 n rp k i * (2%:R / vol) * sqrt (k%:R + 2%:R^-1)).
End Line.
