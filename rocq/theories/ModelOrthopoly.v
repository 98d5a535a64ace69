(** Recurrence coefficients and Jacobi tables of orthopoly.py, in exact
    arithmetic over a field.  Division by zero (which Python reports as an
    exception or NaN) is the field's [x / 0 = 0]; the theorems assume that no
    divisor vanishes. *)
Set Warnings "-notation-overridden,-ambiguous-paths".
From mathcomp Require Import all_ssreflect all_algebra.
From Verif Require Base.
Set Implicit Arguments. Unset Strict Implicit. Unset Printing Implicit Defensive.
Import GRing.Theory Num.Theory.
Local Open Scope ring_scope.

(** What [rec_jacobi] returns: two Python scalars (N = 1) or two arrays. *)
Inductive recoeffs (F : Type) := RScalars of F & F | RArrays of seq F & seq F.

Section Rec.
Variable F : fieldType.
Implicit Types (a b : F).

(** orthopoly.py l.126-143, [rec_jacobi].  [mu] stands for
    2 ** (a + b + 1) * gamma(a + 1) * gamma(b + 1) / gamma(a + b + 2) (l.127),
    whose Gamma function is not modelled.  [np.arange(1.0, N)] is
    [iota 1 (N - 1)]. *)
Definition rec_jacobi (mu : F) (N : nat) a b : recoeffs F :=
  let nu := (b - a) / (a + b + 2%:R) in
  if N == 1%N then RScalars nu mu
  else
    let n := [seq (i%:R : F) | i <- iota 1 (N - 1)] in
    let nab := [seq 2%:R * x + a + b | x <- n] in
    let alpha := nu :: [seq (b ^+ 2 - a ^+ 2) / (x * (x + 2%:R)) | x <- nab] in
    let n' := behead n in
    let nab' := behead nab in
    let B1 := 4%:R * (a + 1) * (b + 1) / ((a + b + 2%:R) ^+ 2 * (a + b + 3%:R)) in
    let B := [seq 4%:R * (p.1 + a) * (p.1 + b) * p.1 * (p.1 + a + b)
                  / (p.2 ^+ 2 * (p.2 + 1) * (p.2 - 1)) | p <- zip n' nab'] in
    RArrays alpha (mu :: B1 :: B).

(** orthopoly.py l.186-201, [polyval]: [P] has a row per point and a column
    per polynomial; [x - alpha[k]] etc. act on a whole column. *)
Definition set_col (P : nat -> nat -> F) (k : nat) (c : nat -> F) : nat -> nat -> F :=
  fun i k' => if k' == k then c i else P i k'.
Definition polyval (alpha beta xs : seq F) : Base.result (nat -> nat -> F) :=
  let N := size alpha in
  if N == 0%N then Base.Err Base.IndexError
  else if (1 < N)%N && (size beta < N)%N then Base.Err Base.IndexError
  else
    let x := fun i => nth 0 xs i in
    let P0 := set_col (fun _ _ => 0) 0 (fun _ => 1) in
    let P1 := set_col P0 1 (fun i => (x i - nth 0 alpha 0) * P0 i 0%N) in
    Base.Ok (foldl (fun P k => set_col P k.+1
               (fun i => (x i - nth 0 alpha k) * P i k - nth 0 beta k * P i k.-1))
             P1 (iota 1 (N - 1))).

(** orthopoly.py l.204-240, [jacobi].  With [NOPT = 2] the call
    [gamma(k + a + 1)] of l.237 applies [math.gamma] to an array of [N + 1]
    entries, which Python refuses with a TypeError unless N = 0; the branch
    N = 0, NOPT = 2 needs the Gamma function and is not modelled ([None]). *)
Definition ojacobi (N : nat) a b (xs : seq F) (NOPT : nat) : option (Base.result (nat -> nat -> F)) :=
  let x := fun i => nth 0 xs i in
  let apb := a + b in
  let a1 := a - 1 in
  let b1 := b - 1 in
  let c := apb * (a - b) in
  let P0 := set_col (fun _ _ => 0) 0 (fun _ => 1) in
  let P1 := if (0 < N)%N then set_col P0 1 (fun i => 2%:R^-1 * (a - b + (apb + 2%:R) * x i)) else P0 in
  let P := if (1 < N)%N then
      foldl (fun P k =>
        let k2 := 2%:R * k%:R in
        let g := k2 + apb in
        let g1 := g - 1 in
        let g2 := g - 2%:R in
        let d := 2%:R * (k%:R + a1) * (k%:R + b1) * g in
        set_col P k (fun i => (g1 * (c + g2 * g * x i) * P i k.-1 - d * P i k.-2) / (k2 * (k%:R + apb) * g2)))
        P1 (iota 2 (N.+1 - 2))
    else P1 in
  if NOPT == 2%N then (if (0 < N)%N then Some (Base.Err Base.TypeError) else None) else Some (Base.Ok P).

(** orthopoly.py l.243-259, [jacobiD]: [hstack] puts a zero column in front;
    [* (a + b + 2 + arange(N))] scales column [j] by [a + b + 2 + j]. *)
Definition ojacobiD (N : nat) a b (xs : seq F) (NOPT : nat) : option (Base.result (nat -> nat -> F)) :=
  if N is N'.+1 then
    omap (fun r => Base.bind r (fun P =>
      Base.Ok (fun i k => 2%:R^-1 * (if k is j.+1 then P i j * (a + b + 2%:R + j%:R) else 0))))
      (ojacobi N' (a + 1) (b + 1) xs NOPT)
  else Some (Base.Ok (fun _ _ => 0)).
End Rec.

(** A Python value passed for the order [N]: an int, or something else. *)
Inductive pyorder := PInt of int | POther.

Section Rec01.
Variable F : numFieldType.
(** orthopoly.py l.146-183, [rec_jacobi01].  [two_ab1] stands for
    2 ** (a + b + 1), a real power.  When [N = 1] [rec_jacobi] returns Python
    floats, so [d[0]] on l.181 raises TypeError.  For [N >= 2], [beta[0] = ...]
    overwrites the first entry. *)
Definition rec_jacobi01 (mu two_ab1 : F) (N : pyorder) (a b : F) : Base.result (seq F * seq F) :=
  if (a <= -1) || (b <= -1) then Base.Err Base.ValueError
  else match N with
  | POther => Base.Err Base.TypeError
  | PInt (Negz _) => Base.Err Base.ValueError
  | PInt (Posz N) =>
    if (N < 1)%N then Base.Err Base.ValueError
    else match rec_jacobi mu N a b with
    | RScalars _ _ => Base.Err Base.TypeError
    | RArrays c d =>
      Base.Ok ([seq (1 + x) / 2%:R | x <- c], set_nth 0 [seq x / 4%:R | x <- d] 0 (nth 0 d 0 / two_ab1))
    end
  end.
End Rec01.
