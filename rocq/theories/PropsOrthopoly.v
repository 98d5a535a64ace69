(** C39: the recurrence coefficients and tables of orthopoly.py. *)
Set Warnings "-notation-overridden,-ambiguous-paths".
From mathcomp Require Import all_ssreflect all_algebra.
From Verif Require Base.
From Verif Require Import FieldTac ModelJacobi SpecJacobi ProofsJacobi ProofsOrtho ModelOrthopoly ProofsOrthopoly PropsJacobi.
Set Implicit Arguments. Unset Strict Implicit. Unset Printing Implicit Defensive.
Import Order.TTheory GRing.Theory Num.Theory.
Local Open Scope ring_scope.

(** A table of values: one row per point, one column per polynomial. *)
Definition tabulates (F : fieldType) (P : nat -> nat -> F) (xs : seq F) (N : nat) (p : nat -> {poly F}) : Prop :=
  forall i k, (i < size xs)%N -> (k <= N)%N -> P i k = (p k).[nth 0 xs i].

Lemma set_colE (F : fieldType) (P : nat -> nat -> F) k c i k' :
  set_col P k c i k' = if k' == k then c i else P i k'.
Proof. by []. Qed.

Section Poly.
Variable F : fieldType.
Add Field FF : (mc_field_theory F).
Lemma polyval_mon (al be xs : seq F) (fa fb : nat -> F) N :
  (0 < N)%N -> size al = N -> (1 < N -> N <= size be)%N ->
  (forall k, (k < N)%N -> nth 0 al k = fa k) -> (forall k, (0 < k < N)%N -> nth 0 be k = fb k) ->
  exists P, polyval al be xs = Base.Ok P /\ tabulates P xs N (monic_p fa fb).
Proof.
move=> N0 Sa Sb Ha Hb. rewrite /polyval Sa. case: eqP N0 => [->|_ N0] //.
have -> : (1 < N)%N && (size be < N)%N = false.
{ case: leqP => // /Sb. by rewrite ltnNge => ->. }
eexists; split; first by [].
suff H : forall n, (n <= N - 1)%N -> forall i k, (k <= n.+1)%N -> 
  foldl (fun P k => set_col P k.+1 (fun i => (nth 0 xs i - nth 0 al k) * P i k - nth 0 be k * P i k.-1))
   (set_col (set_col (fun _ _ => 0) 0 (fun=> 1)) 1
     (fun i => (nth 0 xs i - nth 0 al 0) * set_col (fun _ _ => 0) 0 (fun=> 1) i 0%N)) (iota 1 n) i k = (monic_p fa fb k).[nth 0 xs i].
{ move=> i k Hi Hk. apply: H => //. by rewrite subn1 prednK. }
elim=> [|n IH] Hn i k Hk.
- case: k Hk => [|[|k]] // _; rewrite /= /set_col /=; first by rewrite /monic_p /= hornerC.
  by rewrite /monic_p /= mulr1 hornerD hornerN hornerX hornerC Ha.
- rewrite -[n.+1]addn1 iotaD foldl_cat [foldl _ _ (iota (1 + n) 1)]/= set_colE add1n. 
  case: eqP => [->|/eqP Hne].
  + rewrite IH ?(ltnW Hn) // IH ?(ltnW Hn) // mon_rec.
    rewrite !(hornerD, hornerM, hornerN, hornerX, hornerC, hornerZ).
    have Hl : (n.+1 < N)%N by rewrite -(prednK N0) -subn1.
    by rewrite Ha // Hb.
  + apply: IH; first exact: ltnW. by rewrite -ltnS ltn_neqAle Hne.
Qed.
End Poly.

(** [polyval] applied to [rec_jacobi(N, a, b)]: column [k] is the Jacobi polynomial
    P_k^(a,b) (explicit classical sum) divided by its leading coefficient, for
    every [k <= N]; whatever the value of the Gamma expression [mu]. *)
Theorem C39_rec_jacobi_monic :
  forall (F : fieldType) (mu a b : F) (N : nat) (xs : seq F),
    char_zero F -> (2 <= N)%N -> jacobi_regular a b N ->
    exists al be P,
      [/\ rec_jacobi mu N a b = RArrays al be, size al = N, size be = N /\ nth 0 be 0 = mu,
          polyval al be xs = Base.Ok P &
          tabulates P xs N (fun k => (lead_coef (jacobi_poly a b k))^-1 *: jacobi_poly a b k)] /\
      forall k, (k <= N)%N -> size (jacobi_poly a b k) = k.+1.
Proof.
move=> F mu a b N xs F0 N2 R.
have [al [be [E Sa Sb Ha Hb]]] := rec_jacobiE a b mu N2.
have Sb' : (1 < N -> N <= size be)%N by rewrite Sb.
have Hb' k : (0 < k < N)%N -> nth 0 be k = rbeta a b mu k by move=> /andP [_]; exact: Hb.
have [P [EP HP]] := polyval_mon xs (ltnW N2) Sa Sb' Ha Hb'.
exists al, be, P. split.
- split=> //; first by rewrite Sb Hb ?(ltnW N2).
  move=> i k Hi Hk. rewrite HP // (jacobi_monic F0 mu R Hk) lead_coefZ.
  have [/eqP M _] := mon_monic (ralpha a b) (rbeta a b mu) k. rewrite M mulr1 scalerA mulVf ?scale1r //.
  exact: (lcn0 F0 R).
- move=> k Hk. rewrite (jacobi_monic F0 mu R Hk) size_scale; last exact: (lcn0 F0 R).
  by have [] := mon_monic (ralpha a b) (rbeta a b mu) k.
Qed.

(** [rec_jacobi01] moves the recurrence to [0,1]: column [k] is
    P_k^(a,b)(2x - 1), scaled to be monic in x. *)
Section Shift.
Variable F : fieldType.
Add Field FF1 : (mc_field_theory F).
Lemma shift_alg (t u v p q w x : F) : t != 0 -> w != 0 -> 
  (x - (1 + u) / t) * (p / (t * w)) - v / (t * t) * (q / w)
  = ((t * x - 1 - u) * p - v * q) / (t * (t * w)).
Proof. move=> T W. ffield. repeat split; nz. Qed.
Lemma mon_shift (F0 : char_zero F) (fa fb ga gb : nat -> F) N :
  (forall k, (k < N)%N -> ga k = (1 + fa k) / 2%:R) -> (forall k, (0 < k < N)%N -> gb k = fb k / 4%:R) ->
  forall k x, (k <= N)%N -> (monic_p ga gb k).[x] = (monic_p fa fb k).[2%:R * x - 1] / 2%:R ^+ k.
Proof.
move=> Ha Hb k x. elim: {k}k.+1 {-2}k (ltnSn k) => [|n IH] [|[|k]] //; rewrite ltnS => Hk HN.
- by rewrite /monic_p /= !hornerC expr0 divr1.
- rewrite /monic_p /= !(hornerD, hornerN, hornerX, hornerC) Ha // expr1.
  have := two_neq0 F0. move: (fa _) (2%:R : F) => u t T. ffield. nz.
- rewrite !mon_rec !(hornerD, hornerN, hornerX, hornerC, hornerM, hornerZ) (IH k.+1) ?(ltnW HN) // (IH k) ?(ltnW (ltnW HN)) ?(ltnW Hk) //.
  rewrite Ha // Hb //. have T := two_neq0 F0. move: (fa _) (fb _) (horner _ _) (horner _ _) => u v p q.
  rewrite [2%:R ^+ k.+2]exprS [2%:R ^+ k.+1]exprS. 
  have -> : 4%:R = 2%:R * 2%:R :> F by rewrite -natrM.
  apply: shift_alg => //. exact: expf_neq0.
Qed.
End Shift.
Theorem C39_rec_jacobi01_shifted :
  forall (F : realFieldType) (mu t a b : F) (N : nat) (xs : seq F),
    -1 < a -> -1 < b -> (2 <= N)%N ->
    exists al be P,
      [/\ rec_jacobi01 mu t (PInt N) a b = Base.Ok (al, be), size al = N, size be = N /\ nth 0 be 0 = mu / t,
          polyval al be xs = Base.Ok P &
          forall i k, (i < size xs)%N -> (k <= N)%N ->
            P i k = (jacobi_poly a b k).[2%:R * nth 0 xs i - 1] / (2%:R ^+ k * lead_coef (jacobi_poly a b k))].
Proof.
move=> F mu t a b N xs Ha1 Hb1 N2.
have Hab : - 2%:R < a + b by rewrite [2%:R](natrD _ 1 1) opprD ltr_add.
have [F0 R] := C22_regular_witness N Hab.
have [al [be [E Sa Sb Ha Hb]]] := rec_jacobiE a b mu N2.
set al' := [seq (1 + x) / 2%:R | x <- al].
set be' := set_nth 0 [seq x / 4%:R | x <- be] 0 (nth 0 be 0 / t).
have Sa' : size al' = N by rewrite size_map.
have Sb' : size be' = N by rewrite size_set_nth size_map Sb; apply/maxn_idPr; exact: ltnW.
have A' k : (k < N)%N -> nth 0 al' k = (1 + ralpha a b k) / 2%:R.
{ move=> Hk. by rewrite (nth_map 0) ?Sa // Ha. }
have B' k : (0 < k < N)%N -> nth 0 be' k = rbeta a b mu k / 4%:R.
{ move=> /andP [K0 Hk]. rewrite nth_set_nth /= -[k == 0%N]negbK -lt0n K0 /= (nth_map 0) ?Sb // Hb //. }
have Sb2 : (1 < N -> N <= size be')%N by rewrite Sb'.
have [P [EP HP]] := @polyval_mon F al' be' xs (nth 0 al') (nth 0 be') N (ltnW N2) Sa' Sb2 (fun _ _ => erefl) (fun _ _ => erefl).
exists al', be', P. split=> //.
- rewrite /rec_jacobi01 leNgt Ha1 leNgt Hb1 /= ltnNge (ltnW N2) /= E. by [].
- split=> //. by rewrite nth_set_nth /= Hb // (ltnW N2).
- move=> i k Hi Hk. rewrite HP // (mon_shift F0 A' B') //.
  rewrite (jacobi_monic F0 mu R Hk) lead_coefZ hornerZ.
  have [/eqP M _] := mon_monic (ralpha a b) (rbeta a b mu) k. rewrite M mulr1.
  have L := lcn0 F0 R Hk. move: (lc a b k) L => l L. by rewrite [_ * l]mulrC -mulf_div [l / l]divff // mul1r.
Qed.

(** Every other argument is refused; in particular N = 1, which the docstring
    and the checks admit, raises TypeError. *)
Theorem C39_rec_jacobi01_refusals :
  forall (F : realFieldType) (mu t a b : F),
    (forall N, a <= -1 \/ b <= -1 -> rec_jacobi01 mu t N a b = Base.Err Base.ValueError) /\
    (-1 < a -> -1 < b ->
      rec_jacobi01 mu t POther a b = Base.Err Base.TypeError /\
      (forall n : int, n < 1 -> rec_jacobi01 mu t (PInt n) a b = Base.Err Base.ValueError) /\
      rec_jacobi01 mu t (PInt 1) a b = Base.Err Base.TypeError).
Proof.
move=> F mu t a b. split=> [N H|Ha Hb].
- rewrite /rec_jacobi01. by case: H => -> //; rewrite orbT.
- rewrite /rec_jacobi01 !leNgt Ha Hb /=. split=> //; split=> // -[[|n]|n] //.
Qed.

(** [jacobi(N, a, b, x)] evaluates P_0 ... P_N and [jacobiD] their derivatives. *)
Section Tables.
Variable F : fieldType.
Add Field FF2 : (mc_field_theory F).
Hypothesis F0 : char_zero F.
Lemma ojacobi_ok (a b : F) N xs NOPT : NOPT != 2%N -> jacobi_regular a b N ->
  exists P, ojacobi N a b xs NOPT = Some (Base.Ok P) /\ tabulates P xs N (jacobi_poly a b).
Proof.
move=> HO R. rewrite /ojacobi (negbTE HO). eexists; split; first by [].
case: N R => [|[|N]] R i k Hi Hk.
- case: k Hk => [|k] // _; by rewrite /set_col /= jacobi_poly0 hornerC.
- case: k Hk => [|[|k]] // _; rewrite /set_col /=; first by rewrite jacobi_poly0 hornerC.
  by rewrite jacobi_poly1.
- change (0 < N.+2)%N with true; change (1 < N.+2)%N with true; cbv iota. elim: N R k Hk => [|n IH] R k Hk.
  + rewrite /= /set_col /=. case: k Hk => [|[|[|k]]] // _ /=; first by rewrite jacobi_poly0 hornerC.
    * by rewrite jacobi_poly1.
    * rewrite -(@jac_step_ok _ F0 a b 0 _ R) jacobi_poly1 // jacobi_poly0 hornerC.
      have := jac_a1_neq0 F0 R (k := 2) isT. rewrite /jac_a1 /jac_a2 /jac_a3 /jac_a4 => A1. 
      rewrite !mulf_eq0 !negb_or in A1. case/andP: A1 => /andP [/andP [T A2] A3] A4.
      move: T A2 A3 A4. rewrite !mulrS mulr0n. move: (nth 0 xs i) => x T A2 A3 A4. have T4 := mulf_neq0 T T. ffield. repeat split; nz.
  + have R' : jacobi_regular a b n.+2 by exact: jacobi_regular_le R _.
    have -> : (n.+4 - 2 = (n.+3 - 2) + 1)%N by rewrite !subSS !subn0 addn1. rewrite iotaD (_ : iota (2 + (n.+3 - 2)) 1 = [:: (2 + (n.+3 - 2))%N]) // cats1 foldl_rcons {1}/set_col. have -> : (2 + (n.+3 - 2) = n.+3)%N by rewrite !subSS subn0.
    case: (@eqP _ k _) => [->|/eqP Hne]; last by apply: IH => //; rewrite -ltnS ltn_neqAle Hne.
    cbn [predn]. rewrite (IH R' n.+2) // (IH R' n.+1) // -(jac_step_ok F0 _ R).
    have := jac_a1_neq0 F0 R (k := n.+3). rewrite leqnn => /(_ isT). rewrite /jac_a1 /jac_a2 /jac_a3 /jac_a4 => A1. 
    rewrite !mulf_eq0 !negb_or in A1. case/andP: A1 => /andP [/andP [T A2] A3] A4.
    move: T A2 A3 A4. rewrite !mulrS mulr0n. move: (nth 0 xs i) (n%:R : F) (horner _ _) (horner _ _) => x y p q T A2 A3 A4. ffield. nz.
Qed.
Lemma ojacobiD_ok (a b : F) N xs NOPT : NOPT != 2%N -> jacobi_regular a b N ->
  exists P, ojacobiD N a b xs NOPT = Some (Base.Ok P) /\ tabulates P xs N (fun k => (jacobi_poly a b k)^`()).
Proof.
move=> HO R. case: N R => [|N] R.
- eexists; split; first by []. move=> i [|k] // _ _. by rewrite jacobi_poly0 derivC hornerC.
- have [P [E H]] := ojacobi_ok xs HO (regular_shift R).
  rewrite /ojacobiD E. eexists; split; first by []. move=> i [|k] Hi Hk /=; first by rewrite jacobi_poly0 derivC hornerC mulr0.
  rewrite jacobi_deriv // hornerZ H //. move: (horner _ _) (2%:R^-1) => p h. rewrite !mulrS mulr0n. move: (k%:R : F) => x. fring.
Qed.
End Tables.
Theorem C39_jacobi_table :
  forall (F : fieldType) (a b : F) N xs NOPT, char_zero F -> NOPT != 2%N -> jacobi_regular a b N ->
    (exists P, ojacobi N a b xs NOPT = Some (Base.Ok P) /\ tabulates P xs N (jacobi_poly a b)) /\
    (exists D, ojacobiD N a b xs NOPT = Some (Base.Ok D) /\ tabulates D xs N (fun k => (jacobi_poly a b k)^`())).
Proof. move=> F a b N xs NOPT F0 H R. split; [exact: ojacobi_ok|exact: ojacobiD_ok]. Qed.

(** The normalised variant the docstrings offer ([NOPT = 2]) always fails for N >= 1. *)
Theorem C39_normalised_variant_raises :
  forall (F : fieldType) (a b : F) N xs, (0 < N)%N -> ojacobi N a b xs 2 = Some (Base.Err Base.TypeError).
Proof. by move=> F a b N xs H; rewrite /ojacobi /= H. Qed.

(** For the weights (1-x)^a with a natural number a, b = 0 (all that FIAT uses:
    a = 0, 1, 2) the columns of polyval are orthogonal on [-1,1]. *)
Theorem C39_rec_jacobi_orthogonal :
  forall (F : fieldType) (mu : F) (a N : nat), char_zero F -> (2 <= N)%N ->
    exists (al be : seq F) (p : nat -> {poly F}),
      [/\ rec_jacobi mu N a%:R 0 = RArrays al be,
          (forall k, (k <= N)%N -> p k \is monic /\ size (p k) = k.+1),
          (forall m n, m != n -> integral (-1) 1 ((1 - 'X) ^+ a * (p m * p n)) = 0) &
          forall xs, exists P, polyval al be xs = Base.Ok P /\ tabulates P xs N p].
Proof.
move=> F mu a N F0 N2. 
have R : jacobi_regular (a%:R : F) 0 N.
{ move=> m /andP [Hm _]. rewrite addr0 -natrD. apply: F0. by rewrite addn_gt0 (ltnW Hm). }
have [al [be [E Sa Sb Ha Hb]]] := rec_jacobiE (a%:R : F) 0 mu N2.
exists al, be, (fun k => (lead_coef (jacobi_poly a%:R 0 k))^-1 *: jacobi_poly a%:R 0 k). split=> //.
- move=> k Hk. rewrite (jacobi_monic F0 mu R Hk) lead_coefZ.
  have [M S] := mon_monic (ralpha (a%:R : F) 0) (rbeta (a%:R : F) 0 mu) k. have M' := eqP M. rewrite M' mulr1 scalerA mulVf ?scale1r //.
  exact: (lcn0 F0 R).
- move=> m n Hmn. have := jacobi_orth F0 a Hmn. rewrite /jweight => H.
  by rewrite -scalerAl -scalerAr -!scalerAr !integralZ // H !mulr0.
- move=> xs. have [al' [be' [P [[E' _ _ EP HP] _]]]] := C39_rec_jacobi_monic mu xs F0 N2 R.
  move: E' EP; rewrite E => -[<- <-] EP. by exists P.
Qed.

(** A concrete instance: the Legendre coefficients for N = 3. *)
Example C39_example : rec_jacobi (2%:R : rat) 3 0 0 = RArrays [:: 0; 0; 0] [:: 2%:R; 3%:R^-1; 4%:R / 15%:R].
Proof.
rewrite /rec_jacobi /=. by congr RArrays; congr [:: _; _; _]; apply/eqP.
Qed.
