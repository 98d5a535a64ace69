(** Polynomials in two variables that vanish to second order on the sides of a
    triangle. *)
Set Warnings "-notation-overridden,-ambiguous-paths".
From mathcomp Require Import all_ssreflect all_algebra zify.
From Verif Require Import FieldTac SpecJacobi ModelDual SpecDual ProofsDmatsReg SpecPoly ProofsJacobi ProofsSpace ProofsPolyClo ProofsLagLat ProofsRestr.
Set Implicit Arguments. Unset Strict Implicit. Unset Printing Implicit Defensive.
Import GRing.Theory.
Local Open Scope ring_scope.

Section Uni.
Variable F : fieldType.
Hypothesis F0 : char_zero F.
Add Field FFc1 : (mc_field_theory F).
Lemma poly_all0 (P : {poly F}) : (forall t, P.[t] = 0) -> P = 0.
Proof.
move=> H. apply/eqP. apply: contraT => P0. have := @max_poly_roots F P [seq i%:R | i <- iota 0 (size P)] P0.
rewrite size_map size_iota ltnn. apply.
- apply/allP => z _. by apply/rootP.
- rewrite map_inj_uniq ?iota_uniq //. move=> i j. exact: natr_inj.
Qed.
Lemma line_poly sd k f (x d : seq F) : is_poly sd k f -> exists P : {poly F}, (size P <= k.+1)%N /\ forall t, P.[t] = f (along sd x d t).
Proof.
move=> [cf Hf]. exists (lpoly sd k cf x d (nseq sd 0%N)). split=> [|t]; last by rewrite lpoly_val Hf // size_mkseq.
apply: (leq_trans (lpoly_size _ _ _ _ _ _)). by rewrite ltnS leq_subr.
Qed.

(** a side: [lam] vanishes on the points [E a]; [dir] leads away from it *)
Record side := mkSide { lam : seq F -> F; E0 : seq F; dE : seq F; dir : seq F }.
Definition E (S : side) (a : F) : seq F := along 2 (E0 S) (dE S) a.
Definition good_side (S : side) : Prop :=
  [/\ is_poly 2 1 (lam S), forall a t, lam S (along 2 (E S a) (dir S) t) = t, forall y, size y = 2%N -> lam S y = 0 -> exists a, y = E S a &
    forall k g, is_poly 2 k g -> (forall y, size y = 2%N -> lam S y = 0 -> g y = 0) ->
    exists g', [/\ is_poly 2 k.-1 g', k = 0%N -> forall y, size y = 2%N -> g' y = 0 & forall y, size y = 2%N -> g y = lam S y * g' y]].

Lemma side_div S km k m g a0 : is_poly 2 km m -> is_poly 2 k g -> (forall a, m (E S a) * g (E S a) = 0) -> m (E S a0) != 0 -> forall a, g (E S a) = 0.
Proof.
move=> Hm Hg H Ha0 a. have [M [_ EM]] := line_poly (E0 S) (dE S) Hm. have [G [_ EG]] := line_poly (E0 S) (dE S) Hg.
have : M * G = 0 by apply: poly_all0 => t; rewrite hornerM EM EG; exact: H.
move/eqP. rewrite mulf_eq0 => /orP [/eqP M0|/eqP G0]; first by move: Ha0; rewrite -[E S a0]/(along _ _ _ _) -EM M0 horner0 eqxx.
by rewrite -[E S a]/(along _ _ _ _) -EG G0 horner0.
Qed.

Section Step.
Variables (q : nat) (f : seq F -> F).
Hypothesis Hf : is_poly 2 q f.
(** [f] is [m] times a polynomial of degree [q - j] *)
Definition fac (m : seq F -> F) (j : nat) : Prop := (forall y, size y = 2%N -> f y = 0) \/
  exists k g, [/\ (k + j = q)%N, is_poly 2 k g & forall y, size y = 2%N -> f y = m y * g y].
Lemma fac_step S m j : good_side S -> fac m j ->
  (forall k g, is_poly 2 k g -> (forall y, size y = 2%N -> f y = m y * g y) -> forall a, g (E S a) = 0) -> fac (fun y => lam S y * m y) j.+1.
Proof.
move=> [_ _ HE HD] [H|[k [g [Hk Hg Efg]]]] HV; first by left. have HV' := HV k g Hg Efg.
have [|g' [G1 G2 G3]] := HD k g Hg; first by move=> y Sy Ly; have [a ->] := HE y Sy Ly.
case: (posnP k) => [k0|kpos].
- left=> y Sy. by rewrite Efg // G3 // (G2 k0) // !mulr0.
- right. exists k.-1, g'. split=> //; first lia. move=> y Sy. rewrite Efg // G3 //. by rewrite mulrA [m y * _]mulrC.
Qed.
(** [f] vanishes to second order on the side *)
Definition flat_on (S : side) : Prop := (forall a, f (E S a) = 0) /\
  forall a, exists P : {poly F}, (forall t, P.[t] = f (along 2 (E S a) (dir S) t)) /\ P^`().[0] = 0.
Lemma along0 x d : size x = 2%N -> along 2 x d 0 = x :> seq F.
Proof. move=> Sx. apply: (@eq_from_nth _ 0) => [|i]; rewrite size_mkseq // => Hi. by rewrite nth_mkseq // mul0r addr0. Qed.
Lemma size_E S a : size (E S a) = 2%N. Proof. by rewrite size_mkseq. Qed.
Lemma fac_two S m j km a0 : good_side S -> flat_on S -> is_poly 2 km m -> m (E S a0) != 0 -> fac m j -> fac (fun y => lam S y * (lam S y * m y)) j.+2.
Proof.
move=> HS [H1 H2] Hm Ha0 Hfac. have [L1 L2 L3 L4] := HS.
apply: fac_step => //.
- apply: fac_step => // k g Hg Efg. apply: (side_div Hm Hg _ Ha0) => a. by rewrite -Efg ?H1 // size_E.
- move=> k g Hg Efg. apply: (side_div Hm Hg _ Ha0) => a. have [P [EP DP]] := H2 a.
  have [M [_ EM]] := line_poly (E S a) (dir S) Hm. have [G [_ EG]] := line_poly (E S a) (dir S) Hg.
  have EPX : P = 'X * (M * G).
  { apply/eqP. rewrite -subr_eq0. apply/eqP. apply: poly_all0 => t. rewrite hornerD hornerN !hornerM hornerX EP EM EG Efg ?size_mkseq // L2. by rewrite mulrA subrr. }
  move: DP. rewrite EPX derivM derivX mul1r hornerD !hornerM hornerX mul0r addr0 EM EG along0 ?size_E //.
Qed.
End Step.

(** the sides of the triangle with vertices (o,o), (o+s,o), (o,o+s) *)
Variables (o s : F).
Hypothesis s0 : s != 0.
Definition lam1 (y : seq F) : F := (nth 0 y 0 - o) / s.
Definition lam2 (y : seq F) : F := (nth 0 y 1 - o) / s.
Definition lam0 (y : seq F) : F := 1 - lam1 y - lam2 y.
Definition half : F := s / 2%:R.
Definition side1 := mkSide lam1 [:: o; 0] [:: 0; 1] [:: s; 0].
Definition side2 := mkSide lam2 [:: 0; o] [:: 1; 0] [:: 0; s].
Definition side0 := mkSide lam0 [:: 0; s + 2%:R * o] [:: 1; -1] [:: - half; - half].
Lemma pt2 (y : seq F) : size y = 2%N -> y = [:: nth 0 y 0; nth 0 y 1].
Proof. by case: y => [|a [|b []]]. Qed.
Lemma poly_lam1 : is_poly 2 1 lam1.
Proof.
apply: (@is_poly_ext _ _ _ (fun y => s^-1 * (nth 0 y 0 - o))) => [y _|]; first by rewrite mulrC.
apply: is_poly_scale. apply: is_polyB; [exact: is_poly_coord|exact: is_poly_const].
Qed.
Lemma poly_lam2 : is_poly 2 1 lam2.
Proof.
apply: (@is_poly_ext _ _ _ (fun y => s^-1 * (nth 0 y 1 - o))) => [y _|]; first by rewrite mulrC.
apply: is_poly_scale. apply: is_polyB; [exact: is_poly_coord|exact: is_poly_const].
Qed.
Lemma poly_lam0 : is_poly 2 1 lam0.
Proof. apply: is_polyB; last exact: poly_lam2. apply: is_polyB; [exact: is_poly_const|exact: poly_lam1]. Qed.
Lemma good1 : good_side side1.
Proof.
split=> [|a t|y Sy /eqP|k g Hg H0]; first exact: poly_lam1.
- rewrite /= /lam1 /E /along /=. have := s0 => S0. ffield. nz.
- rewrite /= /lam1 mulf_eq0 invr_eq0 (negbTE s0) orbF subr_eq0 => /eqP Ey. exists (nth 0 y 1). rewrite [LHS]pt2 // Ey /E /along /mkseq /=. by rewrite mulr0 addr0 mulr1 add0r.
- have [|g' [G1 G2 G3]] := is_poly_div (sd := 2) (i := 0%N) (o := o) isT Hg; first by move=> y Sy Ey; apply: H0 => //; rewrite /= /lam1 Ey subrr mul0r.
  exists (fun y => s * g' y). split; [exact: is_poly_scale|by move=> k0 y Sy; rewrite G2 // mulr0|]. move=> y Sy. by rewrite G3 //= /lam1 mulrA divfK.
Qed.
Lemma good2 : good_side side2.
Proof.
split=> [|a t|y Sy /eqP|k g Hg H0]; first exact: poly_lam2.
- rewrite /= /lam2 /E /along /=. have := s0 => S0. ffield. nz.
- rewrite /= /lam2 mulf_eq0 invr_eq0 (negbTE s0) orbF subr_eq0 => /eqP Ey. exists (nth 0 y 0). rewrite [LHS]pt2 // Ey /E /along /mkseq /=. by rewrite mulr0 addr0 mulr1 add0r.
- have [|g' [G1 G2 G3]] := is_poly_div (sd := 2) (i := 1%N) (o := o) isT Hg; first by move=> y Sy Ey; apply: H0 => //; rewrite /= /lam2 Ey subrr mul0r.
  exists (fun y => s * g' y). split; [exact: is_poly_scale|by move=> k0 y Sy; rewrite G2 // mulr0|]. move=> y Sy. by rewrite G3 //= /lam2 mulrA divfK.
Qed.
Definition swap (y : seq F) : seq F := [:: 3%:R * o + s - nth 0 y 0 - nth 0 y 1; nth 0 y 1].
Lemma good0 : good_side side0.
Proof.
have T2 : 1 + 1 != 0 :> F by exact: (F0 (m := 2%N) isT).
split=> [|a t|y Sy /eqP|k g Hg H0]; first exact: poly_lam0.
- rewrite /= /lam0 /lam1 /lam2 /E /along /half /= -[2%:R]/(1 + 1 : F). have := s0 => S0. ffield. repeat split; nz.
- rewrite /= => /eqP Ey. exists (nth 0 y 0). rewrite [LHS]pt2 // /E /along /mkseq /= mulr1 add0r. congr [:: _; _]. 
  have E1 : nth 0 y 0 + nth 0 y 1 = s + 2%:R * o.
  { have : s * lam0 y = 0 by rewrite Ey mulr0. rewrite /lam0 /lam1 /lam2 => H. have : s * 1 = (nth 0 y 0 - o) + (nth 0 y 1 - o).
    { apply/eqP. rewrite -subr_eq0. apply/eqP. rewrite -[RHS]H. have := s0 => S0. ffield. nz. }
    move=> H1. have -> : s + 2%:R * o = s * 1 + (o + o) by rewrite mulr1 -[2%:R]/(1 + 1 : F); fring. rewrite H1. fring. }
  by rewrite -E1 mulrN1 addrAC subrr add0r.
- have Hs : is_poly 2 k (fun y => g (swap y)).
  { apply: (is_poly_comp Hg) => // i Hi. case: i Hi => [|[|i]] //= _; last exact: is_poly_coord.
    apply: is_polyB; last exact: is_poly_coord. apply: is_polyB; [exact: is_poly_const|exact: is_poly_coord]. }
  have Sl y : lam0 (swap y) = (nth 0 y 0 - o) / s. { rewrite /lam0 /lam1 /lam2 /= -[3%:R]/(1 + (1 + 1) : F). have := s0 => S0. ffield. nz. }
  have SS y : size y = 2%N -> swap (swap y) = y. { move=> Sy. rewrite [RHS]pt2 // /swap /=. congr [:: _; _]. fring. }
  have [|g' [G1 G2 G3]] := is_poly_div (sd := 2) (i := 0%N) (o := o) isT Hs; first by move=> y Sy Ey; apply: H0 => //; rewrite /= Sl Ey subrr mul0r.
  exists (fun y => s * g' (swap y)). split.
  + apply: is_poly_scale. apply: (is_poly_comp G1) => // i Hi. case: i Hi => [|[|i]] //= _; last exact: is_poly_coord.
    apply: is_polyB; last exact: is_poly_coord. apply: is_polyB; [exact: is_poly_const|exact: is_poly_coord].
  + move=> k0 y Sy. by rewrite G2 // mulr0.
  + move=> y Sy. rewrite -{1}(SS y Sy) G3 // mulrA. congr (_ * _). rewrite /= -[in RHS](SS y Sy) Sl divfK //.
Qed.
(** a polynomial that is flat on the three sides *)
Lemma E1at a : E side1 a = [:: o; a].
Proof. by rewrite /E /along /mkseq /= mulr0 mulr1 addr0 add0r. Qed.
Lemma E2at a : E side2 a = [:: a; o].
Proof. by rewrite /E /along /mkseq /= mulr0 mulr1 addr0 add0r. Qed.
Lemma E0at a : E side0 a = [:: a; s + 2%:R * o - a].
Proof. by rewrite /E /along /mkseq /= mulrN1 mulr1 add0r. Qed.
Definition bub (y : seq F) : F := lam0 y * (lam0 y * (lam2 y * (lam2 y * (lam1 y * (lam1 y * 1))))).
Lemma flat_fac q f : is_poly 2 q f -> flat_on f side1 -> flat_on f side2 -> flat_on f side0 -> fac q f bub 6.
Proof.
move=> Hf F1 F2 F0'. have T2 : 2%:R != 0 :> F by exact: (F0 (m := 2%N) isT).
have P1 : is_poly 2 0 (fun _ : seq F => 1 : F) by exact: is_poly_const.
have P2 : is_poly 2 2 (fun y => lam1 y * (lam1 y * 1)).
{ apply: (is_poly_mul (k := 1) (l := 1)); first exact: poly_lam1. apply: (is_poly_mul (k := 1) (l := 0)) => //. exact: poly_lam1. }
have P4 : is_poly 2 4 (fun y => lam2 y * (lam2 y * (lam1 y * (lam1 y * 1)))).
{ apply: (is_poly_mul (k := 1) (l := 3)); first exact: poly_lam2. apply: (is_poly_mul (k := 1) (l := 2)) => //. exact: poly_lam2. }
have X0 : fac q f (fun _ => 1) 0.
{ right. exists q, f. split=> //; [by rewrite addn0|by move=> y _; rewrite mul1r]. }
have X2 := fac_two (a0 := o) good1 F1 P1 (oner_neq0 _) X0.
have N2 : lam1 (E side2 (o + s)) * (lam1 (E side2 (o + s)) * 1) != 0.
{ by rewrite E2at /lam1 /= addrAC subrr add0r divff // !mulr1 oner_neq0. }
have X4 := fac_two good2 F2 P2 N2 X2.
have N4 : lam2 (E side0 (o + half)) * (lam2 (E side0 (o + half)) * (lam1 (E side0 (o + half)) * (lam1 (E side0 (o + half)) * 1))) != 0.
{ have H1 : lam1 (E side0 (o + half)) = 2%:R^-1 by rewrite E0at /lam1 /= addrAC subrr add0r /half mulrAC divff // mul1r.
  have H2 : lam2 (E side0 (o + half)) = 2%:R^-1.
  { rewrite E0at /lam2 /= /half. have T2' : 1 + 1 != 0 :> F by exact: T2. have := s0 => S0. rewrite -[2%:R]/(1 + 1 : F). ffield. repeat split; nz. }
  by rewrite H1 H2 mulr1 !mulf_neq0 // invr_eq0. }
exact: (fac_two good0 F0' P4 N4 X4).
Qed.
(** and zero at enough interior lattice points *)
Lemma flat_zero q f : is_poly 2 q f -> (5 <= q)%N -> flat_on f side1 -> flat_on f side2 -> flat_on f side0 ->
  (forall i j, (i + j + 6 <= q)%N -> f [:: o + s * i.+1%:R / (q - 3)%:R; o + s * j.+1%:R / (q - 3)%:R] = 0) -> forall y, size y = 2%N -> f y = 0.
Proof.
move=> Hf Hq F1 F2 F0' Hin. case: (flat_fac Hf F1 F2 F0') => // -[k [g [Hk Hg Efg]]].
pose gp j := o + s * j.+1%:R / (q - 3)%:R. have N3 : (q - 3)%:R != 0 :> F by apply: F0; lia.
have gpi : injective gp.
{ move=> i j /addrI/(congr1 ( *%R^~ (q - 3)%:R)). rewrite !divfK // => /(mulfI s0) H. have := natr_inj F0 H. lia. }
have G0 : forall y, size y = 2%N -> g y = 0.
{ apply: (@is_poly_grid F 2 k g gp isT gpi Hg) => -[|i [|j []]] //= _. rewrite addn0 => Hs.
  have : f [:: gp i; gp j] = 0 by apply: Hin; lia. rewrite Efg // => /eqP. rewrite mulf_eq0 => /orP [|/eqP //] /eqP B0. exfalso. move/eqP: B0. apply/negP.
  have L1 : lam1 [:: gp i; gp j] = i.+1%:R / (q - 3)%:R by rewrite /lam1 /gp /= addrAC subrr add0r mulrC !mulrA mulVf // mul1r.
  have L2 : lam2 [:: gp i; gp j] = j.+1%:R / (q - 3)%:R by rewrite /lam2 /gp /= addrAC subrr add0r mulrC !mulrA mulVf // mul1r.
  have L0 : lam0 [:: gp i; gp j] = (q - 3 - i.+1 - j.+1)%:R / (q - 3)%:R.
  { rewrite /lam0 L1 L2 -[X in X - _ - _](divff N3) -!mulrBl. congr (_ / _). rewrite [in RHS]natrB; last lia. by rewrite [in RHS]natrB //; lia. }
  rewrite /bub L0 L1 L2 mulr1. repeat (apply: mulf_neq0; first by apply: mulf_neq0; rewrite ?invr_eq0 //; apply: F0; lia). apply: mulf_neq0; rewrite ?invr_eq0 //; apply: F0; lia. }
move=> y Sy. by rewrite Efg // G0 // mulr0.
Qed.
End Uni.
