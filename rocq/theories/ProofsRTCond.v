(** Multiplication of the expansion functions by the last coordinate, and the
    conditioning of the rows from which the Raviart-Thomas space is built. *)
Set Warnings "-notation-overridden,-ambiguous-paths".
From mathcomp Require Import all_ssreflect all_algebra zify.
From Verif Require Base ModelCell SpecFam.
From Verif Require Import FieldTac RingTac ModelJacobi SpecJacobi ProofsJacobi ProofsOrtho
  ModelAffine ModelExpansion SpecExpansion ProofsExpIdx ProofsExpProg ProofsExpOrtho ProofsExpDeg PropsExpansion.
From Verif Require Import ModelDmats ProofsDmats ProofsDmatsCell ProofsDmatsReg ModelDual SpecDual SpecPoly ModelSpace ProofsLagLat ProofsSpace ProofsSpaceDer ProofsSpaceCell ProofsPolyClo ProofsDubiner ProofsGaussReal ProofsRTSpace.
Set Implicit Arguments. Unset Strict Implicit. Unset Printing Implicit Defensive.
Import Order.TTheory GRing.Theory Num.Theory.
Local Open Scope ring_scope.

Section Jac.
Variable R : fieldType.
Hypothesis F0 : char_zero R.
Add Field FFrtc : (mc_field_theory R).
Notation idF := [rmorphism of @idfun R].
Notation hj := (@hjac R R idF).
(** the coefficient of u in the three term recurrence *)
Definition ja (a q : nat) : R := ((2 * q + 1 + a) * (2 * q + 2 + a))%:R / (2 * (q + 1) * (q + 1 + a))%:R.
Lemma jstep a q : exists B C, forall u, hj a q.+1 u 1 = (ja a q * u + B) * hj a q u 1 - C * hj a q.-1 u 1.
Proof.
case: q => [|q].
- exists (a%:R / 2%:R), 0 => u. rewrite hjac1 // !hjac0 /= mul0r subr0 mulr1 mulr1 addrC. congr (_ * _ + _). rewrite /ja.
  have H1 : (0 + 1 + a)%:R != 0 :> R by apply: F0. have H2 : 2%:R != 0 :> R by apply: F0.
  rewrite !muln0 !add0n !muln1 !natrM !natrD in H1 H2 *. move: (a%:R : R) H1 => e H1. rewrite ?mulrS ?mulr0n in H1 H2 *. ffield. repeat split; nz.
- have E := surjective_pairing (jrc a%:R (0 : R) q.+1). rewrite (surjective_pairing (jrc a%:R (0 : R) q.+1).1) in E.
  exists (jrc a%:R (0 : R) q.+1).1.2, (jrc a%:R (0 : R) q.+1).2 => u.
  have := hjac_rec idF F0 u 1 E. rewrite /= expr1n !mulr1 => ->. congr ((_ * _ + _) * _ - _ * _).
  rewrite /jrc /= /ja. rewrite !natrM !natrD !natrM. congr (_ / _); by rewrite !addr0.
Qed.
Lemma step_alg (y A B C H h0 h1 hm v0 v1 vm : R) : A != 0 -> v1 != 0 -> vm != 0 -> h1 = (A * y + B) * h0 - C * hm ->
  y * (H * h0 * v0) = v0 / (A * v1) * (H * h1 * v1) + (- (B / A)) * (H * h0 * v0) + C * v0 / (A * vm) * (H * hm * vm).
Proof. move=> HA H1 Hm ->. ffield. repeat split; nz. Qed.
Lemma coord_alg (o sc Y P b g h Q W : R) : Y * P = b * Q + g * P + h * W -> (o + (Y + 1) * (sc / 2%:R)) * P = (sc / 2%:R * b) * Q + ((o + sc / 2%:R) + sc / 2%:R * g) * P + (sc / 2%:R * h) * W.
Proof. move=> E. move: (sc / 2%:R) => t. have -> : (o + (Y + 1) * t) * P = (o + t) * P + t * (Y * P) by fring. rewrite E. fring. Qed.

Lemma last_alg (z o t : R) : t != 0 -> z = o + ((1 + 1) / t * z + (-1 - (1 + 1) / t * o) + 1) * (t / 2%:R).
Proof. have T := two_neq0 F0. move=> Ht. rewrite mulrS mulr1n in T *. ffield. repeat split; nz. Qed.
(** the affine map of the last coordinate *)
Variable sqrt : R -> R.
Variable c : cell.
Hypothesis Hc : SpecFam.simplex c.
Notation sd := (sdim_of c).
Lemma last_coord (M : nat -> nat -> R) b : (0 < sd)%N -> (forall v j, (v <= sd)%N -> (j < sd)%N -> \sum_(k < sd) M j k * vco R c v k + b j = -1 + (1 + 1) * (v == j.+1)%:R) ->
  forall x : seq R, nth 0 x sd.-1 = org R c + ((\sum_(k < sd) M sd.-1 k * nth 0 x k + b sd.-1) + 1) * (scl R c / 2%:R).
Proof.
move=> d0 Hv x. have Hj : (sd.-1 < sd)%N by lia. have T := two_neq0 F0. have S0 := scl0 F0 c.
(* vertex 0 *)
have V0 := Hv 0%N _ isT Hj.
have E v k : (v <= sd)%N -> (k < sd)%N -> vco R c v k = org R c + scl R c * (v == k.+1)%:R by move=> *; exact: vcoE.
have HM k : (k < sd)%N -> M sd.-1 k * scl R c = (1 + 1) * (k == sd.-1)%:R.
{ move=> Hk. have Vk := Hv k.+1 _ Hk Hj. rewrite eqSS in Vk.
  have : \sum_(k0 < sd) M sd.-1 k0 * vco R c k.+1 k0 - \sum_(k0 < sd) M sd.-1 k0 * vco R c 0 k0 = M sd.-1 k * scl R c.
  { rewrite -sumrB (bigD1 (Ordinal Hk)) //= !E // eqxx mulr0 addr0 mulr1 big1 ?addr0 => [|k' Hk']; first by rewrite -mulrBr addrAC subrr add0r.
    rewrite !E // mulr0 addr0. have -> : (k.+1 == k'.+1) = false by apply/eqP => -[Ek]; case/eqP: Hk'; exact: val_inj. by rewrite mulr0 addr0 subrr. }
  move=> <-. have -> : \sum_(k0 < sd) M sd.-1 k0 * vco R c k.+1 k0 = -1 + (1 + 1) * (k == sd.-1)%:R - b sd.-1 by rewrite -Vk addrK.
  have -> : \sum_(k0 < sd) M sd.-1 k0 * vco R c 0 k0 = -1 - b sd.-1 by rewrite -[LHS](addrK (b sd.-1)) V0 /= mulr0 addr0.
  move: (_ * _) (b _) => u w. fring. }
have HM' k : (k < sd)%N -> M sd.-1 k = (1 + 1) * (k == sd.-1)%:R / scl R c by move=> Hk; rewrite -HM // mulfK.
have Es (f : nat -> R) : \sum_(k < sd) M sd.-1 k * f k = (1 + 1) / scl R c * f sd.-1.
{ rewrite (bigD1 (Ordinal Hj)) //= HM' // eqxx mulr1 big1 ?addr0 // => k Hk. rewrite HM' //. have -> : (k == sd.-1 :> nat) = false by apply/eqP => Ek; case/eqP: Hk; exact: val_inj.
  by rewrite mulr0 !mul0r. }
move: V0. rewrite (Es (fun k => vco R c 0 k)) (Es (fun k => nth 0 x k)) E // !mulr0 !addr0 => V0.
have -> : b sd.-1 = -1 - (1 + 1) / scl R c * org R c by rewrite -V0 addrAC subrr add0r.
exact: last_alg.
Qed.
End Jac.
Section Step.
Variable R : rcfType.
Notation ja := (ja R).
Lemma ja_gt0 a q : 0 < ja a q.
Proof. rewrite /ja. apply: divr_gt0; rewrite ltr0n; lia. Qed.
Lemma ja_le a q d : (q <= d)%N -> (a + 2 * q <= 2 * d + 2)%N -> (q <= a + q)%N -> ja a q <= (d + 2)%:R.
Proof.
move=> Hq Ha _. rewrite /ja ler_pdivr_mulr ?ltr0n; last by lia. rewrite -natrM ler_nat.
have H1 : (2 * q + 1 + a <= (q + 1) * (q + 1 + a))%N by nia. have H2 : (2 * q + 2 + a <= 2 * (d + 2))%N by lia. nia.
Qed.
(** sqrt of the ratio of consecutive norms *)
Lemma ratio_bound (v w d : R) : w ^+ 2 != 0 -> w ^+ 2 <= 2%:R * v ^+ 2 -> 0 < d -> 2%:R^-1 / d ^+ 2 <= (v / (d * w)) ^+ 2.
Proof.
move=> Hw H Hd. have w0 : 0 < w ^+ 2 by rewrite lt_def sqr_ge0 Hw.
have d0 : 0 < d ^+ 2 by apply: exprn_gt0.
have -> : (v / (d * w)) ^+ 2 = v ^+ 2 / w ^+ 2 / d ^+ 2 by rewrite expr_div_n exprMn invfM mulrA mulrAC.
rewrite ler_pmul2r ?invr_gt0 // ler_pdivl_mulr // mulrC ler_pdivr_mulr ?ltr0n // mulrC. exact: H.
Qed.

Lemma sum_two N (g h : R) t t' (f : nat -> R) : (t < N)%N -> (t' < N)%N -> \sum_(l < N) (g * (nat_of_ord l == t)%:R + h * (nat_of_ord l == t')%:R) * f l = g * f t + h * f t'.
Proof.
move=> Ht Ht'. under eq_bigr do rewrite mulrDl. rewrite big_split /=. 
have K u (a : R) (Hu : (u < N)%N) : \sum_(i < N) a * (nat_of_ord i == u)%:R * f i = a * f u.
{ rewrite (bigD1 (Ordinal Hu)) //= eqxx mulr1 big1 ?addr0 // => i Hi. have -> : (nat_of_ord i == u) = false by apply/eqP => E; case/eqP: Hi; exact: val_inj. by rewrite mulr0 mul0r. }
by rewrite !K.
Qed.
Variable sqrt : R -> R.
Hypothesis Hsq : sqrt_exact sqrt.
Let F0 : char_zero R := num_char0 R.
Notation idF := [rmorphism of @idfun R].
Definition last_mult (c : cell) (d : nat) (ph : nat -> seq R -> R) : Prop :=
  let Nd k := size (exps (sdim_of c) k) in
  exists (kk : nat -> nat) (be : nat -> R),
  [/\ forall t, (Nlow c d <= t < Nd d)%N -> (Nd d <= kk t < Nd d.+1)%N,
      forall t t', (Nlow c d <= t < Nd d)%N -> (Nlow c d <= t' < Nd d)%N -> kk t = kk t' -> t = t',
      forall t, (Nlow c d <= t < Nd d)%N -> (scl R c / 2%:R) ^+ 2 * (2%:R^-1 / (d + 2)%:R ^+ 2) <= be t ^+ 2 &
      forall t, (Nlow c d <= t < Nd d)%N -> exists e : nat -> R, forall x,
        nth 0 x (sdim_of c).-1 * ph t x = be t * ph (kk t) x + \sum_(l < Nd d) e l * ph l x].
Lemma sq_le_bound (s2 A v0 v1 : R) (d : nat) : 0 < A -> A <= (d + 2)%:R -> v1 ^+ 2 != 0 -> v1 ^+ 2 <= 2%:R * v0 ^+ 2 ->
  s2 ^+ 2 * (2%:R^-1 / (d + 2)%:R ^+ 2) <= (s2 * (v0 / (A * v1))) ^+ 2.
Proof.
move=> A0 AL V1 V. rewrite exprMn. apply: ler_wpmul2l; first exact: sqr_ge0. apply: le_trans (ratio_bound V1 V A0).
apply: ler_wpmul2l; first by rewrite invr_ge0 ler0n. rewrite ler_pinv ?inE ?unitfE ?exprn_gt0 ?ltr0n ?andbT ?gt_eqF ?exprn_gt0 ?ltr0n //; try by lia.
by rewrite ler_pexpn2r // ?nnegrE ?ler0n // (ltW A0).
Qed.
Lemma last2 c n d ph : SpecFam.simplex c -> sdim_of c = 2%N -> (d < n)%N ->
  (forall x, exp_table sqrt c n x = Ok [seq ph k x | k <- iota 0 (size (exps (sdim_of c) n))]) -> last_mult c d ph.
Proof.
move=> Hc Hd Hdn Ht. have n0 : (0 < n)%N by lia. have d0 : (0 < sdim_of c)%N by rewrite Hd.
have [M [b [E Hv]]] := exp_map_ok F0 Hc. have LC := last_coord F0 Hc d0 Hv. rewrite Hd /= in LC.
pose X (i : nat) (x : seq R) := M i 0%N * nth 0 x 0 + M i 1%N * nth 0 x 1 + b i.
have HL x : nth 0 x 1 = org R c + (X 1%N x + 1) * (scl R c / 2%:R) by rewrite LC !big_ord_recl big_ord0 /= addr0.
have HP x p q : (p + q <= n)%N -> ph (tri_idx p q) x = triVS idF sqrt (X 0%N x) (X 1%N x) (p, q).
{ move=> Hpq. have := Ht x. rewrite /exp_table E bindE Hd size_exps2 /tri_table /=.
  have [s [-> [Ss Hs]]] := tri_tabulate_ok idF sqrt F0 M b [:: nth 0 x 0; nth 0 x 1] n0.
  have HN := tri_idx_lt Hpq.
  rewrite !bindE (full_ok (f := fun k => triVS idF sqrt (X 0%N x) (X 1%N x) (tdec n k)) Ss).
  - move=> [/(congr1 (fun l => nth 0 l (tri_idx p q)))]. rewrite !nth_map_iota // tdec_idx // => <-.
  - move=> k Hk. have [D Ek] := tdec_ok Hk. have := Hs (tdec n k) D. rewrite /trii Ek => ->. rewrite /= /rng /= !big_cons !big_nil !addr0. by []. }
have NS p q : tri_norm sqrt p q ^+ 2 = (p%:R + 2%:R^-1) * ((p + q)%:R + 1) by rewrite expr2 (tri_norm_sq F0 Hsq) natrD.
have N0 p q : tri_norm sqrt p q != 0.
{ have : tri_norm sqrt p q ^+ 2 != 0; last by rewrite expf_eq0. rewrite NS mulf_neq0 // gt_eqF // ltr_paddl ?ler0n ?invr_gt0 ?ltr0n ?ltr01 //. }
have Nl : Nlow c d = T2 d by rewrite /Nlow Hd; case: (d) => // d'; rewrite size_exps2 tri_numE.
pose kk t := tri_idx (tdec n t).1 (tdec n t).2.+1.
pose be t := scl R c / 2%:R * (tri_norm sqrt (tdec n t).1 (tdec n t).2 / (ja (2 * (tdec n t).1 + 1) (tdec n t).2 * tri_norm sqrt (tdec n t).1 (tdec n t).2.+1)).
have HT t : (Nlow c d <= t < size (exps (sdim_of c) d))%N -> exists p q, [/\ (p + q = d)%N, tdec n t = (p, q) & tri_idx p q = t].
{ rewrite Nl Hd size_exps2 => /andP [L1 L2]. have [p [q [Hpq Et]]] := tri_idx_surj L2. exists p, q. split=> //; last by rewrite -Et tdec_idx //; lia.
  move: Hpq. rewrite leq_eqVlt => /orP [/eqP //|Hlt]. move: L1. rewrite -Et tri_idxE. have := T2_le Hlt. rewrite T2S. lia. }
exists kk, be. split.
- move=> t Hr. have [p [q [D1 D2 D3]]] := HT t Hr. rewrite /kk D2 /= Hd !size_exps2 !tri_numE tri_idxE. have -> : (p + q.+1)%N = d.+1 by lia. rewrite !T2S. lia.
- move=> t t' Hr Hr'. have [p [q [D1 D2 D3]]] := HT t Hr. have [p' [q' [D1' D2' D3']]] := HT t' Hr'. rewrite /kk D2 D2' /= => /tri_idx_inj [Ep [Eq]]. by rewrite -D3 -D3' Ep Eq.
- move=> t Hr. have [p [q [D1 D2 D3]]] := HT t Hr. rewrite /be D2 /=. apply: sq_le_bound; [exact: ja_gt0|apply: ja_le; lia|by rewrite expf_neq0|].
  rewrite !NS mulrCA. apply: ler_wpmul2l; first by rewrite addr_ge0 ?ler0n ?invr_ge0 ?ler0n. have G k : k%:R + 1 = k.+1%:R :> R by rewrite -addn1 natrD. rewrite !G -natrM ler_nat. lia.
- move=> t Hr. have [p [q [D1 D2 D3]]] := HT t Hr. have [B [C HJ]] := jstep F0 (2 * p + 1) q.
  pose A := ja (2 * p + 1) q. have A0 : A != 0 by rewrite gt_eqF ?ja_gt0.
  pose g := - (B / A). pose h := C * tri_norm sqrt p q / (A * tri_norm sqrt p q.-1).
  have HN u v : (u + v <= d)%N -> (tri_idx u v < size (exps (sdim_of c) d))%N by move=> H; rewrite Hd size_exps2; exact: tri_idx_lt.
  exists (fun l => ((org R c + scl R c / 2%:R) + scl R c / 2%:R * g) * (l == t)%:R + (scl R c / 2%:R * h) * (l == tri_idx p q.-1)%:R) => x.
  rewrite (@sum_two _ _ _ t _ (fun l => ph l x)); [|by case/andP: Hr|by apply: HN; lia].
  rewrite Hd HL /be /kk D2 addrA. apply: coord_alg.
  rewrite -D3 !HP /=; try by lia. rewrite /triVS /triV /=. apply: step_alg => //; exact: HJ.
Qed.

Lemma last3 c n d ph : SpecFam.simplex c -> sdim_of c = 3%N -> (d < n)%N ->
  (forall x, exp_table sqrt c n x = Ok [seq ph k x | k <- iota 0 (size (exps (sdim_of c) n))]) -> last_mult c d ph.
Proof.
move=> Hc Hd Hdn Ht. have n0 : (0 < n)%N by lia. have d0 : (0 < sdim_of c)%N by rewrite Hd.
have [M [b [E Hv]]] := exp_map_ok F0 Hc. have LC := last_coord F0 Hc d0 Hv. rewrite Hd /= in LC.
pose X (i : nat) (x : seq R) := M i 0%N * nth 0 x 0 + (M i 1%N * nth 0 x 1 + M i 2%N * nth 0 x 2) + b i.
have HL x : nth 0 x 2 = org R c + (X 2%N x + 1) * (scl R c / 2%:R) by rewrite LC !big_ord_recl big_ord0 /= addr0.
have HP x p q r : (p + q + r <= n)%N -> ph (tet_idx p q r) x = tetVS idF sqrt (X 0%N x) (X 1%N x) (X 2%N x) (p, q, r).
{ move=> Hpq. have := Ht x. rewrite /exp_table E bindE Hd size_exps3 /tet_table /=.
  have [s [-> [Ss Hs]]] := tet_tabulate_ok idF sqrt F0 M b [:: nth 0 x 0; nth 0 x 1; nth 0 x 2] n0.
  have HN := tet_idx_lt Hpq.
  rewrite !bindE (full_ok (f := fun k => tetVS idF sqrt (X 0%N x) (X 1%N x) (X 2%N x) (sdec n k)) Ss).
  - move=> [/(congr1 (fun l => nth 0 l (tet_idx p q r)))]. rewrite !nth_map_iota // sdec_idx // => <-.
  - move=> k Hk. have [D Ek] := sdec_ok Hk. have := Hs (sdec n k) D. rewrite /teti Ek => ->. rewrite /= /rng /= !big_cons !big_nil !addr0. by []. }
have NS p q r : tet_norm sqrt p q r ^+ 2 = (p%:R + 2%:R^-1) * (p%:R + q%:R + 1) * ((p + q + r)%:R + (1 + 2%:R^-1)) by rewrite expr2 (tet_norm_sq F0 Hsq) !natrD.
have N0 p q r : tet_norm sqrt p q r != 0.
{ have : tet_norm sqrt p q r ^+ 2 != 0; last by rewrite expf_eq0. have h0 : 0 < 2%:R^-1 :> R by rewrite invr_gt0 ltr0n.
  rewrite NS !mulf_neq0 // gt_eqF // ltr_paddl ?addr_ge0 ?ler0n ?ltr01 // addr_gt0 ?ltr01 //. }
have Nl : Nlow c d = T3 d by rewrite /Nlow Hd; case: (d) => // d'; rewrite size_exps3 tet_numE.
pose P t := (sdec n t).1.1. pose Q t := (sdec n t).1.2. pose Rr t := (sdec n t).2.
pose kk t := tet_idx (P t) (Q t) (Rr t).+1.
pose be t := scl R c / 2%:R * (tet_norm sqrt (P t) (Q t) (Rr t) / (ja (2 * P t + 2 * Q t + 2) (Rr t) * tet_norm sqrt (P t) (Q t) (Rr t).+1)).
have HT t : (Nlow c d <= t < size (exps (sdim_of c) d))%N -> exists p q r, [/\ (p + q + r = d)%N, [/\ P t = p, Q t = q & Rr t = r] & tet_idx p q r = t].
{ rewrite Nl Hd size_exps3 => /andP [L1 L2]. have [p [q [r [Hpq Et]]]] := tet_idx_surj L2. exists p, q, r.
  have Es : sdec n t = (p, q, r) by rewrite -Et sdec_idx //; lia. rewrite /P /Q /Rr Es. split=> //.
  move: Hpq. rewrite leq_eqVlt => /orP [/eqP //|Hlt]. move: L1. have := tet_idx_lt (leqnn (p + q + r)). rewrite -Et tet_numE. have := T3_le Hlt. lia. }
exists kk, be. split.
- move=> t Hr. have [p [q [r [D1 [D2 D3 D4] D5]]]] := HT t Hr. rewrite /kk D2 D3 D4 /= Hd !size_exps3 !tet_numE.
  have H1 : (p + q + r.+1 <= d.+1)%N by lia. have := tet_idx_lt H1. rewrite tet_numE tet_idxE. have -> : (p + q + r.+1)%N = d.+1 by lia. lia.
- move=> t t' Hr Hr'. have [p [q [r [D1 [D2 D3 D4] D5]]]] := HT t Hr. have [p' [q' [r' [D1' [D2' D3' D4'] D5']]]] := HT t' Hr'.
  rewrite /kk D2 D3 D4 D2' D3' D4' /= => /tet_idx_inj [Ep [Eq [Er]]]. by rewrite -D5 -D5' Ep Eq Er.
- move=> t Hr. have [p [q [r [D1 [D2 D3 D4] D5]]]] := HT t Hr. rewrite /be D2 D3 D4 /=. apply: sq_le_bound; [exact: ja_gt0|apply: ja_le; lia|by rewrite expf_neq0|].
  rewrite !NS mulrCA. have h0 : 0 < 2%:R^-1 :> R by rewrite invr_gt0 ltr0n. apply: ler_wpmul2l; first by rewrite mulr_ge0 ?addr_ge0 ?ler0n ?ler01 ?(ltW h0).
  rewrite addnS -[(p + q + r).+1]addn1 natrD mulrDr. set u : R := (p + q + r)%:R. have u0 : 0 <= u by rewrite /u ler0n.
  have -> : u + 1 + (1 + 2%:R^-1) = u + (1 + (1 + 2%:R^-1)) by rewrite -addrA. apply: ler_add; first by rewrite ler_pemull // ler1n.
  rewrite mulrDr divff ?pnatr_eq0 // mulr1 addrA. have -> : (1 + 1 : R) = 2%:R by []. rewrite ler_add2l. by rewrite invf_le1 ?ltr0n // ler1n.
- move=> t Hr. have [p [q [r [D1 [D2 D3 D4] D5]]]] := HT t Hr. have [B [C HJ]] := jstep F0 (2 * p + 2 * q + 2) r.
  pose A := ja (2 * p + 2 * q + 2) r. have A0 : A != 0 by rewrite gt_eqF ?ja_gt0.
  pose g := - (B / A). pose h := C * tet_norm sqrt p q r / (A * tet_norm sqrt p q r.-1).
  have HN u v w : (u + v + w <= d)%N -> (tet_idx u v w < size (exps (sdim_of c) d))%N by move=> H; rewrite Hd size_exps3; exact: tet_idx_lt.
  exists (fun l => ((org R c + scl R c / 2%:R) + scl R c / 2%:R * g) * (l == t)%:R + (scl R c / 2%:R * h) * (l == tet_idx p q r.-1)%:R) => x.
  rewrite (@sum_two _ _ _ t _ (fun l => ph l x)); [|by case/andP: Hr|by apply: HN; lia].
  rewrite Hd HL /be /kk D2 D3 D4 addrA. apply: coord_alg.
  rewrite -D5 !HP /=; try by lia. rewrite /tetVS /tetV /=. apply: step_alg => //; exact: HJ.
Qed.
Lemma last_ok c n d ph : SpecFam.simplex c -> (2 <= sdim_of c)%N -> (d < n)%N ->
  (forall x, exp_table sqrt c n x = Ok [seq ph k x | k <- iota 0 (size (exps (sdim_of c) n))]) -> last_mult c d ph.
Proof.
move=> Hc Hd Hn. have [_ [_ Hd1]] := simplex_dim Hc. case: (sdim_of c =P 2%N) => [E|E]; first exact: last2. apply: last3 => //. lia.
Qed.
End Step.
