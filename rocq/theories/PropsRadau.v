(** C46: the Gauss-Radau line rule. *)
Set Warnings "-notation-overridden,-ambiguous-paths".
From mathcomp Require Import all_ssreflect all_algebra zify.
From Verif Require Base.
From Verif Require Import FieldTac ModelJacobi SpecJacobi ProofsJacobi ProofsOrtho ProofsGaussReal ModelQuad SpecQuad ProofsQuad ProofsQuadMap PropsQuad ModelGauss SpecGauss ProofsLine ProofsRadau.
Set Implicit Arguments. Unset Strict Implicit. Unset Printing Implicit Defensive.
Import Order.TTheory GRing.Theory Num.Theory.
Local Open Scope ring_scope.

(** What the Newton iteration is after: the N zeros of P_N + P_(N+1) other than
    -1, P_n the Legendre polynomial [jacobi_poly 0 0 n] of SpecJacobi.v. *)
Definition lgr_correct (F : fieldType) (lgr : nat -> seq F) : Prop :=
  forall N, [/\ size (lgr N) = N, uniq (-1 :: lgr N) &
    forall x, x \in lgr N -> (jacobi_poly 0 0 N).[x] + (jacobi_poly 0 0 N.+1).[x] = 0].

(** The loop of l.143-155 does Newton's method for P_N + P_(N+1), and the table
    it fills holds the Legendre polynomials. *)
Section Newton.
Variable F : fieldType.
Add Field FFnw : (mc_field_theory F).
Theorem C46_newton_step :
  forall (N : nat) (x : F), char_zero F -> x != 1 ->
    let Q := jacobi_poly 0 0 N + jacobi_poly 0 0 N.+1 in
    legendre_table x N = ((jacobi_poly 0 0 N).[x], (jacobi_poly 0 0 N.+1).[x]) /\
    (Q^`().[x] != 0 -> radau_step x N = x - Q.[x] / Q^`().[x]).
Proof.
move=> N x F0 x1 Q. split; first exact: leg_table.
move=> D0. rewrite /radau_step (leg_table F0). have := radQ_der F0 N x. rewrite -/Q -/(radQ F N) -/Q => D.
have N1 : N.+1%:R != 0 :> F by exact: F0. have X1 : 1 - x != 0 by rewrite subr_eq0 eq_sym.
have E0 : (jacobi_poly 0 0 N).[x] - (jacobi_poly 0 0 N.+1).[x] = (1 - x) * Q^`().[x] / N.+1%:R by rewrite D mulrC mulKf.
rewrite E0 -hornerD -/Q. congr (_ - _). rewrite invf_div.
have K : (1 - x) * (1 - x)^-1 = 1 by rewrite divff. have K' : N.+1%:R * N.+1%:R^-1 = 1 :> F by rewrite divff.
rewrite invfM. transitivity (((1 - x) * (1 - x)^-1) * (N.+1%:R * N.+1%:R^-1) * (Q.[x] / (Q^`()).[x])); last by rewrite K K' !mul1r.
move: (1 - x) (1 - x)^-1 (N.+1%:R : F) (N.+1%:R : F)^-1 (Q.[x]) (((Q^`()).[x])^-1) => a b c d e f.
fring.
Qed.
End Newton.
Lemma mem_zip1 (T U : eqType) (xs : seq T) (ws : seq U) p : p \in zip xs ws -> p.1 \in xs /\ p.2 \in ws.
Proof.
elim: xs ws => [|x xs IH] [|w ws] //=. rewrite inE => /orP [/eqP -> /=|/IH [A B]]; first by rewrite !inE !eqxx.
by rewrite !inE A B !orbT.
Qed.
Lemma radau_ref (F : fieldType) (lgr : nat -> seq F) m right : char_zero F -> lgr_correct lgr -> (0 < m)%N ->
  exists xs ws, [/\ forall c verts, radau_line_rule lgr c verts m right = map_line_rule c verts (xs, ws),
    size xs = m /\ size ws = m, precision (integral (-1) 1) xs ws (2 * m - 2),
    (if right then last 0 xs = 1 else head 0 xs = -1) &
    exists q : {poly F}, [/\ (size q <= 2 * m)%N, \sum_(xw <- zip xs ws) xw.2 * q.[xw.1] = 0 & integral (-1) 1 q != 0]].
Proof.
move=> F0 LC. case: m => // N _. have [Sx Ux Rx] := LC N.
have LN : lgr_nodes N (lgr N). { split=> //. apply/allP => x Hx. apply/rootP. by rewrite /radQ hornerD Rx. }
have Pr := rad_ref F0 LN. rewrite /radau_line_rule /= subn1 /=. set xs := -1 :: lgr N in Pr *. set ws := _ :: _ in Pr *.
have Sxs : size xs = N.+1 by rewrite /= Sx. have Sws : size ws = N.+1 by rewrite /= size_map Sx.
have D : (2 * N.+1 - 2 = 2 * N)%N by lia. rewrite D. have [q [Sq Zq Lq]] := rad_miss F0 LN.
case: right.
- have Pr' := precision_flip F0 (etrans Sws (esym Sxs)) Pr.
  exists (rev [seq - y | y <- xs]), (rev ws). split=> //.
  + by rewrite !size_rev size_map Sxs Sws.
  + by rewrite /xs /= rev_cons last_rcons opprK.
  + exists (q \Po (- 'X)). split; last by rewrite (integral_opp F0).
    * rewrite mul2n. apply: leq_trans Sq. have N0 : -1 != 0 :> F by rewrite oppr_eq0 oner_neq0.
      rewrite -scaleN1r size_comp_poly2 //. by rewrite size_scale // size_polyX.
    * rewrite big_seq big1 // => -[x w] /mem_zip1 /= [Hx _]. rewrite horner_comp hornerN hornerX.
      rewrite mem_rev in Hx. have {}Hx : x \in [seq - y | y <- xs] := Hx. case/mapP: Hx => y Hy Ey. by rewrite Ey opprK Zq ?mulr0.
- exists xs, ws. split=> //. exists q. split=> //; first by rewrite mul2n.
  rewrite big_seq big1 // => -[x w] /mem_zip1 /= [Hx _]. by rewrite Zq ?mulr0.
Qed.
Theorem C46_radau_rule :
  forall (F : fieldType) (lgr : nat -> seq F) (c : qcell F) (verts : seq (seq F)) (m : nat) (right : bool),
    char_zero F -> lgr_correct lgr -> simplex_verts 1 verts -> (0 < m)%N ->
    exists r, [/\ radau_line_rule lgr c verts m right = Base.Ok r, q_cell r = c,
      size (q_pts r) = m /\ size (q_wts r) = m,
      (if right then last [::] (q_pts r) = [:: vtx verts 1 0] else head [::] (q_pts r) = [:: vtx verts 0 0]) &
      forall P : {poly F}, (size P <= 2 * m - 1)%N -> integrate r (fun x => P.[nth 0 x 0]) = int_interval verts P].
Proof.
move=> F lgr c verts m right F0 LC Sv Hm.
have [xs [ws [E [Sx Sw] Pr Le _]]] := radau_ref right F0 LC Hm.
have [r [E1 Ec Ep Ew Ex]] := map_line_ok F0 c Sv (etrans Sx (esym Sw)) Pr.
have h1 : 2%:R^-1 * (1 + 1) = 1 :> F by rewrite -mulr2n mulVf // (two_neq0 F0).
exists r; split=> //; rewrite ?E ?Ep ?Ew ?size_map //.
- case: right Le {E}; case: xs {Pr E1 Ep Ex} Sx Hm => [|x xs] /=; try by move=> <-.
  + by move=> _ _ El; rewrite (last_map (fun x0 : F => [:: vtx verts 0 0 + (vtx verts 1 0 - vtx verts 0 0) * (2%:R^-1 * (1 + x0))])) El h1 mulr1 addrC subrK.
  + by move=> _ _ ->; rewrite subrr !mulr0 addr0.
- move=> P SP. apply: Ex. apply: (leq_trans SP). clear -Hm. lia.
Qed.
Theorem C46_zero_points_refused :
  forall (F : fieldType) (lgr : nat -> seq F) (c : qcell F) (verts : seq (seq F)) (right : bool),
    radau_line_rule lgr c verts 0 right = Base.Err Base.AssertionError.
Proof. by []. Qed.
Theorem C46_lgr_exists : forall F : rcfType, exists lgr : nat -> seq F, lgr_correct lgr.
Proof.
move=> F. pose ok n (xs : seq F) := [&& size xs == n, uniq (-1 :: xs) & all (root (radQ F n)) xs].
have Ex n : exists xs, ok n xs by have [xs [A B C]] := lgr_exist F n; exists xs; rewrite /ok A B C eqxx.
exists (fun n => xchoose (Ex n)) => n. have /and3P [/eqP S U R] := xchooseP (Ex n). split=> // x Hx.
have /rootP := allP R _ Hx. by rewrite hornerD.
Qed.
(** Over an ordered field the weights have the sign of the interval. *)
Theorem C46_weights_positive :
  forall (F : rcfType) (lgr : nat -> seq F) (c : qcell F) (verts : seq (seq F)) (m : nat) (right : bool) r,
    lgr_correct lgr -> simplex_verts 1 verts -> vtx verts 0 0 != vtx verts 1 0 -> radau_line_rule lgr c verts m right = Base.Ok r ->
    forall w, w \in q_wts r -> 0 < w * (vtx verts 1 0 - vtx verts 0 0).
Proof.
move=> F lgr c verts m right r LC Sv V01. have F0 := @num_char0 F. case: m => // N. have [Sx Ux Rx] := LC N.
have RQ : all (root (radQ F N)) (-1 :: lgr N).
{ rewrite /= radQ_m1 //. apply/allP => x Hx. apply/rootP. by rewrite /radQ hornerD Rx. }
have Sx' : size (-1 :: lgr N) = N.+1 by rewrite /= Sx.
rewrite /radau_line_rule /= subn1 /=. set ws := (2%:R / _) :: _.
have Wp w : w \in ws -> 0 < w.
{ rewrite inE => /orP [/eqP ->|/mapP [y Hy ->]]; first by rewrite divr_gt0 ?exprn_gt0 ?ltr0n.
  apply: (rad_pos Sx' Ux RQ). by rewrite inE Hy orbT. }
have [A [b [EA DA _]]] := map1 (two_neq0 F0) Sv.
set xw := (if right then _ else _). have Hw : xw.2 =i ws by move=> w; rewrite /xw; case: right {xw}; rewrite ?mem_rev.
rewrite /map_line_rule. case: xw Hw => xs ws' /= Hw. rewrite EA /= DA /=. rewrite /quadrature_rule. case: ifP => // _ [<-] w /=.
move=> /mapP [v]. rewrite Hw => /Wp Hv ->. set d := _ - _.
have -> : 2%:R^-1 * d * v * d = 2%:R^-1 * v * d ^+ 2 by rewrite expr2 !mulrA; congr (_ * _); rewrite mulrAC.
apply: mulr_gt0; first by rewrite mulr_gt0 // invr_gt0 ltr0n. by rewrite exprn_even_gt0 //= /d subr_eq0 eq_sym.
Qed.
(** The docstring promises precision 2m-1; a rule that contains an end point has
    2m-2 only. *)
Theorem C46_docstring_degree_refuted :
  forall (F : fieldType) (lgr : nat -> seq F) (c : qcell F) (verts : seq (seq F)) (m : nat) (right : bool),
    char_zero F -> lgr_correct lgr -> simplex_verts 1 verts -> vtx verts 0 0 != vtx verts 1 0 -> (0 < m)%N ->
    exists r (P : {poly F}), [/\ radau_line_rule lgr c verts m right = Base.Ok r, (size P <= 2 * m)%N &
      integrate r (fun x => P.[nth 0 x 0]) <> int_interval verts P].
Proof.
move=> F lgr c verts m right F0 LC Sv V01 Hm.
have [xs [ws [E [Sx Sw] Pr Le [q [Sq Zq Lq]]]]] := radau_ref right F0 LC Hm.
have [r [E1 Ec Ep Ew Ex]] := map_line_ok F0 c Sv (etrans Sx (esym Sw)) Pr.
have [xs' [ws' [E' [Sx' Sw'] Pr' _ _]]] := radau_ref right F0 LC (ltn0Sn m).
have [r' [E1' Ec' Ep' Ew' Ex']] := map_line_ok F0 c Sv (etrans Sx' (esym Sw')) Pr'.
have T := two_neq0 F0. move: Ep Ew Ep' Ew'.
set v0 := vtx verts 0 0. set d := vtx verts 1 0 - v0. move=> Ep Ew Ep' Ew'.
have d0 : d != 0 by rewrite /d subr_eq0 eq_sym.
pose P := q \Po ((2%:R / d) *: ('X - v0%:P) - 1).
have EP x : P.[v0 + d * (2%:R^-1 * (1 + x))] = q.[x].
{ rewrite horner_comp hornerD hornerZ !hornerD !hornerN hornerX !hornerC. congr (q.[_]).
  rewrite [v0 + _]addrC addrK mulrA mulrA. have -> : 2%:R / d * d * 2%:R^-1 = 1 by rewrite divfK // divff. by rewrite mul1r addrC addKr. }
have It (s t : seq F) rr : q_pts rr = [seq [:: v0 + d * (2%:R^-1 * (1 + x))] | x <- s] -> q_wts rr = [seq 2%:R^-1 * d * w | w <- t] ->
  integrate rr (fun x => P.[nth 0 x 0]) = 2%:R^-1 * d * (\sum_(xw <- zip s t) xw.2 * q.[xw.1]).
{ move=> Ea Eb. rewrite /integrate Ea Eb zip_map2 big_map mulr_sumr. apply: eq_bigr => p _ /=. by rewrite EP mulrA. }
have SP : (size P <= size q)%N.
{ rewrite /P. have -> : (2%:R / d) *: ('X - v0%:P) - 1 = (- (2%:R / d * v0) - 1)%:P + (2%:R / d) *: 'X.
  { rewrite scalerBr -[_ *: v0%:P]mul_polyC -polyCM polyCB polyCN. move: (_ *: 'X) ((_ * _)%:P) => a b. by rewrite polyC1 [RHS]addrC addrA. }
  exact: size_comp_aff. }
exists r, P. split; first by rewrite E.
- exact: leq_trans SP Sq.
- rewrite (It _ _ _ Ep Ew) Zq mulr0 -Ex'; last by apply: (leq_trans SP); apply: (leq_trans Sq); clear; lia.
  rewrite (It _ _ _ Ep' Ew') Pr'; last by apply: (leq_trans Sq); clear; lia.
  move=> /esym/eqP. by rewrite !mulf_eq0 invr_eq0 (negbTE T) (negbTE d0) (negbTE Lq).
Qed.
