(** C44: [lobatto] of orthopoly.py. *)
Set Warnings "-notation-overridden,-ambiguous-paths".
From mathcomp Require Import all_ssreflect all_algebra zify.
From Verif Require Base.
From Verif Require Import FieldTac ModelJacobi SpecJacobi ProofsJacobi ProofsOrtho ModelOrthopoly ProofsOrthopoly ProofsGauss ProofsGaussReal ModelGauss SpecGauss ProofsGW ProofsGaussRule ProofsEigh PropsGauss ProofsLobatto.
Set Implicit Arguments. Unset Strict Implicit. Unset Printing Implicit Defensive.
Import Order.TTheory GRing.Theory Num.Theory.
Local Open Scope ring_scope.

Section Alg.
Variable F : rcfType.
Add Field FFa : (mc_field_theory F).
Lemma set_last_nth (v : seq F) a k : (0 < size v)%N -> nth 0 (set_last v a) k = if k == (size v).-1 then a else nth 0 v k.
Proof. move=> S. by rewrite /set_last nth_set_nth /= . Qed.
Lemma set_last_size (v : seq F) a : (0 < size v)%N -> size (set_last v a) = size v.
Proof. move=> S. rewrite /set_last size_set_nth prednK //. exact/maxn_idPr. Qed.
Lemma solve2 (g1 g2 x1 x2 : F) : g1 != g2 ->
  let C : 'M[F]_2 := \matrix_(i, j) nth 0 (nth [::] [:: [:: 1; - g1]; [:: 1; - g2]] i) j in
  let xl : 'cV[F]_2 := \col_i nth 0 [:: x1; x2] i in
  exists ab : 'cV[F]_2, [/\ np_solve C xl = Base.Ok ab, ab 0 0 - g1 * ab 1 0 = x1 & ab 0 0 - g2 * ab 1 0 = x2].
Proof.
move=> Hg C xl. have U : C \in unitmx.
{ rewrite unitmxE unitfE (expand_det_row _ ord0) !big_ord_recl big_ord0 /cofactor !det_mx11 !mxE /= !expr0 !mul1r addr0.
  rewrite /bump /= expr1 mulr1 mulrN1 opprK addrC subr_eq0 //. }
rewrite /np_solve U. exists (invmx C *m xl). have E : C *m (invmx C *m xl) = xl by rewrite mulKVmx.
split=> //.
- have := congr1 (fun X : 'cV_2 => X 0 0) E. rewrite mxE !big_ord_recl big_ord0 [C _ _]mxE [C _ _]mxE [xl _ _]mxE /= mul1r mulNr addr0.
  rewrite (_ : lift ord0 ord0 = 1 :> 'I_2) //. exact: val_inj.
- have := congr1 (fun X : 'cV_2 => X 1 0) E. rewrite mxE !big_ord_recl big_ord0 [C _ _]mxE [C _ _]mxE [xl _ _]mxE /= mul1r mulNr addr0.
  rewrite (_ : lift ord0 ord0 = 1 :> 'I_2) //. exact: val_inj.
Qed.
Lemma lob_root (a b x p q g : F) : p != 0 -> g = - q / p -> a - g * b = x -> (x - a) * p - b * q = 0.
Proof. move=> P -> <-. ffield. nz. Qed.
Lemma dif_alg (a b u v : F) : (u - v) * b = (a - v * b) - (a - u * b).
Proof. fring. Qed.
Lemma sgn_alg (s a b : F) : s != 0 -> b != 0 -> - a / b = (s * a) / (- 1 * s * b).
Proof. move=> S B. by rewrite mulN1r [- s * b]mulNr invrN mulrN -mulf_div divff // mul1r mulNr. Qed.
End Alg.

Lemma nat_a k n : (0 < k <= n.+1)%N -> k != n.+1 -> (k < n.+1)%N. Proof. lia. Qed.
Lemma nat_b j k n : (j < k <= n.+1)%N -> (j <= n.+2)%N /\ (k <= n.+2)%N. Proof. lia. Qed.
Lemma nat_c n : ((2 * n.+2 - 3).+1 <= n.+2 + n)%N. Proof. lia. Qed.
Lemma lobatto_eq (F : rcfType) eigh n (alpha beta : seq F) x1 x2 g1 g2 ab xw : size alpha = n.+2 -> size beta = n.+2 ->
  np_solve (lobatto_J n.+1 alpha beta x1) (\col_i (if i.+1 == n.+1 then 1 else 0)) = Base.Ok g1 ->
  np_solve (lobatto_J n.+1 alpha beta x2) (\col_i (if i.+1 == n.+1 then 1 else 0)) = Base.Ok g2 ->
  np_solve (\matrix_(i < 2, j < 2) nth 0 (nth [::] [:: [:: 1; - lastv g1]; [:: 1; - lastv g2]] i) j) (\col_i nth 0 [:: x1; x2] i) = Base.Ok ab ->
  gauss eigh (set_last alpha (ab 0 0)) (set_last beta (ab 1 0)) = Base.Ok xw ->
  lobatto eigh alpha beta x1 x2 = Base.Ok (xw, (set_last alpha (ab 0 0), set_last beta (ab 1 0))).
Proof.
move=> Sa Sb G1 G2 Ea Eg. rewrite /lobatto Sa Sb.
rewrite eqxx. rewrite -[n.+2.-1]/(n.+1) -[n.+2 == 0%N]/false -[n.+2 == 1%N]/false -[~~ true]/false.
rewrite G1 /Base.bind G2 Ea Eg. by [].
Qed.
(** A recurrence with constant [alpha], preassigned nodes to the left and to the
    right of the roots of the polynomials of degree N-1 and N-2 (their values
    there have the signs of the leading coefficient and of (-1)^k): [lobatto]
    returns N increasing nodes among which the two preassigned ones, positive
    weights, degree of precision 2N-3; it overwrites the last entries of the
    caller's arrays and nothing else. *)
Theorem C44_lobatto_rule :
  forall (F : rcfType) (eigh : forall n, 'M[F]_n -> 'rV[F]_n * 'M[F]_n) (alpha beta : seq F) (c xl1 xl2 : F)
         (p : nat -> {poly F}) (L : {poly F} -> F),
    let N := size alpha in
    eigh_correct eigh -> (2 <= N)%N -> size beta = N ->
    (forall k, (k < N)%N -> nth 0 alpha k = c) -> (forall k, (k < N.-1)%N -> 0 < nth 0 beta k) ->
    recurrence alpha beta p -> linear_form L -> L 1 = nth 0 beta 0 -> orthogonal_upto L p N.-1 ->
    xl1 < xl2 -> (forall k, (N <= k.+2 <= N.+1)%N -> 0 < (p k).[xl2] /\ 0 < (-1) ^+ k * (p k).[xl1]) ->
    exists xs ws alpha' beta',
      [/\ lobatto eigh alpha beta xl1 xl2 = Base.Ok ((xs, ws), (alpha', beta')),
          size xs = N /\ size ws = N,
          [/\ sorted <%O xs, xl1 \in xs & xl2 \in xs],
          all (fun w => 0 < w) ws /\ precision L xs ws (2 * N - 3) &
          size alpha' = N /\ size beta' = N /\
          forall k, (k < N.-1)%N -> nth 0 alpha' k = nth 0 alpha k /\ nth 0 beta' k = nth 0 beta k].
Proof.
move=> F eigh alpha beta c xl1 xl2 p L N EO HN Sb Hc Hb Rp LL L1 Orth Hx Sg.
have [n Sa] : exists n, size alpha = n.+2 by move: HN; rewrite /N; case: (size alpha) => [|[|n]] // _; exists n.
have EN : N = n.+2 := Sa. move: HN Sb Hc Hb Orth Sg. rewrite EN => HN Sb Hc Hb Orth Sg. clear EN N. rewrite /= in Hb Orth *.
pose mp k := monic_p (nth 0 alpha) (nth 0 beta) k.
have P k : (k <= n.+2)%N -> p k = mp k.
{ move=> Hk. apply: recurrence_mp => //. by rewrite Sa (leq_trans Hk) // leq_maxr. }
have Orth' j k : (j < k <= n.+1)%N -> L (mp j * mp k) = 0.
{ move=> H. have [Hj Hk] : (j <= n.+2)%N /\ (k <= n.+2)%N by exact: nat_b. rewrite -(P j Hj) -(P k Hk). exact: (Orth j k H). }
have [S2 S1] : 0 < (mp n.+1).[xl2] /\ 0 < (-1) ^+ n.+1 * (mp n.+1).[xl1] by rewrite -P //; apply: Sg; rewrite !leqnn leqnSn.
have [T2 T1] : 0 < (mp n).[xl2] /\ 0 < (-1) ^+ n * (mp n).[xl1] by rewrite -P ?(ltnW (leqnSn _)) //; apply: Sg; rewrite leqnn leqnSn.
pose r := rt beta.
have r0 i : (0 < i <= n)%N -> r i != 0 by move=> Hi; rewrite /r /rt sqrtr_eq0 -ltNge; apply: Hb; case/andP: Hi.
have rr i : (0 < i <= n)%N -> r i * r i = nth 0 beta i.
{ move=> Hi. rewrite -expr2 sqr_sqrtr //. apply: ltW. apply: Hb. by case/andP: Hi. }
have Q2 : (mp n.+1).[xl2] != 0 by rewrite gt_eqF.
have Q1 : (mp n.+1).[xl1] != 0 by move: S1; apply: contraTneq => ->; rewrite mulr0 ltxx.
have [g1 [G1 L1']] := last_tri rr r0 Q1. have [g2 [G2 L2']] := last_tri rr r0 Q2.
have g1p : 0 < lastv g1.
{ rewrite L1' -/(mp n) -/(mp n.+1). have -> : - (mp n).[xl1] / (mp n.+1).[xl1] = ((-1) ^+ n * (mp n).[xl1]) / ((-1) ^+ n.+1 * (mp n.+1).[xl1]).
  { rewrite exprS. apply: sgn_alg => //. by rewrite signr_eq0. }
  exact: divr_gt0. }
have g2n : lastv g2 < 0.
{ rewrite L2' mulNr oppr_lt0. exact: divr_gt0. }
have Hg : lastv g1 != lastv g2 by rewrite gt_eqF // (lt_trans g2n).
have [ab [Eab A1 A2]] := solve2 xl1 xl2 Hg. cbv zeta in Eab.
pose alphal := set_last alpha (ab 0 0). pose betal := set_last beta (ab 1 0).
have Sa' : size alphal = n.+2 by rewrite set_last_size ?Sa.
have Sb' : size betal = n.+2 by rewrite set_last_size ?Sb.
have b_pos : 0 < ab 1 0.
{ have : 0 < (lastv g1 - lastv g2) * ab 1 0.
  { have -> : (lastv g1 - lastv g2) * ab 1 0 = (ab 0 0 - lastv g2 * ab 1 0) - (ab 0 0 - lastv g1 * ab 1 0).
    { move: (ab 0 0) (ab 1 0) (lastv g1) (lastv g2) => a0 b0 u1 u2. exact: dif_alg. }
    by rewrite A1 A2 subr_gt0. }
  rewrite pmulr_rgt0 // subr_gt0. exact: lt_trans g2n g1p. }
have al_lo k : (k < n.+1)%N -> nth 0 alphal k = nth 0 alpha k by move=> Hk; rewrite set_last_nth Sa //= ltn_eqF.
have be_lo k : (k < n.+1)%N -> nth 0 betal k = nth 0 beta k by move=> Hk; rewrite set_last_nth Sb //= ltn_eqF.
have al_hi : nth 0 alphal n.+1 = ab 0 0 by rewrite set_last_nth Sa //= eqxx.
have be_hi : nth 0 betal n.+1 = ab 1 0 by rewrite set_last_nth Sb //= eqxx.
have Hb' k : (0 < k <= n.+1)%N -> 0 < nth 0 betal k.
{ move=> Hk. have [->|Hk'] := eqVneq k n.+1; first by rewrite be_hi. have K := nat_a Hk Hk'. rewrite be_lo //. exact: Hb. }
pose mp' k := monic_p (nth 0 alphal) (nth 0 betal) k.
have M k : (k <= n.+1)%N -> mp' k = mp k.
{ apply: eq_monic => i Hi; [exact: al_lo|apply: be_lo; by case/andP: Hi]. }
have Mt : mp' n.+2 = ('X - (ab 0 0)%:P) * mp n.+1 - ab 1 0 *: mp n.
{ rewrite /mp' mon_rec -/(mp' n.+1) -/(mp' n) !M // al_hi be_hi. by []. }
have [xs [ws [[E Sx Sw So Ro] [Wp Ex]]]] := gauss_ok EO Sa' Sb' Hb'. rewrite -/(mp' n.+2) in Ro.
have Hroot y : root (mp' n.+2) y -> y \in xs.
{ move=> Hy. apply: contraT => Ny. have [Mm Ss] := mon_monic (nth 0 alphal) (nth 0 betal) n.+2.
  have := @max_poly_roots _ (mp' n.+2) (y :: xs). rewrite /mp' Ss /= Ny Hy Ro Sx (lt_sorted_uniq So) ltnn => -> //. by rewrite monic_neq0. }
exists xs, ws, alphal, betal. split=> //.
- apply: (@lobatto_eq F eigh n alpha beta xl1 xl2 g1 g2 ab) => //; by rewrite (lobJ _ Sa Sb Hc).
- split=> //; apply: Hroot; rewrite Mt /root !(hornerD, hornerM, hornerN, hornerX, hornerC, hornerZ); apply/eqP.
  + exact: (lob_root Q1 L1' A1).
  + exact: (lob_root Q2 L2' A2).
- split; first by apply: Wp; rewrite be_lo // Hb.
  move=> q Sq. have [LD LZ] := LL.
  apply: (Ex L n) => //.
  + by rewrite be_lo.
  + move=> k Hk. rewrite -/(mp' k) M; last by case/andP: Hk. have := @Orth' 0%N k. rewrite /mp {1}/monic_p mul1r. apply. by case/andP: Hk => -> ->.
  + move=> s Ss. rewrite -/(mp' n.+2) Mt mulrBl -scalerAl -scaleNr LD LZ.
    have -> : L (mp n * s) = 0 by apply: (lf_orth LL (m := n)) => // j k Hjk; apply: Orth'; case/andP: Hjk => -> /leqW.
    have -> : ('X - (ab 0 0)%:P) * mp n.+1 * s = mp n.+1 * (('X - (ab 0 0)%:P) * s) by rewrite -mulrA mulrCA.
    rewrite (lf_orth LL (m := n.+1)) ?mulr0 ?addr0 //.
    apply: (leq_trans (size_mul_leq _ _)). rewrite size_XsubC /= ltnS. exact: Ss.
  + apply: (leq_trans Sq). exact: nat_c.
- split=> //; split=> // k Hk. by rewrite al_lo ?be_lo.
Qed.
