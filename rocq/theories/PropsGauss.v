(** C43: [gauss] of orthopoly.py computes the Gauss rule of a three-term recurrence. *)
Set Warnings "-notation-overridden,-ambiguous-paths".
From mathcomp Require Import all_ssreflect all_algebra.
From Verif Require Base.
From Verif Require Import FieldTac ModelJacobi SpecJacobi ProofsJacobi ProofsOrtho ModelOrthopoly ProofsOrthopoly ProofsGauss ProofsGaussReal ModelGauss SpecGauss ProofsGW ProofsGaussRule ProofsEigh.
Set Implicit Arguments. Unset Strict Implicit. Unset Printing Implicit Defensive.
Import Order.TTheory GRing.Theory Num.Theory.
Local Open Scope ring_scope.

Section Lin.
Variables (F : fieldType) (L : {poly F} -> F).
Hypothesis LL : linear_form L.
Lemma lf0 : L 0 = 0. Proof. case: LL => _ LZ. by rewrite -(scale0r 0) LZ mul0r. Qed.
Lemma lf_orth (al be : nat -> F) m N : (m <= N)%N -> (forall j k, (j < k <= N)%N -> L (monic_p al be j * monic_p al be k) = 0) ->
  forall q : {poly F}, (size q <= m)%N -> L (monic_p al be N * q) = 0.
Proof.
case: LL => LD LZ. elim: m => [|m IH] Hm HO q.
- rewrite leqn0 size_poly_eq0 => /eqP ->. by rewrite mulr0 lf0.
- move=> Sq. pose c := q`_m. pose q' := q - c *: monic_p al be m.
  have [/monicP M S] := mon_monic al be m.
  have Sq' : (size q' <= m)%N.
  { apply/leq_sizeP => i. rewrite leq_eqVlt => /orP [/eqP <-|Hi].
    - rewrite coefB coefZ. have := M. rewrite lead_coefE S /= => ->. by rewrite mulr1 subrr.
    - rewrite coefB coefZ !nth_default ?mulr0 ?subr0 // ?S //. exact: leq_trans Sq _. }
  have -> : q = q' + c *: monic_p al be m by rewrite subrK.
  by rewrite mulrDr LD -scalerAr LZ mulrC (mulrC _ (monic_p al be m)) HO ?Hm ?leqnn // mulr0 addr0 mulrC IH // ltnW.
Qed.
End Lin.

(** For every recurrence with positive [beta] and every linear form for which its
    polynomials are orthogonal (an integral against a weight), [gauss] returns N
    distinct nodes in increasing order, the roots of the N-th polynomial, and
    weights whose rule is exact up to degree 2N-1; the weights are positive as
    soon as beta_0 is. *)
Theorem C43_gauss_rule :
  forall (F : rcfType) (eigh : forall n, 'M[F]_n -> 'rV[F]_n * 'M[F]_n) (alpha beta : seq F) (p : nat -> {poly F})
         (L : {poly F} -> F),
    eigh_correct eigh ->
    (0 < size alpha)%N -> size beta = size alpha -> (forall k, (0 < k < size beta)%N -> 0 < nth 0 beta k) ->
    recurrence alpha beta p -> linear_form L -> L 1 = nth 0 beta 0 -> orthogonal_upto L p (size alpha) ->
    exists xs ws,
      [/\ gauss eigh alpha beta = Base.Ok (xs, ws), size xs = size alpha /\ size ws = size alpha,
          sorted <%O xs /\ all (root (p (size alpha))) xs,
          precision L xs ws (2 * size alpha - 1) &
          0 < nth 0 beta 0 -> all (fun w => 0 < w) ws].
Proof.
move=> F eigh alpha beta p L EO N0 Sb Hb Rp LL L1 Orth.
have [n Sa] : exists n, size alpha = n.+1 by case: (size alpha) N0 => // n _; exists n.
rewrite Sa in Sb Orth *. have Hb' k : (0 < k <= n)%N -> 0 < nth 0 beta k by move=> Hk; apply: Hb; rewrite Sb.
have P k : (k <= n.+1)%N -> p k = monic_p (nth 0 alpha) (nth 0 beta) k.
{ move=> Hk. apply: recurrence_mp => //. by rewrite Sa (leq_trans Hk) // leq_maxr. }
have Orth' j k : (j < k <= n.+1)%N -> L (monic_p (nth 0 alpha) (nth 0 beta) j * monic_p (nth 0 alpha) (nth 0 beta) k) = 0.
{ move=> H. have /andP [H1 H2] := H. rewrite -!P //; last exact: leq_trans (ltnW H1) H2. exact: Orth. }
have [xs [ws [[E Sx Sw So Ro] [Wp Ex]]]] := gauss_ok EO Sa Sb Hb'.
exists xs, ws. split=> //; first by rewrite P.
move=> q. rewrite mulSn mul1n addnS subn1 /= -addnS => Sq. apply: (Ex L n.+1) => //.
- move=> k /andP [K0 Kn]. have := Orth' 0%N k. rewrite {1}/monic_p mul1r K0 (leqW Kn). exact.
- exact: lf_orth.
Qed.

(** numpy's [eigh] as specified exists over every real closed field. *)
Theorem C43_eigh_exists : forall F : rcfType, exists eigh : forall n, 'M[F]_n -> 'rV[F]_n * 'M[F]_n, eigh_correct eigh.
Proof. move=> F. exists (@eigh0 F). exact: eigh0_correct. Qed.

(** Arrays of different lengths and empty arrays are refused. *)
Theorem C43_refusals :
  forall (F : rcfType) (eigh : forall n, 'M[F]_n -> 'rV[F]_n * 'M[F]_n) (alpha beta : seq F),
    (size alpha <> size beta -> gauss eigh alpha beta = Base.Err Base.ValueError) /\
    gauss eigh [::] [::] = Base.Err Base.IndexError.
Proof. move=> F eigh alpha beta. split=> // /eqP H. by rewrite /gauss H. Qed.

(** Instance: Jacobi weights (1-x)^a on [-1,1], a natural.  [mu] is the value
    2^(a+1) a! 0! / (a+1)! of the Gamma expression in [rec_jacobi]. *)
Section Jac.
Variable F : rcfType.
Let F0 : char_zero F := @num_char0 F.
Lemma rbeta_pos (a : nat) (mu : F) k : (0 < k)%N -> 0 < rbeta a%:R 0 mu k.
Proof.
case: k => [|[|k]] // _; rewrite /rbeta.
- rewrite add0r mulr1 addr0. have A0 : 0 <= a%:R :> F by rewrite ler0n.
  have A i : 0 < a%:R + i.+1%:R :> F by apply: ltr_paddl; rewrite ?ltr0n.
  apply: divr_gt0.
  + apply: mulr_gt0; [by rewrite ltr0n|exact: (A 0%N)].
  + apply: mulr_gt0; [apply: exprn_gt0; exact: (A 1%N)|exact: (A 2%N)].
- rewrite !addr0. have X1 : 0 < 2%:R * k.+2%:R + a%:R :> F by rewrite -natrM -natrD ltr0n.
  have X2 : 0 < 2%:R * k.+2%:R + a%:R - 1 :> F.
  { rewrite subr_gt0 -natrM -natrD ltr1n. by rewrite (leq_trans (_ : 1 < 2 * k.+2)%N) // leq_addr. }
  have K : 0 < k.+2%:R :> F by rewrite ltr0n.
  have KA : 0 < k.+2%:R + a%:R :> F by rewrite -natrD ltr0n.
  have X3 : 0 < 2%:R * k.+2%:R + a%:R + 1 :> F by apply: (addr_gt0 X1 ltr01).
  apply: divr_gt0; repeat apply: mulr_gt0 => //.
  by rewrite ltr0n.

Qed.
Lemma jac_monic_orth (a : nat) mu N j k : (j < k <= N)%N ->
  jweight a (monic_p (ralpha a%:R 0) (rbeta (a%:R : F) 0 mu) j * monic_p (ralpha a%:R 0) (rbeta a%:R 0 mu) k) = 0.
Proof.
move=> /andP [Hjk HkN].
have R := @rega F F0 a N. have Lj := lcn0 F0 R (leq_trans (ltnW Hjk) HkN). have Lk := lcn0 F0 R HkN.
have := jacobi_orth F0 a (_ : j != k). rewrite neq_ltn Hjk => /(_ isT).
rewrite (jacobi_monic F0 mu R (leq_trans (ltnW Hjk) HkN)) (jacobi_monic F0 mu R HkN).
rewrite -scalerAl -scalerAr !jweightZ mulrA => /eqP. by rewrite mulf_eq0 (negbTE (mulf_neq0 Lj Lk)) => /eqP.
Qed.
Lemma eq_monic (al al' be be' : nat -> F) N : (forall k, (k < N)%N -> al k = al' k) -> (forall k, (0 < k < N)%N -> be k = be' k) ->
  forall k, (k <= N)%N -> monic_p al be k = monic_p al' be' k.
Proof.
move=> Ha Hb. elim/ltn_ind=> -[|[|k]] IH Hk //; first by rewrite /monic_p /= Ha.
by rewrite !mon_rec (IH k.+1) ?(ltnW Hk) // (IH k) ?(ltnW (ltnW Hk)) // Ha // Hb.
Qed.
End Jac.
Theorem C43_gauss_jacobi :
  forall (F : rcfType) (eigh : forall n, 'M[F]_n -> 'rV[F]_n * 'M[F]_n) (a N : nat),
    eigh_correct eigh -> (2 <= N)%N ->
    exists alpha beta xs ws,
      [/\ rec_jacobi (2%:R ^+ a.+1 / a.+1%:R) N (a%:R : F) 0 = RArrays alpha beta,
          gauss eigh alpha beta = Base.Ok (xs, ws), size xs = N /\ size ws = N, all (fun w => 0 < w) ws &
          forall q : {poly F}, (size q <= 2 * N)%N ->
            \sum_(xw <- zip xs ws) xw.2 * q.[xw.1] = integral (-1) 1 ((1 - 'X) ^+ a * q)].
Proof.
move=> F eigh a N EO HN. set mu := _ / _. have F0 := @num_char0 F.
have [al [be [E Sa Sb Ha Hb]]] := rec_jacobiE (a%:R : F) 0 mu HN.
exists al, be. have N0 : (0 < size al)%N by rewrite Sa ltnW.
pose p := monic_p (nth 0 al) (nth 0 be).
have Ep k : (k <= N)%N -> p k = monic_p (ralpha a%:R 0) (rbeta a%:R 0 mu) k.
{ apply: eq_monic => // i Hi. apply: Hb. by case/andP: Hi. }
have be0 : nth 0 be 0 = mu by rewrite Hb // ltnW.
have mu0 : 0 < mu by rewrite divr_gt0 ?exprn_gt0 ?ltr0n.
have [|||||xs [ws [Eg Ss So Pr Wp]]] := @C43_gauss_rule F eigh al be p (jweight a) EO N0 (etrans Sb (esym Sa)).
- move=> k. rewrite Sb => /andP [K0 K1]. rewrite Hb //. exact: rbeta_pos.
- split=> // -[|k] // _. exact: mon_rec.
- split; [exact: jweightD|exact: jweightZ].
- by rewrite (jweight_one F0) be0.
- move=> j k. rewrite Sa => /andP [H1 H2]. rewrite !Ep //; last exact: leq_trans (ltnW H1) H2.
  apply: (@jac_monic_orth F a mu N). by rewrite H1.
- exists xs, ws. rewrite Sa in Ss Pr. split=> //; first by apply: Wp; rewrite be0.
  move=> q Sq. rewrite -/(jweight a q). apply: Pr. by rewrite subn1 prednK // muln_gt0 /= -Sa.
Qed.
