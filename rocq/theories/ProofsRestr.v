(** Restriction of a polynomial in several variables to a line: a polynomial in
    one variable, with its derivatives; zeros with multiplicity. *)
Set Warnings "-notation-overridden,-ambiguous-paths".
From mathcomp Require Import all_ssreflect all_algebra zify.
From Verif Require Import SpecJacobi ModelDual SpecDual SpecPoly ProofsSpace.
Set Implicit Arguments. Unset Strict Implicit. Unset Printing Implicit Defensive.
Import GRing.Theory.
Local Open Scope ring_scope.

Section Deriv.
Variable F : fieldType.
Lemma deriv_prod n (f : nat -> {poly F}) : (\prod_(i < n) f i)^`() = \sum_(i < n) \prod_(j < n) (if j == i :> nat then (f j)^`() else f j).
Proof.
elim: n => [|n IH]; first by rewrite !big_ord0 derivC.
rewrite big_ord_recr /= derivM IH [RHS]big_ord_recr /=. congr (_ + _).
- rewrite mulr_suml. apply: eq_bigr => i _. rewrite big_ord_recr /=. congr (_ * _). have -> : (n == i :> nat) = false by apply/eqP; have := ltn_ord i; lia. by [].
- rewrite big_ord_recr /= eqxx. congr (_ * _). apply: eq_bigr => i _. have -> : (i == n :> nat) = false by apply/eqP; have := ltn_ord i; lia. by [].
Qed.
End Deriv.

Section Line.
Variables (F : fieldType) (sd k : nat) (cf : seq nat -> F) (x d : seq F).
Definition lin (i : nat) : {poly F} := (nth 0 x i)%:P + nth 0 d i *: 'X.
Definition lfac (al a : seq nat) (i : nat) : {poly F} := (nth 0%N a i ^_ nth 0%N al i)%:R *: lin i ^+ (nth 0%N a i - nth 0%N al i).
Definition lpoly (al : seq nat) : {poly F} := \sum_(a <- exps sd k) cf a *: \prod_(i < sd) lfac al a i.
Definition along (t : F) : seq F := mkseq (fun i => nth 0 x i + t * nth 0 d i) sd.
Definition inc (al : seq nat) (i : nat) : seq nat := mkseq (fun j => (nth 0 al j + (j == i))%N) sd.
Lemma lin_ev i t : (lin i).[t] = nth 0 x i + t * nth 0 d i.
Proof. by rewrite /lin !hornerE mulrC. Qed.
Lemma pder_ext al al' y : (forall i, (i < sd)%N -> nth 0%N al i = nth 0%N al' i) -> pder sd k cf al y = pder sd k cf al' y.
Proof.
move=> H. apply: eq_big_seq => a. rewrite exps_mem => /andP [/eqP Sa _]. congr (_ * _). apply: eq_bigr => i _. rewrite H //. by rewrite -Sa.
Qed.
Lemma lpoly_ev al t : (lpoly al).[t] = pder sd k cf al (along t).
Proof.
rewrite /lpoly horner_sum. apply: eq_big_seq => a. rewrite exps_mem => /andP [/eqP Sa _]. rewrite hornerZ. congr (_ * _).
rewrite horner_prod /dmono Sa. apply: eq_bigr => i _. by rewrite hornerZ horner_exp lin_ev nth_mkseq.
Qed.
Lemma pder0 y : pder sd k cf (nseq sd 0%N) y = pval sd k cf y.
Proof.
apply: eq_big_seq => a. rewrite exps_mem => /andP [/eqP Sa _]. congr (_ * _). apply: eq_bigr => i _. rewrite nth_nseq. case: ifP => _; by rewrite ffactn0 subn0 mul1r.
Qed.
Lemma lpoly_val t : (lpoly (nseq sd 0%N)).[t] = pval sd k cf (along t).
Proof. by rewrite lpoly_ev pder0. Qed.
Lemma lfac_der al a i : (lfac al a i)^`() = nth 0 d i *: ((nth 0%N a i ^_ (nth 0%N al i).+1)%:R *: lin i ^+ (nth 0%N a i - (nth 0%N al i).+1)).
Proof.
rewrite /lfac derivZ deriv_exp /lin derivD derivC add0r derivZ derivX ffactnSr natrM. set m := (_ - _)%N. set f := _%:R.
rewrite -scalerAl mul1r -scaler_nat !scalerA subnS -/m [_ * nth 0 d i]mulrC mulrCA. by [].
Qed.
Lemma lpoly_der al : (lpoly al)^`() = \sum_(i < sd) nth 0 d i *: lpoly (inc al i).
Proof.
rewrite /lpoly raddf_sum /=. under [RHS]eq_bigr do rewrite scaler_sumr. rewrite exchange_big /=. apply: eq_bigr => a _.
rewrite derivZ deriv_prod scaler_sumr. apply: eq_bigr => i _. rewrite scalerA mulrC -scalerA. congr (_ *: _).
rewrite (bigD1 i) //= eqxx [in RHS](bigD1 i) //= lfac_der -scalerAl. congr (_ *: (_ * _)).
- rewrite /lfac nth_mkseq // eqxx addn1. by [].
- apply: eq_bigr => j Hj. have E : (j == i :> nat) = false by apply/eqP => E; case/eqP: Hj; exact/val_inj. by rewrite E /lfac nth_mkseq // E addn0.
Qed.
Lemma size_lin i : (size (lin i) <= 2)%N.
Proof. rewrite /lin. apply: (leq_trans (size_add _ _)). rewrite geq_max (leq_trans (size_polyC_leq1 _)) //=. apply: (leq_trans (size_scale_leq _ _)). by rewrite size_polyX. Qed.
Lemma size_prod_bound n (f : nat -> {poly F}) (e : nat -> nat) : (forall i, (i < n)%N -> (size (f i) <= (e i).+1)%N) -> (size (\prod_(i < n) f i)%R <= (\sum_(i < n) e i).+1)%N.
Proof.
elim: n => [|n IH] H; first by rewrite !big_ord0 size_polyC oner_eq0.
rewrite !big_ord_recr /=. apply: (leq_trans (size_mul_leq _ _)). have H1 := IH (fun i Hi => H i (ltnW Hi)). have H2 := H n (ltnSn n). move: H1 H2. move: (size _) (size _) (\sum_(i < n) e i)%N (e n) => u v w z. clear. lia.
Qed.
Lemma size_exp_lin i m : (size (lin i ^+ m) <= m.+1)%N.
Proof. apply: (leq_trans (size_exp_leq _ _)). rewrite ltnS -[X in (_ <= X)%N]mul1n leq_mul2r. have := size_lin i. case: m => // m. case: (size (lin i)) => [|[|[|s]]] //. Qed.
Lemma lpoly_size al : (size (lpoly al) <= (k - \sum_(i < sd) nth 0 al i).+1)%N.
Proof.
rewrite /lpoly. apply: (leq_trans (size_sum _ _ _)). rewrite big_tnth. apply/bigmax_leqP => i _. set a := tnth _ _.
have : a \in exps sd k by apply: mem_tnth. rewrite exps_mem => /andP [/eqP Sa Ha]. apply: (leq_trans (size_scale_leq _ _)).
case: (boolP [forall i : 'I_sd, nth 0 al i <= nth 0 a i]%N) => [/forallP Hle|].
- apply: (leq_trans (size_prod_bound (e := fun i => (nth 0 a i - nth 0 al i)%N) _)) => [j Hj|].
  + apply: (leq_trans (size_scale_leq _ _)). exact: size_exp_lin.
  + rewrite ltnS sumnB; last by move=> j _; exact: Hle. apply: leq_sub2r. rewrite -Sa. by move: Ha; rewrite sumnE (big_nth 0%N) big_mkord.
- rewrite negb_forall => /existsP [j]. rewrite -ltnNge => Hj. rewrite (bigD1 j) //= /lfac ffact_small // scale0r mul0r size_poly0. by [].
Qed.
End Line.

Section Zeros.
Variable F : fieldType.
Lemma dvd_double (P : {poly F}) t : P.[t] = 0 -> P^`().[t] = 0 -> ('X - t%:P) ^+ 2 %| P.
Proof.
move=> H1 H2. have /factor_theorem [Q EQ] : root P t by apply/rootP. move: H2. rewrite EQ derivM derivB derivX derivC subr0 mulr1 !hornerE subrr mulr0 add0r => H2.
have /factor_theorem [S ES] : root Q t by apply/rootP. by rewrite ES -mulrA dvdp_mull.
Qed.
Lemma dvd_triple (P : {poly F}) t : char_zero F -> P.[t] = 0 -> P^`().[t] = 0 -> P^`()^`().[t] = 0 -> ('X - t%:P) ^+ 3 %| P.
Proof.
move=> F0 H1 H2 H3. have /dvdpP [Q EQ] := dvd_double H1 H2. move: H3.
rewrite EQ expr2 !(derivM, derivD, derivN, derivX, derivC, subr0, mulr1, mul1r) !(hornerM, hornerD, hornerN, hornerX, hornerC) subrr !(mulr0, mul0r, addr0, add0r, mulr1, mul1r).
move/eqP. rewrite mulf_eq0 -[1 + 1]/(2%:R : F) (negbTE (F0 2%N isT)) orbF => /factor_theorem [S ->]. by rewrite -mulrA -expr2 -exprS dvdp_mull.
Qed.

Lemma zeros_count (P : {poly F}) (z : seq (F * nat)) : uniq [seq p.1 | p <- z] -> {in z, forall p, ('X - p.1%:P) ^+ p.2 %| P} ->
  (size P <= \sum_(p <- z) p.2)%N -> P = 0.
Proof.
move=> Hu Hz Hs. have D : \prod_(p <- z) ('X - p.1%:P) ^+ p.2 %| P.
{ elim: z Hu Hz {Hs} => [|p z IH] /=; first by rewrite big_nil dvd1p. move=> /andP [Np Hu] Hz. rewrite big_cons Gauss_dvdp.
  - rewrite Hz ?mem_head //=. apply: IH => // q Hq. apply: Hz. by rewrite inE Hq orbT.
  - elim: z Np {IH Hu Hz} => [|q z IH] /=; first by rewrite big_nil coprimep1. rewrite inE negb_or => /andP [Npq Np]. rewrite big_cons coprimepMr IH // andbT.
    apply: coprimep_expl. apply: coprimep_expr. by rewrite coprimep_XsubC root_XsubC eq_sym. }
apply/eqP. apply: contraTT D => P0. apply/negP => D. have := dvdp_leq P0 D. rewrite leqNgt => /negP; apply. apply: (leq_ltn_trans Hs).
have -> : size (\prod_(p <- z) ('X - p.1%:P) ^+ p.2)%R = (\sum_(p <- z) p.2).+1; last by [].
clear. elim: z => [|p z IH]; first by rewrite !big_nil size_polyC oner_eq0. rewrite !big_cons size_mul ?IH ?size_exp_XsubC //; first lia.
- by rewrite -size_poly_gt0 size_exp_XsubC.
- by rewrite -size_poly_gt0 IH.
Qed.
End Zeros.
