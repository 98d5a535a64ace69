(** Scalar elements on P_n: unisolvence for polynomials gives the element. *)
Set Warnings "-notation-overridden,-ambiguous-paths".
From mathcomp Require Import all_ssreflect all_algebra zify.
From Verif Require Base ModelIndex SpecIndex ProofsIndex ModelCell SpecFam ModelFam ProofsFam PropsFam.
From Verif Require Import FieldTac SpecJacobi ProofsDmatsReg SpecExpansion ModelDmats ProofsExpProg ProofsExpOrtho ProofsExpIdx PropsExpansion ProofsDmats.
From Verif Require Import ModelDual SpecDual ProofsDual PropsDual SpecPoly ModelSpace ProofsLagLat ProofsSpace ProofsSpaceDer ProofsSpaceCell.
Set Implicit Arguments. Unset Strict Implicit. Unset Printing Implicit Defensive.
Import GRing.Theory.
Local Open Scope ring_scope.

Section Lin.
Variable F : fieldType.
Notation pt := [eqType of seq F].
Implicit Types (f g : func F pt) (l : functional F pt).
Lemma pval_sum sd k N (t : nat -> F) (cf : nat -> seq nat -> F) x :
  \sum_(i < N) t i * pval sd k (cf i) x = pval sd k (fun a => \sum_(i < N) t i * cf i a) x.
Proof.
rewrite /pval. under [LHS]eq_bigr do rewrite mulr_sumr. rewrite exchange_big. apply: eq_bigr => a _. rewrite mulr_suml.
apply: eq_bigr => i _. by rewrite mulrA.
Qed.
Lemma pder_sum sd k N (t : nat -> F) (cf : nat -> seq nat -> F) al x :
  \sum_(i < N) t i * pder sd k (cf i) al x = pder sd k (fun a => \sum_(i < N) t i * cf i a) al x.
Proof.
rewrite /pder. under [LHS]eq_bigr do rewrite mulr_sumr. rewrite exchange_big. apply: eq_bigr => a _. rewrite mulr_suml.
apply: eq_bigr => i _. by rewrite mulrA.
Qed.
Lemma pvalB sd k cf cg x : pval sd k (fun a => cf a - cg a) x = pval sd k cf x - pval sd k cg x :> F.
Proof. rewrite /pval -sumrB. apply: eq_bigr => a _. by rewrite mulrBl. Qed.
Lemma pderB sd k cf cg al x : pder sd k (fun a => cf a - cg a) al x = pder sd k cf al x - pder sd k cg al x :> F.
Proof. rewrite /pder -sumrB. apply: eq_bigr => a _. by rewrite mulrBl. Qed.
(** a combination of the values and derivatives of [f] *)
Definition lincomb N (t : nat -> F) (f : nat -> func F pt) : func F pt :=
  @mkFunc F pt (fun c x => \sum_(i < N) t i * fval (f i) c x) (fun c al x => \sum_(i < N) t i * fder (f i) c al x).
Lemma apply_lincomb N t (f : nat -> func F pt) l : apply l (lincomb N t f) = \sum_(i < N) t i * apply l (f i).
Proof.
rewrite /apply. under [RHS]eq_bigr do rewrite mulrDr. rewrite big_split /=. congr (_ + _).
- under [RHS]eq_bigr do rewrite mulr_sumr. rewrite exchange_big. apply: eq_bigr => pw _.
  under [RHS]eq_bigr do rewrite mulr_sumr. rewrite exchange_big. apply: eq_bigr => wc _. rewrite mulr_sumr. apply: eq_bigr => i _. by rewrite mulrCA.
- under [RHS]eq_bigr do rewrite mulr_sumr. rewrite exchange_big. apply: eq_bigr => pw _.
  under [RHS]eq_bigr do rewrite mulr_sumr. rewrite exchange_big. apply: eq_bigr => wc _. rewrite mulr_sumr. apply: eq_bigr => i _. by rewrite mulrCA.
Qed.
(** equality of scalar functions and of their derivatives *)
Definition same_func sd f g : Prop := (forall x, fval f [::] x = fval g [::] x) /\
  (forall al x, size al = sd -> fder f [::] al x = fder g [::] al x).
Lemma apply_same (E : expansion F pt) l f g : wf_functional E [::] l -> same_func (sdim E) f g -> apply l f = apply l g.
Proof.
move=> /and4P [_ _ H1 H2] [Hv Hd]. rewrite /apply. congr (_ + _).
- apply: eq_big_seq => pw Hpw. apply: eq_big_seq => wc Hwc. have := allP (allP H1 _ Hpw) _ Hwc. rewrite /= inE => /eqP ->. by rewrite Hv.
- apply: eq_big_seq => pw Hpw. apply: eq_big_seq => wc Hwc. have /andP := allP (allP H2 _ Hpw) _ Hwc. rewrite /= inE => -[/eqP -> /eqP Hs]. by rewrite Hd.
Qed.
End Lin.

Section Elem.
Variable F : fieldType.
Hypothesis F0 : char_zero F.
Variable sqrt : F -> F.
Hypothesis Hsq : sqrt_exact sqrt.
Notation pt := [eqType of seq F].
Variables (c : cell) (n : nat).
Hypothesis Hc : SpecFam.simplex c.
Notation sd := (sdim_of c).
Let N := size (exps sd n).
Let E := exp_set sqrt c n N.
Let U : polyset F := mkPolySet N [::] (fun j _ i => (i == j)%:R).

Lemma on_set_ok : on_set sqrt c n = Ok U.
Proof.
have [N' [cf [H1 H2 [_ H3 _]]]] := exp_ok F0 Hsq n Hc. rewrite /on_set H1 H2 -/N.
have [js [-> _]] := H3 [::] 0%N. by [].
Qed.
(** the expansion functions as polynomials *)
Lemma exp_cf : exists cf : nat -> seq nat -> F,
  [/\ forall i x, (i < N)%N -> phi E i x = pval sd n (cf i) x,
      forall al i x, size al = sd -> (i < N)%N -> dphi E al i x = pder sd n (cf i) al x &
      forall a : nat -> F, {in exps sd n, forall al, \sum_(k < N) a k * cf k al = 0} -> forall k, (k < N)%N -> a k = 0].
Proof.
have [N' [cf [_ H0 [H1 H2 H3]]]] := exp_ok F0 Hsq n Hc. rewrite H0 -/N in H1 H2 H3. exists cf. split.
- move=> i x Hi. rewrite /= H1 nth_map_iota //.
- move=> al i x Hal Hi. rewrite /=. have [js [-> Hj]] := H2 x (sumn al). rewrite Hj // nth_map_iota //.
- move=> a Ha. apply: H3 => x _. rewrite pval_sum /pval big1_seq // => al /andP [_ Hal]. by rewrite Ha // mul0r.
Qed.
Lemma expand_poly (r : rowT F) : exists cf, same_func sd (expand E r) (poly_func sd n cf).
Proof.
have [cf [H1 H2 _]] := exp_cf. exists (fun a => \sum_(k < N) r [::] k * cf k a). split.
- move=> x /=. rewrite -pval_sum. apply: eq_bigr => i _. by rewrite -H1.
- move=> al x Hal. rewrite [RHS]/= -pder_sum. apply: eq_bigr => i _. by rewrite -H2.
Qed.
Lemma expand_cf : exists cf : nat -> seq nat -> F,
  (forall r : rowT F, same_func sd (expand E r) (poly_func sd n (fun a => \sum_(k < N) r [::] k * cf k a))) /\
  forall a : nat -> F, {in exps sd n, forall al, \sum_(k < N) a k * cf k al = 0} -> forall k, (k < N)%N -> a k = 0.
Proof.
have [cf [H1 H2 H3]] := exp_cf. exists cf. split=> // r. split.
- move=> x /=. rewrite -pval_sum. apply: eq_bigr => i _. by rewrite -H1.
- move=> al x Hal. rewrite [RHS]/= -pder_sum. apply: eq_bigr => i _. by rewrite -H2.
Qed.
(** every polynomial of degree at most [n] is an expansion *)
Lemma poly_expand (cg : seq nat -> F) : exists r : rowT F, same_func sd (expand E r) (poly_func sd n cg).
Proof.
have [cf [H1 H3]] := expand_cf.
pose V := \matrix_(k < N, i < N) cf k (nth [::] (exps sd n) i).
have HV : V \in unitmx.
{ rewrite -unitmx_tr. apply: unit_eval => a Ha. apply/rowP => k. rewrite mxE.
  pose a' i := if insub i is Some k' then a 0 (k' : 'I_N) else 0.
  have Ea i : a' (val i) = a 0 i by rewrite /a' valK.
  rewrite -Ea. apply: H3 (ltn_ord k) => al Hal. have Hi : (index al (exps sd n) < N)%N by rewrite index_mem.
  rewrite -[RHS](Ha (Ordinal Hi)). apply: eq_bigr => k' _. by rewrite Ea mxE mxE /= nth_index. }
pose g : 'rV[F]_N := \row_i cg (nth [::] (exps sd n) i).
pose a := g *m invmx V.
pose r : rowT F := fun _ k => if insub k is Some k' then a 0 (k' : 'I_N) else 0.
have Er k : r [::] (val k) = a 0 k by rewrite /r valK.
exists r. have [G1 G2] := H1 r.
have Ecf : {in exps sd n, forall al, \sum_(k < N) r [::] k * cf k al = cg al}.
{ move=> al Hal. have Hi : (index al (exps sd n) < N)%N by rewrite index_mem.
  have Eg : a *m V = g by rewrite mulmxKV. move/rowP/(_ (Ordinal Hi)): Eg. rewrite mxE [RHS]mxE /= nth_index // => <-.
  apply: eq_bigr => k _. rewrite Er. congr (_ * _). by rewrite mxE /= nth_index. }
split=> [x|al x Hal].
- rewrite G1 /=. apply: eq_big_seq => al Hal. by rewrite Ecf.
- rewrite G2 //=. apply: eq_big_seq => be Hbe. by rewrite Ecf.
Qed.

Notation nil_f := (@mkFunctional F pt [::] [::] [::]).
Section Nodes.
Variable nodes : seq (functional F pt).
Hypothesis HS : size nodes = N.
Hypothesis HG : good_nodes E nodes U.
(** no nonzero polynomial of degree at most [n] is killed by all nodes *)
Hypothesis Hdet : forall cf, (forall i, (i < N)%N -> apply (nth nil_f nodes i) (poly_func sd n cf) = 0) -> {in exps sd n, forall a, cf a = 0}.
Lemma nodes_wf i : (i < N)%N -> wf_functional E [::] (nth nil_f nodes i).
Proof. move=> Hi. case: HG => _ _ H _. exact: (all_nthP _ H i (leq_trans Hi (eq_leq (esym HS)))). Qed.
Lemma elem_ok : exists U', ciarlet E nodes U = Ok U' /\
  [/\ num_members U' = N, pshape U' = [::],
      forall j, (j < N)%N -> exists cf, same_func sd (member E U' j) (poly_func sd n cf),
      forall i j, (i < N)%N -> (j < N)%N -> apply (nth nil_f nodes i) (member E U' j) = (i == j)%:R &
      forall cf, same_func sd (poly_func sd n cf) (lincomb N (fun j => apply (nth nil_f nodes j) (poly_func sd n cf)) (member E U'))].
Proof.
have HU : unisolvent E nodes U.
{ split=> // a Ha. have [cf [H1 H3]] := expand_cf. apply: H3 => al Hal.
  apply: (Hdet (cf := fun al => \sum_(k < N) a k * cf k al) _ Hal) => i Hi.
  have := Ha i. rewrite HS => /(_ Hi) Hz. rewrite -[RHS]Hz. symmetry.
  apply: (@apply_same _ E _ _ _ (nodes_wf Hi)). have [G1 G2] := H1 (fun c i => \sum_(j < num_members U) a j * coeffs U j c i).
  have Es k : (k < N)%N -> \sum_(j < num_members U) a j * coeffs U j [::] k = a k.
  { move=> Hk. rewrite (bigD1 (Ordinal Hk)) //= eqxx mulr1 big1 ?addr0 // => j Hj.
    have -> : (k == j :> nat) = false by apply/eqP => Ek; case/eqP: Hj; exact/val_inj. by rewrite mulr0. }
  split=> [x|be x Hbe].
  - rewrite G1 /=. apply: eq_bigr => b _. congr (_ * _). apply: eq_bigr => k _. by rewrite Es.
  - rewrite G2 //=. apply: eq_bigr => b _. congr (_ * _). apply: eq_bigr => k _. by rewrite Es. }
have [/(_ HU) [U' HU'] _] := C10_construction_iff_unisolvent HG. exists U'. split=> //.
have [M1 _ M2 M3 _] := C10_nodal_basis HG HU'. rewrite HS in M1 M3.
have MP j : exists cf, same_func sd (member E U' j) (poly_func sd n cf) by exact: expand_poly.
split=> // cf.
(* the interpolation error is a polynomial killed by every node *)
have [mc Hmc] : exists mc : nat -> seq nat -> F, forall j, (j < N)%N -> same_func sd (member E U' j) (poly_func sd n (mc j)).
{ have [cfE [H1 _]] := expand_cf. exists (fun j a => \sum_(k < N) coeffs U' j [::] k * cfE k a) => j _. exact: H1. }
pose t j := apply (nth nil_f nodes j) (poly_func sd n cf).
pose s a := \sum_(j < N) t j * mc j a.
have Ss : same_func sd (poly_func sd n s) (lincomb N t (fun j => poly_func sd n (mc j))).
{ split=> [x|al x Hal]; [by rewrite /= -pval_sum|by rewrite /= -pder_sum]. }
have Ez : {in exps sd n, forall a, cf a - s a = 0}.
{ apply: Hdet => i Hi. have W := nodes_wf Hi.
  pose two k : func F pt := if k is 0%N then poly_func sd n cf else poly_func sd n s.
  pose sg k : F := if k is 0%N then 1 else -1.
  have -> : apply (nth nil_f nodes i) (poly_func sd n (fun a => cf a - s a)) = apply (nth nil_f nodes i) (lincomb 2 sg two).
  { apply: (@apply_same _ E) => //. split=> [x|al x Hal].
    - by rewrite /= pvalB !big_ord_recl big_ord0 /= mul1r mulN1r addr0.
    - by rewrite /= pderB !big_ord_recl big_ord0 /= mul1r mulN1r addr0. }
  rewrite apply_lincomb !big_ord_recl big_ord0 /= mul1r mulN1r addr0.
  rewrite (@apply_same _ E _ _ _ W Ss) apply_lincomb. apply/eqP. rewrite subr_eq0. apply/eqP.
  rewrite (bigD1 (Ordinal Hi)) //= -(@apply_same _ E _ _ _ W (Hmc i Hi)) M3 // eqxx mulr1 big1 ?addr0 // => j Hj.
  rewrite -(@apply_same _ E _ _ _ W (Hmc j (ltn_ord j))) M3 //. have -> : (i == j :> nat) = false by apply/eqP => Ek; case/eqP: Hj; exact/val_inj. by rewrite mulr0. }
have Ecf : {in exps sd n, forall a, cf a = s a} by move=> a Ha; apply/eqP; rewrite -subr_eq0 Ez.
split=> [x|al x Hal].
- transitivity (pval sd n s x); first by apply: eq_big_seq => a Ha; rewrite Ecf.
  rewrite -pval_sum. apply: eq_bigr => j _. congr (_ * _). by case: (Hmc j (ltn_ord j)) => ->.
- transitivity (pder sd n s al x); first by apply: eq_big_seq => a Ha; rewrite Ecf.
  rewrite -pder_sum. apply: eq_bigr => j _. congr (_ * _). by case: (Hmc j (ltn_ord j)) => _ ->.
Qed.
End Nodes.
End Elem.
