(** The line: jets and regularity. *)
Set Warnings "-notation-overridden,-ambiguous-paths".
From mathcomp Require Import all_ssreflect all_algebra zify.
From Verif Require Base ModelIndex SpecIndex ProofsIndex.
From Verif Require Import FieldTac RingTac ModelJacobi SpecJacobi ProofsJacobi ProofsOrtho ModelExpansion SpecExpansion ProofsExpIdx ProofsExpProg ProofsExpOrtho ProofsExpDeg ModelDmats ProofsDmats ProofsDmatsCell ProofsDmatsDer ProofsUnisolv PropsJacobi PropsExpansion ProofsDmatsReg.
Set Implicit Arguments. Unset Strict Implicit. Unset Printing Implicit Defensive.
Import GRing.Theory.
Local Open Scope ring_scope.

Section Line.
Variable F : fieldType.
Hypothesis F0 : char_zero F.
Add Field FFl : (mc_field_theory F).
Variable sqrt : F -> F.
Hypothesis Hsq : sqrt_exact sqrt.
Variables (M b : F) (n : nat).
Definition lphi (k : nat) : {poly F} := sqrt (k%:R + 2%:R^-1) *: (jacobi_poly 0 0 k \Po (M *: 'X + b%:P)).
Lemma lphi_size k : (size (lphi k) <= k.+1)%N.
Proof.
apply: (leq_trans (size_scale_leq _ _)). apply: (leq_trans (size_comp_poly_leq _ _)).
have H1 : ((size (M *: 'X + b%:P)%R).-1 <= 1)%N.
{ have H : (size (M *: 'X + b%:P)%R <= 2)%N.
  { apply: (leq_trans (size_add _ _)). rewrite geq_max (leq_trans (size_scale_leq _ _)) ?size_polyX // (leq_trans (size_polyC_leq1 _)) //. }
  by move: H; case: (size _). }
have H2 : ((size (@jacobi_poly F 0%R 0%R k)).-1 <= k)%N.
{ rewrite -subn1 leq_subLR add1n. exact: size_jacobi. }
rewrite ltnS. by apply: (leq_trans (leq_mul H2 H1)); rewrite muln1.
Qed.
Lemma lphi_val pts k i : (k <= n)%N -> (i < size pts)%N -> line_tabulate sqrt M b n pts k i = (lphi k).[nth 0 pts i].
Proof.
move=> Hk Hi. rewrite /line_tabulate (C22_batch_rows F0 (@regular00 F n F0)) ?size_map // (nth_map 0) // eval_jacobi_ok //; last exact: regular00.
by rewrite hornerZ horner_comp hornerD hornerZ hornerX hornerC [LHS]mulrC.
Qed.
Variable sg : F.
Lemma lphi_der vol pts k i : sg * M = 2%:R / vol -> (k <= n)%N -> (i < size pts)%N ->
  (line_tabulate_derivatives sqrt M b vol n pts k i).2 = (sg *: (lphi k)^`()).[nth 0 pts i].
Proof.
move=> EM Hk Hi. rewrite /line_tabulate_derivatives /= (C22_deriv_batch_rows F0 (@regular00 F n F0)) ?size_map // (nth_map 0) //.
rewrite hornerZ derivZ hornerZ deriv_comp hornerM horner_comp hornerD hornerZ hornerX hornerC derivD derivZ derivX derivC addr0 alg_polyC hornerC.
rewrite -EM. set x := M * _ + b.
have G (e e' m q s : F) : e = e' -> e * (s * m) * q = s * (q * (e' * m)) by move=> ->; fring.
apply: G. rewrite -/x. move: x => x.
case: k {Hk} => [|k]; first by rewrite /= jacobi_poly0 derivC hornerC.
rewrite jacobi_deriv // hornerZ /= eval_jacobi_ok //; last exact: (regular_shift (@regular00 F k.+1 F0)).
by rewrite [0 + 0 + _]addrC !addrA.
Qed.
Definition ev1 (x : F) : {rmorphism {poly F} -> F} := [rmorphism of horner_eval x].
Lemma d1_add : additive (fun P : {poly F} => sg *: P^`()). Proof. move=> P Q. by rewrite derivB scalerBr. Qed.
Definition d1 (i : nat) : {additive {poly F} -> {poly F}} := Additive d1_add.
Lemma line_table_ok pts : line_table sqrt M b n pts = tabT (n + 1) lphi ev1 pts.
Proof.
rewrite /line_table /tabT. apply: (@eq_from_nth _ [::]) => [|i]; rewrite !size_map size_iota // => Hi.
rewrite nth_map_iota // (nth_map 0) //. apply: (@eq_from_nth _ 0) => [|k]; rewrite !size_map ?size_iota // => Hk.
rewrite !nth_map_iota // lphi_val //. lia.
Qed.
Lemma line_dt_ok vol pts : sg * M = 2%:R / vol -> line_dtildes sqrt M b vol n pts = dtT (n + 1) lphi d1 ev1 1 pts.
Proof.
move=> EM. rewrite /line_dtildes /dtT. refine (congr1 (fun z => [:: z]) _). apply: (@eq_from_nth _ [::]) => [|k]; rewrite !size_map !size_iota // => Hk.
rewrite !nth_map_iota //. apply: (@eq_from_nth _ 0) => [|i]; rewrite !size_map ?size_iota // => Hi.
rewrite nth_map_iota // (nth_map 0) // lphi_der //. lia.
Qed.
Lemma decomp1 (P : {poly F}) : (size P <= n.+1)%N -> P = \sum_(m < n + 1) (P`_m)%:P * 'X ^+ m.
Proof.
move=> H. rewrite addn1. transitivity (\poly_(m < n.+1) P`_m).
{ apply/polyP => i. rewrite coef_poly. case: ltnP => // Hi. by rewrite nth_default // (leq_trans H). }
rewrite poly_def. apply: eq_bigr => m _. by rewrite mul_polyC.
Qed.
Definition line_poly r (cf : 'M[F]_(r, n + 1)) (x : 'I_r) : {poly F} := \sum_k (cf x k)%:P * lphi k.
Lemma line_poly_size r cf x : (size (@line_poly r cf x) <= n.+1)%N.
Proof.
apply: (leq_trans (size_sum _ _ _)). apply/bigmax_leqP => k _. rewrite mul_polyC (leq_trans (size_scale_leq _ _)) //.
apply: (leq_trans (lphi_size k)). have := ltn_ord k. lia.
Qed.
Lemma dalpha1 a P : dalpha d1 [:: a] P = sg ^+ a *: P^`(a).
Proof.
rewrite /dalpha /=. elim: a => [|a IH] /=; first by rewrite scale1r. by rewrite IH derivZ scalerA -exprS.
Qed.
Lemma line_jets_ok vol pts dm : sg * M = 2%:R / vol -> line_dmats sqrt M b vol n pts = Ok dm ->
  forall r (cf : 'M[F]_(r, n + 1)) pts2 order, exists jets,
    line_jets sqrt M b dm cf pts2 order = Ok jets /\
    [seq aA.1 | aA <- jets] = flatten [seq ModelIndex.mis 1 i | i <- iota 0 order.+1] /\
    forall a A, List.In (a, A) jets -> forall x j, A x j = ev1 (nth 0 pts2 j) (dalpha d1 a (line_poly cf x)).
Proof.
move=> EM. rewrite /line_dmats line_table_ok (line_dt_ok _ EM) => Hdm r cf pts2 order. rewrite /line_jets line_table_ok.
have Hs k : (k < n + 1)%N -> (size (lphi k) <= n.+1)%N by move=> Hk; apply: (leq_trans (lphi_size k)); lia.
apply: (@jets_exact F _ [rmorphism of @polyC F] (n + 1) lphi (fun m => 'X ^+ m) d1 _
  (\matrix_(k, m) (lphi k)`_m) (fun i => \matrix_(k, m) (sg *: (lphi k)^`())`_m) _ _ _ 0 ev1 _ 1 n pts dm) => //.
- move=> i c P. by rewrite /= !mul_polyC derivZ !scalerA mulrC.
- move=> k. rewrite {1}(decomp1 (Hs k (ltn_ord k))). apply: eq_bigr => m _. by rewrite mxE.
- move=> i k. rewrite /d1 /= [LHS]decomp1.
  + apply: eq_bigr => m _. by rewrite mxE.
  + apply: (leq_trans (size_scale_leq _ _)). apply: (leq_trans (size_poly _ _)). apply: (leq_trans (leq_pred _)). exact: Hs.
- move=> p c. by rewrite /= /horner_eval hornerC.
- move=> En. rewrite En. split=> //. split.
  + exists (sqrt 2%:R^-1); last by rewrite /lphi jacobi_poly0 comp_polyC add0r /= alg_polyC.
    apply/eqP => E. have := line_norm_sq F0 Hsq 0. rewrite add0r E mul0r => /esym/eqP. by rewrite invr_eq0 (negbTE (two_neq0 F0)).
  + move=> i. by rewrite /d1 /= /lphi jacobi_poly0 comp_polyC alg_polyC derivC scaler0.
- move=> i a. exact: mis_size.
Qed.

Section Reg.
Variables (v0 v1 : F).
Hypotheses (A0 : M * v0 + b = -1) (A1 : M * v1 + b = 1).
Definition line_lattice : seq F :=
  [seq nth 0 p 0 | p <- ModelIndex.make_lattice (K := mcF F) [:: [:: v0]; [:: v1]] (n + 1 + 1) 1].
Lemma line_lattice_size : size line_lattice = (n + 1)%N.
Proof.
rewrite size_map. have := @ProofsIndex.make_lattice_length (mcF F) [:: [:: v0]; [:: v1]] (n + 1 + 1) 1 1 erefl.
rewrite /= => H. rewrite [size _]H ?ProofsIndex.binom_1; lia.
Qed.
Lemma line_lattice_pt i : (i <= n)%N -> exists l, (l < n + 1)%N /\ M * nth 0 line_lattice l + b = grid F (n + 1 + 1) i.
Proof.
move=> Hij. have Hm : (n + 1 + 1)%:R != 0 :> F by apply: F0; lia.
have [||l [Hl [w [[Ew] [Hs Hc]]]]] := @lattice_pt F [:: [:: v0]; [:: v1]] (n + 1 + 1) 1 1 [:: i.+1] erefl isT Hm.
- by move=> v /= [<-|[<-|[]]].
- split=> //. split; [move=> x /= [<-|[]]; lia|rewrite /Base.nsum /=; lia].
exists l. move: (Hl). rewrite -[X in (_ < X)%N](size_map (fun p => nth 0 p 0)) -/line_lattice line_lattice_size => Hl'. split=> //.
move: Hc. rewrite -Ew. have -> : length [:: v0] = 1%N by []. move=> Hc.
rewrite /line_lattice (nth_map [::]) //. set P := nth [::] _ l in Hc *.
have ENS : Base.nsum [:: i.+1] = i.+1 by rewrite /Base.nsum /=; lia.
have -> : nth 0 P 0 = ((n + 1 + 1 - i.+1)%:R * v0 + (i.+1%:R * v1 + 0)) / (n + 1 + 1)%:R.
{ have := Hc 0%N ltac:(lia). rewrite /SpecIndex.coord ENS -/subn. rewrite [SpecIndex.wsum _ _]/= !of_natE.
  have N x (s : seq F) : List.nth x s 0 = nth 0 s x by elim: x s => [|x IH] [|y s] //=. rewrite !N. move=> ->.
  by rewrite /addF /mulF /oneF /zeroF !(addrC _%:R 1) -!mulrS. }
rewrite natrB; last by lia. rewrite /grid. move: (n + 1 + 1)%:R Hm (i.+1%:R : F) => m Hm s.
have -> : M * (((m - s) * v0 + (s * v1 + 0)) / m) + b = ((m - s) * (M * v0 + b) + s * (M * v1 + b)) / m by ffield; nz.
rewrite A0 A1 mulrS mulr1n. ffield; nz.
Qed.
Lemma line_regular vol : exists dm, line_dmats sqrt M b vol n line_lattice = Ok dm.
Proof.
rewrite /line_dmats /on_dmats line_table_ok. case: ifP => _; first by eexists.
rewrite size_map line_lattice_size eqxx /=.
suff -> : mx_of (n + 1) (n + 1) (tabT (n + 1) lphi ev1 line_lattice) \in unitmx by eexists.
have [phi [H1 [H2 H4]]] := C23_line_orthonormal F0 Hsq.
have HI : additive (integral (-1) 1 : {poly F} -> F).
{ move=> P Q'. rewrite integralD -scaleN1r integralZ mulN1r. by []. }
pose I := Additive HI.
apply: unit_eval => c Hc. pose Q := \sum_(k < n + 1) c 0 k *: phi k.
have Q0 : Q = 0.
{ apply: (@van1 F n.+1 Q (grid F (n + 1 + 1))).
  - apply: grid_inj => //; lia.
  - move=> j Hj. rewrite coef_sum big1 // => k _. rewrite coefZ nth_default ?mulr0 //. apply: (leq_trans (H2 k)). have := ltn_ord k. lia.
  - move=> i Hi. have [l [Hl E]] := line_lattice_pt (ltnSE Hi). rewrite -E. have := Hc (Ordinal Hl) => Hz. rewrite -[RHS]Hz horner_sum.
    apply: eq_bigr => k _. rewrite hornerZ. congr (_ * _). rewrite (@tabT_mx _ _ _ _ _ 0) ?line_lattice_size //= /horner_eval.
    rewrite -lphi_val ?line_lattice_size //; last by (have := ltn_ord k; lia). rewrite H1 ?line_lattice_size //. have := ltn_ord k; lia. }
apply/rowP => k. rewrite mxE.
have := raddf0 I. rewrite -{1}(mul0r (phi k)) -Q0 /Q mulr_suml raddf_sum => H0. rewrite -[RHS]H0 {H0}.
rewrite (bigD1 k) //= -scalerAl integralZ H4 eqxx mulr1 big1 ?addr0 // => k' Hk'.
rewrite -scalerAl integralZ H4. case: eqP => [E|_]; last by rewrite mulr0. case/eqP: Hk'. exact: val_inj.
Qed.
End Reg.
End Line.
