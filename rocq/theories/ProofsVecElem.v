(** Vector valued elements: a polynomial set whose span is a given space of
    polynomial fields, and nodes that determine the fields of the space. *)
Set Warnings "-notation-overridden,-ambiguous-paths".
From mathcomp Require Import all_ssreflect all_algebra zify.
From Verif Require Base ModelIndex ModelCell SpecFam ModelFam.
From Verif Require Import FieldTac SpecJacobi ProofsDmatsReg SpecExpansion ModelDmats ProofsExpProg ProofsExpOrtho ProofsExpIdx PropsExpansion ProofsDmats.
From Verif Require Import ModelDual SpecDual ProofsDual PropsDual SpecPoly SpecVec ModelSpace ProofsLagLat ProofsSpace ProofsSpaceDer ProofsSpaceCell ProofsElem ProofsPolyClo.
Set Implicit Arguments. Unset Strict Implicit. Unset Printing Implicit Defensive.
Import GRing.Theory.
Local Open Scope ring_scope.

Section Basics.
Variable F : fieldType.
Notation pt := [eqType of seq F].
Lemma comps1 n : comps [:: n] = [seq [:: i] | i <- iota 0 n].
Proof. rewrite /=. elim: (iota 0 n) => [|i l IH] //=. by rewrite IH. Qed.
Lemma comps1P n c : reflect (exists2 i, (i < n)%N & c = [:: i]) (c \in comps [:: n]).
Proof.
rewrite comps1. apply: (iffP mapP) => [[i]|[i Hi ->]]; first by rewrite mem_iota => Hi ->; exists i.
exists i => //. by rewrite mem_iota.
Qed.
Lemma vec_sumE N t (f : nat -> func F pt) : vec_sum N t f = lincomb N t f. Proof. by []. Qed.
Lemma apply_vec (E : expansion F pt) sd l (f g : func F pt) : sdim E = sd -> wf_functional E [:: sd] l -> same_vec sd f g -> apply l f = apply l g.
Proof.
move=> Hsd /and4P [_ _ H1 H2] [Hv Hd]. rewrite /apply. congr (_ + _).
- apply: eq_big_seq => pw Hpw. apply: eq_big_seq => wc Hwc. have /comps1P [i Hi ->] := allP (allP H1 _ Hpw) _ Hwc. by rewrite Hv.
- apply: eq_big_seq => pw Hpw. apply: eq_big_seq => wc Hwc. have /andP [/comps1P [i Hi ->] /eqP Hs] := allP (allP H2 _ Hpw) _ Hwc. by rewrite Hd // Hs.
Qed.
Lemma same_vec_sym sd (f g : func F pt) : same_vec sd f g -> same_vec sd g f.
Proof. move=> [H1 H2]. by split=> *; rewrite (H1, H2). Qed.
Lemma same_vec_trans sd (f g h : func F pt) : same_vec sd f g -> same_vec sd g h -> same_vec sd f h.
Proof. move=> [H1 H2] [H3 H4]. split=> *; [by rewrite H1 // H3|by rewrite H2 // H4]. Qed.
(** p + x q has the announced values *)
Lemma pval_shift sd m i (q : seq nat -> F) x : (i < sd)%N ->
  \sum_(a <- exps sd m.+1) (if (0 < nth 0%N a i)%N then q (set_nth 0%N a i (nth 0%N a i).-1) else 0) * mono a x = nth 0 x i * pval sd m q x.
Proof.
move=> Hi. have -> : \sum_(a <- exps sd m.+1) (if (0 < nth 0%N a i)%N then q (set_nth 0%N a i (nth 0%N a i).-1) else 0) * mono a x =
  \sum_(a <- exps sd m.+1 | (0 < nth 0%N a i)%N) q (set_nth 0%N a i (nth 0%N a i).-1) * mono a x.
{ rewrite [RHS]big_mkcond. apply: eq_bigr => a _. case: ifP => // _. by rewrite mul0r. }
rewrite -big_filter.
have Pm : perm_eq [seq a <- exps sd m.+1 | (0 < nth 0 a i)%N] [seq set_nth 0%N a i (nth 0%N a i).+1 | a <- exps sd m].
{ apply: uniq_perm; first exact/filter_uniq/exps_uniq.
  - rewrite map_inj_in_uniq ?exps_uniq // => a b. rewrite !exps_mem => /andP [/eqP Sa _] /andP [/eqP Sb _] Eab.
    apply: (@eq_from_nth _ 0%N); first by rewrite Sa Sb. move=> j Hj.
    have := congr1 (fun s => nth 0%N s j) Eab. rewrite !nth_set_nth /=. case: (j =P i) => [->|] //. by case.
  - move=> a. rewrite mem_filter exps_mem. apply/andP/mapP => [[Ha /andP [/eqP Sa Da]]|[b]].
    + exists (set_nth 0%N a i (nth 0%N a i).-1).
      * rewrite exps_mem size_set_nth Sa (maxn_idPr _) // eqxx sumn_set_nth ?Sa //=. have := nth_sumn a i. lia.
      * rewrite nth_set_nth /= eqxx prednK //. apply: (@eq_from_nth _ 0%N); first by rewrite !size_set_nth Sa; lia.
        move=> j Hj. rewrite nth_set_nth /=. case: (j =P i) => [->|/eqP/negbTE Hj'] //. by rewrite nth_set_nth /= Hj'.
    + rewrite exps_mem => /andP [/eqP Sb Db] ->. rewrite nth_set_nth /= eqxx. split=> //.
      rewrite size_set_nth Sb (maxn_idPr _) // eqxx sumn_set_nth ?Sb //=. have := nth_sumn b i. lia. }
rewrite (perm_big _ Pm) big_map /pval mulr_sumr. apply: eq_big_seq => a. rewrite exps_mem => /andP [/eqP Sa _].
rewrite nth_set_nth /= eqxx /= mulrCA. congr (_ * _).
- congr q. apply: (@eq_from_nth _ 0%N); first by rewrite !size_set_nth Sa; lia. move=> j Hj. rewrite nth_set_nth /=. case: (j =P i) => [->|/eqP/negbTE Hj'] //. by rewrite nth_set_nth /= Hj'.
- rewrite mono_set_nth ?Sa // exprS -mulrA -mono_set_nth ?Sa //. congr (_ * mono _ _).
  apply: (@eq_from_nth _ 0%N); first by rewrite size_set_nth Sa; lia. move=> j Hj. rewrite nth_set_nth /=. case: eqP => [->|] //.
Qed.
Lemma pval_low sd m k (p : seq nat -> F) x : (m <= k)%N -> pval sd k (fun a => if (sumn a <= m)%N then p a else 0) x = pval sd m p x.
Proof.
move=> Hk. rewrite /pval. have -> : \sum_(a <- exps sd k) (if (sumn a <= m)%N then p a else 0) * mono a x = \sum_(a <- exps sd k | (sumn a <= m)%N) p a * mono a x.
{ rewrite [RHS]big_mkcond. apply: eq_bigr => a _. case: ifP => // _. by rewrite mul0r. }
rewrite -big_filter. apply: perm_big. apply: uniq_perm; first exact/filter_uniq/exps_uniq.
- exact: exps_uniq.
- move=> a. rewrite mem_filter !exps_mem andbCA andbA -andbA. case: (size a == sd) => //=. lia.
Qed.
Lemma pval_rt sd m p q i x : (i < sd)%N -> pval sd m.+1 (rt_cf m p q i) x = pval sd m (p i) x + nth 0 x i * pval sd m q x :> F.
Proof.
move=> Hi. rewrite /rt_cf /pval. under eq_bigr do rewrite mulrDl. rewrite big_split /=. congr (_ + _); last exact: pval_shift.
exact: (pval_low sd (p i) x (leqnSn m)).
Qed.
End Basics.

Section VElem.
Variable F : fieldType.
Hypothesis F0 : char_zero F.
Variable sqrt : F -> F.
Hypothesis Hsq : sqrt_exact sqrt.
Notation pt := [eqType of seq F].
Variables (c : cell) (n : nat).
Hypothesis Hc : SpecFam.simplex c.
Notation sd := (sdim_of c).
Let N := size (exps sd n).
Let E := exp_set sqrt c n N.
Notation nil_f := (@mkFunctional F pt [::] [::] [::]).

(** expansions with vector coefficients are vector polynomials, and conversely *)
Lemma expand_vec : exists cf : nat -> seq nat -> F,
  (forall r : rowT F, same_vec sd (expand E r) (vec_func sd n (fun i a => \sum_(k < N) r [:: i] k * cf k a))) /\
  (forall k x, (k < N)%N -> phi E k x = pval sd n (cf k) x).
Proof.
have [cf [H1 H2 _]] := exp_cf F0 Hsq n Hc. exists cf. split=> // r. split.
- move=> i x Hi /=. rewrite -pval_sum. apply: eq_bigr => k _. by rewrite -H1.
- move=> i al x Hi Hal. rewrite [RHS]/= -pder_sum. apply: eq_bigr => k _. by rewrite -H2.
Qed.
Lemma vec_expand (cg : nat -> seq nat -> F) : exists r : rowT F, same_vec sd (expand E r) (vec_func sd n cg).
Proof.
have H i : exists r : rowT F, same_func sd (expand E r) (poly_func sd n (cg i)) by exact: poly_expand.
have Hm m : exists r : nat -> rowT F, forall i, (i < m)%N -> same_func sd (expand E (r i)) (poly_func sd n (cg i)).
{ elim: m => [|d [r Hr]]; first by exists (fun _ _ _ => 0). have [r' Hr'] := H d.
  exists (fun i => if i == d then r' else r i) => i Hi. case: eqP => [->|Hne] //. apply: Hr. lia. }
have [r Hr] := Hm sd. exists (fun c k => if c is [:: i] then r i [::] k else 0). split.
- move=> i x Hi /=. have [G _] := Hr i Hi. by have := G x.
- move=> i al x Hi Hal. have [_ G] := Hr i Hi. by have := G al x Hal.
Qed.
(** an expansion that vanishes has zero coefficients *)
Lemma expand_zero (r : rowT F) i : (forall x, size x = sd -> fval (expand E r) [:: i] x = 0) -> forall k, (k < N)%N -> r [:: i] k = 0.
Proof.
have [N' [cf [_ H0 [H1 _ H3]]]] := exp_ok F0 Hsq n Hc. rewrite H0 -/N in H1 H3. move=> H. apply: (H3 (fun k => r [:: i] k)) => x Hx.
rewrite -[RHS](H x Hx) /=. apply: eq_bigr => k _. congr (_ * _). by rewrite H1 nth_map_iota.
Qed.

Variables (U : polyset F) (nodes : seq (functional F pt)) (S : (nat -> seq nat -> F) -> Prop).
Hypothesis HG : good_nodes E nodes U.
Hypothesis Hshp : pshape U = [:: sd].
Hypothesis HS : size nodes = num_members U.
(** the members span the space *)
Hypothesis HU1 : forall a, exists2 cfs, S cfs & same_vec sd (combination E U a) (vec_func sd n cfs).
Hypothesis HU2 : forall cfs, S cfs -> exists a, same_vec sd (vec_func sd n cfs) (combination E U a).
(** and are independent *)
Hypothesis HUi : forall a : nat -> F, (forall i k, (i < sd)%N -> (k < N)%N -> \sum_(j < num_members U) a j * coeffs U j [:: i] k = 0) ->
  forall j, (j < num_members U)%N -> a j = 0.
(** the nodes determine the fields of the space *)
Hypothesis Hdet : forall cfs, S cfs -> (forall i, (i < size nodes)%N -> apply (nth nil_f nodes i) (vec_func sd n cfs) = 0) ->
  forall i x, (i < sd)%N -> size x = sd -> pval sd n (cfs i) x = 0.
Lemma vnodes_wf i : (i < size nodes)%N -> wf_functional E [:: sd] (nth nil_f nodes i).
Proof. move=> Hi. case: HG => _ _ H _. rewrite -Hshp. exact: (all_nthP _ H i Hi). Qed.
Lemma apply_nodes i f g : (i < size nodes)%N -> same_vec sd f g -> apply (nth nil_f nodes i) f = apply (nth nil_f nodes i) g.
Proof. move=> Hi. exact: (@apply_vec _ E sd _ _ _ erefl (vnodes_wf Hi)). Qed.

Lemma velem_ok : exists U', ciarlet E nodes U = Ok U' /\
  [/\ num_members U' = size nodes, pshape U' = [:: sd],
      forall j, (j < size nodes)%N -> exists2 cfs, S cfs & same_vec sd (member E U' j) (vec_func sd n cfs),
      forall i j, (i < size nodes)%N -> (j < size nodes)%N -> apply (nth nil_f nodes i) (member E U' j) = (i == j)%:R &
      forall cfs, S cfs -> same_vec sd (vec_func sd n cfs) (vec_sum (size nodes) (fun j => apply (nth nil_f nodes j) (vec_func sd n cfs)) (member E U'))].
Proof.
have HU : unisolvent E nodes U.
{ split=> // a Ha. have [cfs Sc Hcf] := HU1 a. apply: HUi => i k Hi Hk.
  apply: (@expand_zero (fun c i => \sum_(j < num_members U) a j * coeffs U j c i)) Hk => x Hx.
  have [G _] := Hcf. rewrite -/(combination E U a) G //. apply: (Hdet Sc) => // l Hl.
  rewrite -(apply_nodes Hl Hcf). exact: Ha. }
have [/(_ HU) [U' HU'] _] := C10_construction_iff_unisolvent HG. exists U'. split=> //.
have [M1 M0 M2 M3 [M4 [M5 _]]] := C10_nodal_basis HG HU'.
split=> //; first by rewrite M2.
- move=> j Hj. have [a Ha] := M4 j Hj. have [cfs Sc Hcf] := HU1 a. exists cfs => //. apply: same_vec_trans Hcf.
  have A i : (i < sd)%N -> [:: i] \in comps (pshape U) by move=> Hi; rewrite Hshp; apply/comps1P; exists i.
  split=> [i x Hi|i al x Hi Hal] /=; apply: eq_bigr => k _; congr (_ * _); by rewrite Ha ?A // HS.
- move=> cfs Sc. have [a Ha] := HU2 Sc.
  (* a combination of U is a combination of U' *)
  have [b Hb] : exists b : nat -> F, same_vec sd (combination E U a) (lincomb (size nodes) b (member E U')).
  { have [e He] : exists e : nat -> nat -> F, forall j, (j < size nodes)%N -> forall c0 k, c0 \in comps (pshape U) -> (k < N)%N -> coeffs U j c0 k = \sum_(l < size nodes) e j l * coeffs U' l c0 k.
    { have : forall m, (m <= size nodes)%N -> exists e : nat -> nat -> F, forall j, (j < m)%N -> forall c0 k, c0 \in comps (pshape U) -> (k < N)%N -> coeffs U j c0 k = \sum_(l < size nodes) e j l * coeffs U' l c0 k.
      { elim=> [|m IH] Hm; first by exists (fun _ _ => 0). have [e He] := IH (ltnW Hm). have [e' He'] := M5 m Hm.
        exists (fun j => if j == m then e' else e j) => j Hj. case: eqP => [->|Hne] //. apply: He. lia. }
      by move/(_ _ (leqnn _)). }
    exists (fun l => \sum_(j < size nodes) a j * e j l).
    have A i : (i < sd)%N -> [:: i] \in comps (pshape U) by move=> Hi; rewrite Hshp; apply/comps1P; exists i.
    have Q i k : (i < sd)%N -> (k < N)%N -> \sum_(j < num_members U) a j * coeffs U j [:: i] k = \sum_(l < size nodes) (\sum_(j < size nodes) a j * e j l) * coeffs U' l [:: i] k.
    { move=> Hi Hk. rewrite -HS. under [RHS]eq_bigr do rewrite mulr_suml. rewrite exchange_big /=. apply: eq_bigr => j _. rewrite He ?A // mulr_sumr.
      apply: eq_bigr => l _. by rewrite mulrA. }
    split=> [i x Hi|i al x Hi Hal] /=; under eq_bigr => k _ do rewrite Q //; under eq_bigr => k _ do rewrite mulr_suml; rewrite exchange_big; apply: eq_bigr => l _;
      rewrite mulr_sumr; apply: eq_bigr => k _; by rewrite mulrA. }
  have Hf := same_vec_trans Ha Hb.
  have Et j : (j < size nodes)%N -> apply (nth nil_f nodes j) (vec_func sd n cfs) = b j.
  { move=> Hj. rewrite (apply_nodes Hj Hf) apply_lincomb (bigD1 (Ordinal Hj)) //= M3 // eqxx mulr1 big1 ?addr0 // => l Hl.
    rewrite M3 //. have -> : (j == l :> nat) = false by apply/eqP => Ek; case/eqP: Hl; exact/val_inj. by rewrite mulr0. }
  apply: (same_vec_trans Hf). split=> *; apply: eq_bigr => l _; by rewrite Et.
Qed.
End VElem.
