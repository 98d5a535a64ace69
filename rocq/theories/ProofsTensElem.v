(** Tensor valued elements: a polynomial set whose span is a given space of
    polynomial fields, and nodes that determine the fields of the space. *)
Set Warnings "-notation-overridden,-ambiguous-paths".
From mathcomp Require Import all_ssreflect all_algebra zify.
From Verif Require Base ModelIndex ModelCell SpecFam ModelFam.
From Verif Require Import FieldTac SpecJacobi ProofsDmatsReg SpecExpansion ModelDmats ProofsExpProg ProofsExpOrtho ProofsExpIdx PropsExpansion ProofsDmats.
From Verif Require Import ModelDual SpecDual ProofsDual PropsDual SpecPoly SpecTens ModelSpace ProofsLagLat ProofsSpace ProofsSpaceDer ProofsSpaceCell ProofsElem ProofsPolyClo.
Set Implicit Arguments. Unset Strict Implicit. Unset Printing Implicit Defensive.
Import GRing.Theory.
Local Open Scope ring_scope.

Section Basics.
Variable F : fieldType.
Notation pt := [eqType of seq F].
Variable shp : seq nat.
Lemma apply_tens (E : expansion F pt) l (f g : func F pt) : wf_functional E shp l -> same_tens shp (sdim E) f g -> apply l f = apply l g.
Proof.
move=> /and4P [_ _ H1 H2] [Hv Hd]. rewrite /apply. congr (_ + _).
- apply: eq_big_seq => pw Hpw. apply: eq_big_seq => wc Hwc. by rewrite Hv // (allP (allP H1 _ Hpw) _ Hwc).
- apply: eq_big_seq => pw Hpw. apply: eq_big_seq => wc Hwc. have /andP [Hc /eqP Hs] := allP (allP H2 _ Hpw) _ Hwc. by rewrite Hd.
Qed.
Lemma same_tens_trans sd (f g h : func F pt) : same_tens shp sd f g -> same_tens shp sd g h -> same_tens shp sd f h.
Proof. move=> [H1 H2] [H3 H4]. split=> *; [by rewrite H1 // H3|by rewrite H2 // H4]. Qed.
End Basics.

Section TElem.
Variable F : fieldType.
Hypothesis F0 : char_zero F.
Variable sqrt : F -> F.
Hypothesis Hsq : sqrt_exact sqrt.
Notation pt := [eqType of seq F].
Variables (c : cell) (n : nat) (shp : seq nat).
Hypothesis Hc : SpecFam.simplex c.
Notation sd := (sdim_of c).
Let N := size (exps sd n).
Let E := exp_set sqrt c n N.
Notation nil_f := (@mkFunctional F pt [::] [::] [::]).

(** expansions with tensor coefficients are tensor polynomials, and conversely *)
Lemma expand_tens : exists cf : nat -> seq nat -> F,
  (forall r : rowT F, same_tens shp sd (expand E r) (tens_func sd n (fun i a => \sum_(k < N) r i k * cf k a))) /\
  (forall k x, (k < N)%N -> phi E k x = pval sd n (cf k) x).
Proof.
have [cf [H1 H2 _]] := exp_cf F0 Hsq n Hc. exists cf. split=> // r. split.
- move=> i x Hi /=. rewrite -pval_sum. apply: eq_bigr => k _. by rewrite -H1.
- move=> i al x Hi Hal. rewrite [RHS]/= -pder_sum. apply: eq_bigr => k _. by rewrite -H2.
Qed.
Lemma tens_expand (cg : seq nat -> seq nat -> F) : exists r : rowT F, same_tens shp sd (expand E r) (tens_func sd n cg).
Proof.
have H i : exists r : rowT F, same_func sd (expand E r) (poly_func sd n (cg i)) by exact: poly_expand.
have Hm (L : seq (seq nat)) : exists r : seq nat -> rowT F, forall i, i \in L -> same_func sd (expand E (r i)) (poly_func sd n (cg i)).
{ elim: L => [|d L [r Hr]]; first by exists (fun _ _ _ => 0). have [r' Hr'] := H d.
  exists (fun i => if i == d then r' else r i) => i. rewrite inE. case: eqP => [->|Hne] //=. exact: Hr. }
have [r Hr] := Hm (comps shp). exists (fun c k => r c [::] k). split.
- move=> i x Hi /=. have [G _] := Hr i Hi. by have := G x.
- move=> i al x Hi Hal. have [_ G] := Hr i Hi. by have := G al x Hal.
Qed.
(** an expansion that vanishes has zero coefficients *)
Lemma texpand_zero (r : rowT F) i : (forall x, size x = sd -> fval (expand E r) i x = 0) -> forall k, (k < N)%N -> r i k = 0.
Proof.
have [N' [cf [_ H0 [H1 _ H3]]]] := exp_ok F0 Hsq n Hc. rewrite H0 -/N in H1 H3. move=> H. apply: (H3 (fun k => r i k)) => x Hx.
rewrite -[RHS](H x Hx) /=. apply: eq_bigr => k _. congr (_ * _). by rewrite H1 nth_map_iota.
Qed.

Variables (U : polyset F) (nodes : seq (functional F pt)) (S : (seq nat -> seq nat -> F) -> Prop).
Hypothesis HG : good_nodes E nodes U.
Hypothesis Hshp : pshape U = shp.
Hypothesis HS : size nodes = num_members U.
(** the members span the space *)
Hypothesis HU1 : forall a, exists2 cfs, S cfs & same_tens shp sd (combination E U a) (tens_func sd n cfs).
Hypothesis HU2 : forall cfs, S cfs -> exists a, same_tens shp sd (tens_func sd n cfs) (combination E U a).
(** and are independent *)
Hypothesis HUi : forall a : nat -> F, (forall i k, i \in comps shp -> (k < N)%N -> \sum_(j < num_members U) a j * coeffs U j i k = 0) ->
  forall j, (j < num_members U)%N -> a j = 0.
(** the nodes determine the fields of the space *)
Hypothesis Hdet : forall cfs, S cfs -> (forall i, (i < size nodes)%N -> apply (nth nil_f nodes i) (tens_func sd n cfs) = 0) ->
  forall i x, i \in comps shp -> size x = sd -> pval sd n (cfs i) x = 0.
Lemma tnodes_wf i : (i < size nodes)%N -> wf_functional E shp (nth nil_f nodes i).
Proof. move=> Hi. case: HG => _ _ H _. rewrite -Hshp. exact: (all_nthP _ H i Hi). Qed.
Lemma tapply_nodes i f g : (i < size nodes)%N -> same_tens shp sd f g -> apply (nth nil_f nodes i) f = apply (nth nil_f nodes i) g.
Proof. move=> Hi. exact: (@apply_tens _ _ E _ _ _ (tnodes_wf Hi)). Qed.

Lemma telem_ok : exists U', ciarlet E nodes U = Ok U' /\ tens_nodal sqrt c n shp S nodes U'.
Proof.
have HU : unisolvent E nodes U.
{ split=> // a Ha. have [cfs Sc Hcf] := HU1 a. apply: HUi => i k Hi Hk.
  apply: (@texpand_zero (fun c i => \sum_(j < num_members U) a j * coeffs U j c i)) Hk => x Hx.
  have [G _] := Hcf. rewrite -/(combination E U a) G //. apply: (Hdet Sc) => // l Hl.
  rewrite -(tapply_nodes Hl Hcf). exact: Ha. }
have [/(_ HU) [U' HU'] _] := C10_construction_iff_unisolvent HG. exists U'. split=> //.
have [M1 M0 M2 M3 [M4 [M5 _]]] := C10_nodal_basis HG HU'.
split=> //; first by rewrite M2.
- move=> j Hj. have [a Ha] := M4 j Hj. have [cfs Sc Hcf] := HU1 a. exists cfs => //. apply: same_tens_trans Hcf.
  split=> [i x Hi|i al x Hi Hal] /=; apply: eq_bigr => k _; congr (_ * _); by rewrite Ha ?Hshp // HS.
- move=> cfs Sc. have [a Ha] := HU2 Sc.
  have [b Hb] : exists b : nat -> F, same_tens shp sd (combination E U a) (lincomb (size nodes) b (member E U')).
  { have [e He] : exists e : nat -> nat -> F, forall j, (j < size nodes)%N -> forall c0 k, c0 \in comps (pshape U) -> (k < N)%N -> coeffs U j c0 k = \sum_(l < size nodes) e j l * coeffs U' l c0 k.
    { have : forall m, (m <= size nodes)%N -> exists e : nat -> nat -> F, forall j, (j < m)%N -> forall c0 k, c0 \in comps (pshape U) -> (k < N)%N -> coeffs U j c0 k = \sum_(l < size nodes) e j l * coeffs U' l c0 k.
      { elim=> [|m IH] Hm; first by exists (fun _ _ => 0). have [e He] := IH (ltnW Hm). have [e' He'] := M5 m Hm.
        exists (fun j => if j == m then e' else e j) => j Hj. case: eqP => [->|Hne] //. apply: He. lia. }
      by move/(_ _ (leqnn _)). }
    exists (fun l => \sum_(j < size nodes) a j * e j l).
    have Q i k : i \in comps shp -> (k < N)%N -> \sum_(j < num_members U) a j * coeffs U j i k = \sum_(l < size nodes) (\sum_(j < size nodes) a j * e j l) * coeffs U' l i k.
    { move=> Hi Hk. rewrite -HS. under [RHS]eq_bigr do rewrite mulr_suml. rewrite exchange_big /=. apply: eq_bigr => j _. rewrite He ?Hshp // mulr_sumr.
      apply: eq_bigr => l _. by rewrite mulrA. }
    split=> [i x Hi|i al x Hi Hal] /=; under eq_bigr => k _ do rewrite Q //; under eq_bigr => k _ do rewrite mulr_suml; rewrite exchange_big; apply: eq_bigr => l _;
      rewrite mulr_sumr; apply: eq_bigr => k _; by rewrite mulrA. }
  have Hf := same_tens_trans Ha Hb.
  have Et j : (j < size nodes)%N -> apply (nth nil_f nodes j) (tens_func sd n cfs) = b j.
  { move=> Hj. rewrite (tapply_nodes Hj Hf) apply_lincomb (bigD1 (Ordinal Hj)) //= M3 // eqxx mulr1 big1 ?addr0 // => l Hl.
    rewrite M3 //. have -> : (j == l :> nat) = false by apply/eqP => Ek; case/eqP: Hl; exact/val_inj. by rewrite mulr0. }
  apply: (same_tens_trans Hf). split=> *; apply: eq_bigr => l _; by rewrite Et.
Qed.
End TElem.
