(** Symmetric tensor valued polynomial sets, the lattice points of a simplex whose
    weights on two given vertices are positive, and the components of a symmetric
    tensor along the edges. *)
Set Warnings "-notation-overridden,-ambiguous-paths".
From mathcomp Require Import all_ssreflect all_algebra zify.
From Verif Require Base ModelIndex SpecIndex ModelPolySet ProofsPolySet ModelCell SpecCell SpecFam ModelFam PropsSimplexTopo ProofsEntPts.
From Verif Require Import FieldTac SpecJacobi ProofsDmatsReg PropsExpansion ModelDmats ModelDual SpecDual ProofsDual SpecPoly SpecRT SpecTens ModelSpace ModelTens ProofsLagLat ProofsSpace ProofsSpaceCell ProofsElem ProofsPolyClo
  ProofsTaylor PropsConform ProofsTensElem.
Set Implicit Arguments. Unset Strict Implicit. Unset Printing Implicit Defensive.
Import GRing.Theory.
Local Open Scope ring_scope.

(** positions in the member list *)
Notation gnum d := (PeanoNat.Nat.div (d * (d + 1)) 2).
Definition sym_pos (d i l : nat) : nat := find (fun ts => [:: i; l] \in (ts : seq (seq nat))) (ProofsPolySet.sym_groups d).
Definition sym_rep (d g : nat) : seq nat := head [::] (nth [::] (ProofsPolySet.sym_groups d) g).
Lemma sym_posP d i l k : (2 <= d <= 3)%N -> (i < d)%N -> (l < d)%N ->
  (exists ts, List.nth_error (ProofsPolySet.sym_groups d) k = Some ts /\ List.In [:: i; l] ts) <-> k = sym_pos d i l.
Proof.
have D : (d = 2 \/ d = 3 -> (i < d)%N -> (l < d)%N -> (exists ts, List.nth_error (ProofsPolySet.sym_groups d) k = Some ts /\ List.In [:: i; l] ts) <-> k = sym_pos d i l)%N.
{ case=> -> {d}; case: i => [|[|[|i]]] // _; case: l => [|[|[|l]]] // _; (split=> [[ts [H1 H2]]|->]; last by eexists; split; [reflexivity|rewrite /=; auto]);
  do 6 (try (case: k H1 => [|k] H1; first by (vm_compute in H1; first [discriminate H1 | injection H1 as <-; simpl in H2; by intuition (try discriminate)]))); vm_compute in H1; by case: k H1. }
move=> Hd. apply: D. lia.
Qed.
Lemma sym_coef d N b i l e : (2 <= d <= 3)%N -> (i < d)%N -> (l < d)%N ->
  ModelPolySet.coeff (ModelPolySet.sym_layout d N) b [:: i; l] e = (e < N)%N && (b == sym_pos d i l * N + e)%N.
Proof.
move=> Hd Hi Hl. apply/idP/idP.
- move/(proj1 (ProofsPolySet.sym_layout_spec _ _ _ _ _)) => [k [ts [H1 [H2 [H3 H4]]]]].
  have Ek : k = sym_pos d i l by apply/sym_posP => //; exists ts. rewrite -Ek H4. apply/andP; split; [exact/ssrnat.ltP|exact: eqxx].
- case/andP => /ssrnat.ltP He /eqP ->. apply/(ProofsPolySet.sym_layout_spec _ _ _ _ _). exists (sym_pos d i l).
  have [ts [H1 H2]] := proj2 (sym_posP (sym_pos d i l) Hd Hi Hl) erefl. by exists ts.
Qed.
Lemma sym_pos_lt d i l : (2 <= d <= 3)%N -> (i < d)%N -> (l < d)%N -> (sym_pos d i l < gnum d)%N.
Proof. have D : (d = 2 \/ d = 3 -> (i < d)%N -> (l < d)%N -> (sym_pos d i l < gnum d)%N)%N by case=> -> {d}; case: i => [|[|[|i]]] // _; case: l => [|[|[|l]]]. move=> Hd. apply: D. lia. Qed.
Lemma sym_repP d i l : (2 <= d <= 3)%N -> (i < d)%N -> (l < d)%N -> sym_rep d (sym_pos d i l) = [:: i; l] \/ sym_rep d (sym_pos d i l) = [:: l; i].
Proof. have D : (d = 2 \/ d = 3 -> (i < d)%N -> (l < d)%N -> sym_rep d (sym_pos d i l) = [:: i; l] \/ sym_rep d (sym_pos d i l) = [:: l; i])%N by case=> -> {d}; case: i => [|[|[|i]]] // _; case: l => [|[|[|l]]] // _; auto. move=> Hd. apply: D. lia. Qed.
Lemma sym_pos_onto d g : (2 <= d <= 3)%N -> (g < gnum d)%N -> exists i l, [/\ (i < d)%N, (l < d)%N & sym_pos d i l = g].
Proof.
have D : (d = 2 \/ d = 3 -> (g < gnum d)%N -> exists i l, [/\ (i < d)%N, (l < d)%N & sym_pos d i l = g])%N; last by move=> Hd; apply: D; lia.
case=> -> {d}.
- case: g => [|[|[|g]]] // _; [by exists 0%N, 0%N|by exists 0%N, 1%N|by exists 1%N, 1%N].
- case: g => [|[|[|[|[|[|g]]]]]] // _; [by exists 0%N, 0%N|by exists 0%N, 1%N|by exists 0%N, 2%N|by exists 1%N, 1%N|by exists 1%N, 2%N|by exists 2%N, 2%N].
Qed.
Lemma comps2P d cmp : reflect (exists i l, [/\ (i < d)%N, (l < d)%N & cmp = [:: i; l]]) (cmp \in comps [:: d; d]).
Proof.
apply: (iffP idP) => [/flattenP [s /mapP [i]]|[i [l [Hi Hl ->]]]].
- rewrite mem_iota => /andP [_ Hi] -> /mapP [c' /flattenP [s' /mapP [l]]]. rewrite mem_iota => /andP [_ Hl] -> /= . rewrite inE => /eqP -> ->. by exists i, l.
- apply/flattenP. eexists; first by apply/mapP; exists i; rewrite ?mem_iota.
  apply/mapP. exists [:: l] => //. apply/flattenP. eexists; first by apply/mapP; exists l; rewrite ?mem_iota. by rewrite inE.
Qed.

Section Set_.
Variable F : fieldType.
Hypothesis F0 : char_zero F.
Variable sqrt : F -> F.
Hypothesis Hsq : sqrt_exact sqrt.
Notation pt := [eqType of seq F].
Notation K := (mcF F).
Variables (c : cell) (n : nat).
Hypothesis Hc : SpecFam.simplex c.
Notation sd := (sdim_of c).
Hypothesis Hd : (2 <= sd <= 3)%N.
Let N := size (exps sd n).
Let E := exp_set sqrt c n N.
Definition sym_U : polyset F := mkPolySet (ModelPolySet.sym_num_members sd N) [:: sd; sd]
          (fun j cmp i => (ModelPolySet.coeff (ModelPolySet.sym_layout sd N) j cmp i)%:R).
Lemma sym_set_ok : sym_set sqrt c n = Ok sym_U /\ ModelFam.polynomial_dimension c n = Base.Ok N.
Proof.
have [N' [cf [H1 H2 [_ H3 _]]]] := exp_ok F0 Hsq n Hc. rewrite /sym_set H1 H2 -/N. split=> //.
have [js [-> _]] := H3 [::] 0%N. by [].
Qed.
Lemma sym_num : num_members sym_U = (gnum sd * N)%N. Proof. by []. Qed.
Lemma sym_sum (a : nat -> F) i l k : (i < sd)%N -> (l < sd)%N -> (k < N)%N ->
  \sum_(j < num_members sym_U) a j * coeffs sym_U j [:: i; l] k = a (sym_pos sd i l * N + k)%N.
Proof.
move=> Hi Hl Hk. have B : (sym_pos sd i l * N + k < num_members sym_U)%N.
{ rewrite sym_num. have := sym_pos_lt Hd Hi Hl. move: (gnum sd) (sym_pos sd i l) => G p. nia. }
rewrite (bigD1 (Ordinal B)) //= sym_coef // Hk eqxx mulr1 big1 ?addr0 // => j Hj. rewrite sym_coef // Hk /=.
have -> : (j == sym_pos sd i l * N + k :> nat)%N = false by apply/eqP => Ej; case/eqP: Hj; exact: val_inj. by rewrite mulr0.
Qed.
Lemma sym_indep (a : nat -> F) : (forall i k, i \in comps [:: sd; sd] -> (k < N)%N -> \sum_(j < num_members sym_U) a j * coeffs sym_U j i k = 0) ->
  forall j, (j < num_members sym_U)%N -> a j = 0.
Proof.
move=> H j. rewrite sym_num => Hj. have N0 : (0 < N)%N by case: (posnP N) Hj => // ->; rewrite muln0.
have Hg : (j %/ N < gnum sd)%N by rewrite ltn_divLR.
have [i [l [Hi Hl Ep]]] := sym_pos_onto Hd Hg.
have := H [:: i; l] (j %% N)%N. rewrite sym_sum ?ltn_mod // Ep -divn_eq. apply; [|by []]. apply/comps2P. by exists i, l.
Qed.
Lemma sym_span1 a : exists2 cfs, sym_field sd cfs & same_tens [:: sd; sd] sd (combination E sym_U a) (tens_func sd n cfs).
Proof.
have [cf [H1 _]] := expand_tens F0 Hsq n [:: sd; sd] Hc. eexists; last exact: H1.
move=> i j al Hi Hj. apply: eq_bigr => k _. congr (_ * _). apply: eq_bigr => m _. by rewrite /= ProofsPolySet.sym_layout_symmetric.
Qed.
Lemma sym_span2 cfs : sym_field sd cfs -> exists a, same_tens [:: sd; sd] sd (tens_func sd n cfs) (combination E sym_U a).
Proof.
move=> Hs. have [r [R1 R2]] := tens_expand F0 Hsq n [:: sd; sd] Hc cfs.
exists (fun j => r (sym_rep sd (j %/ N)) (j %% N)%N).
have Q i l k : (i < sd)%N -> (l < sd)%N -> (k < N)%N -> \sum_(j < num_members sym_U) r (sym_rep sd (j %/ N)) (j %% N)%N * coeffs sym_U j [:: i; l] k = r (sym_rep sd (sym_pos sd i l)) k.
{ move=> Hi Hl Hk. rewrite (sym_sum (fun j => r (sym_rep sd (j %/ N)) (j %% N)%N)) // divnMDl ?modnMDl ?divn_small ?modn_small ?addn0 //. lia. }
have Sy i l : (i < sd)%N -> (l < sd)%N -> sym_rep sd (sym_pos sd i l) \in comps [:: sd; sd] /\ forall a, cfs (sym_rep sd (sym_pos sd i l)) a = cfs [:: i; l] a.
{ move=> Hi Hl. case: (sym_repP Hd Hi Hl) => ->; split=> //; try (apply/comps2P; first [by exists i, l|by exists l, i]). move=> a. exact: Hs. }
split=> [cmp x /comps2P [i [l [Hi Hl ->]]]|cmp al x /comps2P [i [l [Hi Hl ->]]] Hal]; have [S1 S2] := Sy i l Hi Hl.
- transitivity (fval (expand E r) (sym_rep sd (sym_pos sd i l)) x); last by apply: eq_bigr => k _; rewrite Q.
  rewrite R1 //=. apply: eq_bigr => a _. by rewrite S2.
- transitivity (fder (expand E r) (sym_rep sd (sym_pos sd i l)) al x); last by apply: eq_bigr => k _; rewrite Q.
  rewrite R2 //=. apply: eq_bigr => a _. by rewrite S2.
Qed.
End Set_.
