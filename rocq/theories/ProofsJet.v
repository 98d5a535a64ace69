(** From nodes that determine P_n to a nodal basis, for nodes with derivatives. *)
Set Warnings "-notation-overridden,-ambiguous-paths".
From mathcomp Require Import all_ssreflect all_algebra zify.
From Verif Require Base ModelCell SpecFam ModelFam.
From Verif Require Import SpecJacobi ProofsDmatsReg PropsExpansion ModelDual SpecDual ProofsDual SpecPoly ModelSpace ProofsLagLat ProofsSpace ProofsSpaceCell ProofsElem SpecJet.
Set Implicit Arguments. Unset Strict Implicit. Unset Printing Implicit Defensive.
Import GRing.Theory.
Local Open Scope ring_scope.

Section Jet.
Variable F : fieldType.
Hypothesis F0 : char_zero F.
Variable sqrt : F -> F.
Hypothesis Hsq : sqrt_exact sqrt.
Notation pt := [eqType of seq F].
Notation fnl := (functional F pt).
Notation nil_f := (@mkFunctional F pt [::] [::] [::]).

(** [l] is the functional of the node [N] *)
Definition realizes (sd : nat) (l : fnl) (N : dnode F) : Prop :=
  [/\ target_shape l = [::], forall E : expansion F pt, sdim E = sd -> wf_functional E [::] l, deriv_dict l != [::] -> (0 < max_deriv_order l)%N &
      forall f : func F pt, apply l f = dval N (fval f [::]) (fder f [::])].
Lemma realizes_pe sd (x : seq F) : realizes sd (point_eval x) (at_pt x).
Proof. split=> // f. by rewrite /apply /dval /= big_nil addr0 !big_seq1. Qed.
Lemma realizes_pd sd (x : seq F) al : size al = sd -> (0 < sumn al)%N -> realizes sd (point_deriv x al) (der_at x al).
Proof.
move=> Hs Hp. split=> //.
- move=> E HE. by rewrite /wf_functional /= HE Hs eqxx.
- move=> _. rewrite /max_deriv_order /= big_seq1 /=.  by rewrite ?big_seq1 ?maxn0.
- move=> f. rewrite /apply /dval /= big_nil add0r !big_seq1 /=. case: al Hs Hp => //.
Qed.

Lemma jet_element c n (nodes : seq fnl) (nds : seq (dnode F)) : SpecFam.simplex c ->
  size nodes = size (exps (sdim_of c) n) -> size nds = size nodes ->
  (forall i, (i < size nodes)%N -> realizes (sdim_of c) (nth nil_f nodes i) (nth [::] nds i)) ->
  (forall cf, (forall i, (i < size nds)%N -> dval (nth [::] nds i) (pval (sdim_of c) n cf) (pder (sdim_of c) n cf) = 0) -> {in exps (sdim_of c) n, forall a, cf a = 0}) ->
  exists U', ciarlet (exp_set sqrt c n (size nodes)) nodes (mkPolySet (size nodes) [::] (fun j _ i => (i == j)%:R)) = Ok U' /\ jet_nodal sqrt c n U' nds.
Proof.
move=> Hc HS HD HR Hdet. have HN := exps_size n (proj2 (proj2 (simplex_dim Hc))).
have Ap i f : (i < size nodes)%N -> apply (nth nil_f nodes i) f = dval (nth [::] nds i) (fval f [::]) (fder f [::]) by move=> Hi; case: (HR i Hi).
have N0 : (0 < size nodes)%N.
{ rewrite HS. have : nseq (sdim_of c) 0%N \in exps (sdim_of c) n by rewrite exps_mem size_nseq eqxx sumn_nseq. by case: exps. }
have [|||U' [HU [M1 M2 M3 M4 M5]]] := @elem_ok F F0 sqrt Hsq c n Hc nodes.
- by [].
- split=> //.
  + have -> : head nil_f nodes = nth nil_f nodes 0 by case: (nodes). by case: (HR 0%N N0).
  + apply/(all_nthP nil_f) => i Hi. case: (HR i Hi) => _ W _ _. exact: W.
  + move/(has_nthP nil_f) => [i Hi Hd]. rewrite (big_nth nil_f) big_mkord. apply: (leq_trans _ (leq_bigmax (Ordinal Hi))) => /=.
    case: (HR i Hi) => _ _ P _. exact: P.
- move=> cf H. apply: Hdet => i Hi. rewrite HD in Hi. have := H i. rewrite -HS => /(_ Hi). by rewrite Ap.
exists U'. rewrite -HS in HU M1 M3 M4 M5. split; first by rewrite HS in HU *. 
rewrite /jet_nodal /bval /bder M1 HD.
split=> [|j Hj|i j Hi Hj|cf x|cf al x Hal]; first by [].
- have [cf [G1 G2]] := M3 j Hj. exists cf. split=> [x|al x Hal]; [exact: G1|exact: G2].
- have := M4 i j Hi Hj. rewrite Ap //.
- have [G1 _] := M5 cf. apply: (etrans (G1 x)). apply: eq_bigr => j _. congr (_ * _). by rewrite Ap.
- have [_ G2] := M5 cf. apply: (etrans (G2 al x Hal)). apply: eq_bigr => j _. congr (_ * _). by rewrite Ap.
Qed.
End Jet.
