(** C59: the Crouzeix-Raviart elements: nodes at the facet centroids, explicit
    basis functions, and the weak continuity of the element. *)
Set Warnings "-notation-overridden,-ambiguous-paths".
From mathcomp Require Import all_ssreflect all_algebra all_field zify.
From Verif Require Base ModelIndex SpecIndex ModelCell SpecCell SpecFam ModelFam PropsFam.
From Verif Require Import FieldTac SpecJacobi ProofsDmatsReg PropsExpansion ModelDual SpecDual SpecPoly ModelSpace SpecRT ProofsLagLat ProofsSpace ProofsSpaceCell ProofsPolyClo PropsLagrange PropsConform.
Set Implicit Arguments. Unset Strict Implicit. Unset Printing Implicit Defensive.
Import GRing.Theory Num.Theory.
Local Open Scope ring_scope.

Section C59.
Variable F : fieldType.
Hypothesis F0 : char_zero F.
Variable sqrt : F -> F.
Hypothesis Hsq : sqrt_exact sqrt.
Notation K := (mcF F).
Notation vts c := (ModelCell.vertices K c : seq (seq F)).
Notation facet c e := (ModelCell.lookup (ModelCell.topology c) (ModelCell.DI (sdim_of c - 1)) e).
Add Field FFcr : (mc_field_theory F).

(** [x] is the centroid of the vertices [W] *)
Definition centroid c (W : seq nat) (x : seq F) : Prop :=
  size x = sdim_of c /\ forall i, (i < sdim_of c)%N -> (size W)%:R * nth 0 x i = \sum_(v <- W) nth 0 (nth [::] (vts c) v) i.

Lemma affine sd cf : (0 < sd <= 3)%N -> exists A (B : nat -> F), forall x, pval sd 1 cf x = A + \sum_(i < sd) B i * nth 0 x i.
Proof.
case: sd => [|[|[|[|]]]] // _.
- exists (cf [:: 0%N]), (fun _ => cf [:: 1%N]) => x.
  by rewrite /pval /= !big_cons big_nil /mono /= !big_ord_recl !big_ord0 /= !expr0 !expr1 !mulr1 !addr0.
- exists (cf [:: 0%N; 0%N]), (fun i => if i == 0%N then cf [:: 1%N; 0%N] else cf [:: 0%N; 1%N]) => x.
  rewrite /pval /= !big_cons big_nil /mono /= !big_ord_recl !big_ord0 /= !expr0 !expr1 !mulr1 !mul1r !addr0.
  by rewrite -?addrA; congr (_ + _); rewrite addrC.
- exists (cf [:: 0%N; 0%N; 0%N]), (fun i => if i == 0%N then cf [:: 1%N; 0%N; 0%N] else if i == 1%N then cf [:: 0%N; 1%N; 0%N] else cf [:: 0%N; 0%N; 1%N]) => x.
  rewrite /pval /= !big_cons big_nil /mono /= !big_ord_recl !big_ord0 /= !expr0 !expr1 !mulr1 !mul1r !addr0.
  by rewrite -?addrA; congr (_ + _); rewrite addrC -addrA addrC -addrA; congr (_ + _); rewrite addrC.
Qed.
(** the value of a linear polynomial at a centroid is the average of its values
    at the vertices *)
Lemma mean c W x cf : SpecFam.simplex c -> centroid c W x ->
  (size W)%:R * pval (sdim_of c) 1 cf x = \sum_(v <- W) pval (sdim_of c) 1 cf (nth [::] (vts c) v).
Proof.
move=> Hc [Sx Hx]. have [|A [B E]] := @affine (sdim_of c) cf; first by case: c Hc {Sx Hx}.
rewrite E (eq_bigr _ (fun v _ => E _)) big_split /= mulrDr. congr (_ + _).
- by elim: W {Sx Hx} => [|v W IH] /=; rewrite ?big_nil ?mul0r // big_cons mulrS mulrDl mul1r IH.
- rewrite mulr_sumr exchange_big /=. apply: eq_bigr => i _. by rewrite mulrCA Hx // mulr_sumr.
Qed.
Lemma cr_nodes c : SpecFam.simplex c -> exists el pts,
  [/\ ModelFam.CrouzeixRaviart K c 1 = Base.Ok el, ModelFam.el_nodes K el = map (ModelFam.PointEvaluation K) pts,
      size pts = (sdim_of c).+1 &
      forall e W, facet c e = Some W -> [/\ (e < size pts)%N, SpecCell.dofs_on (ModelFam.el_ids K el) (ModelCell.DI (sdim_of c - 1), e) = [:: e] & centroid c W (nth [::] pts e)]].
Proof.
have T2 : 1 + 1 != 0 :> F by exact: (F0 (m := 2%N) isT).
have T3 : 1 + 1 + 1 != 0 :> F by have := F0 (m := 3%N) isT; rewrite -[3%:R]/(1 + (1 + 1) : F) addrA.
pose unpe (l : ModelFam.node K) : seq F := if l is ModelFam.PointEvaluation x then x else [::].
move=> Hc. exists (if ModelFam.CrouzeixRaviart K c 1 is Base.Ok el then el else ModelFam.mkEl K 0 [::] [::]).
exists (map unpe (ModelFam.el_nodes K (if ModelFam.CrouzeixRaviart K c 1 is Base.Ok el then el else ModelFam.mkEl K 0 [::] [::]))).
case: c Hc => // _; split; try reflexivity; rewrite [sdim_of _]/=; move=> e W.
all: case: e => [|[|[|[|e]]]] //=; case=> <-; split=> //; split=> //.
all: move=> i Hi; have {Hi} : List.In i (iota 0 3) by move: Hi; rewrite [sdim_of _]/=; case: i => [|[|[|i]]] //=; auto.
all: case=> [<-|[<-|[<-|[]]]].
all: rewrite !big_cons big_nil /= ?addr0.
all: rewrite ?mul1r ?mulr0 //.
all: rewrite -?[3%:R]/(1 + (1 + 1) : F) -?[2%:R]/(1 + 1 : F) /addF /mulF /divF /subF /oneF /zeroF /oppF; refine (_ : @eq F _ _).
all: try reflexivity.
all: ffield; repeat split; nz.
Qed.
(** every vertex misses exactly one facet *)
Lemma opposite c v : SpecFam.simplex c -> (v <= sdim_of c)%N -> exists e W, [/\ facet c e = Some W,
  forall j Wj, facet c j = Some Wj -> (v \in Wj) = (e != j) &
  forall g : nat -> F, \sum_(u <- W) g u + g v = \sum_(u < (sdim_of c).+1) g u].
Proof.
move=> Hc Hv.
pose ok e W := (facet c e == Some W) && all (fun j => if facet c j is Some Wj then (v \in Wj) == (e != j) else true) (iota 0 4)
  && perm_eq (v :: W) (iota 0 (sdim_of c).+1).
have K1 e W : ok e W -> [/\ facet c e = Some W, forall j Wj, facet c j = Some Wj -> (v \in Wj) = (e != j) &
  forall g : nat -> F, \sum_(u <- W) g u + g v = \sum_(u < (sdim_of c).+1) g u].
{ case/andP=> /andP [/eqP H1 /allP H2] H3. split=> // [j Wj Hj|g].
  - have Lj : (j < 4)%N by clear -Hc Hj; case: c Hc Hj => //= _; do 5 (try case: j => [|j] //).
    have := H2 j. rewrite mem_iota Hj => /(_ Lj) /eqP. by [].
  - by rewrite -(big_mkord xpredT g) /index_iota subn0 -(perm_big _ H3) /= big_cons addrC. }
suff : has (fun e => ok e (odflt [::] (facet c e))) (iota 0 4) by case/hasP => e _ /K1 HW; exists e, (odflt [::] (facet c e)).
move: {K1} Hv. rewrite /ok {ok}. by case: c Hc => //= _; case: v => [|[|[|[|v]]]].
Qed.

(** The Crouzeix-Raviart element of degree 1 on every simplex of FIAT: node [e]
    is the value at the centroid of facet [e], and it is the only node
    registered on facet [e].  For every linear polynomial the value at the
    centroid is the mean over the facet (the average of the vertex values).
    The basis function [j] is 1 at the vertices of facet [j], hence on the
    whole facet, and 1 - d at the opposite vertex. *)
Theorem C59_crouzeix_raviart : forall c, SpecFam.simplex c -> exists U el pts,
  [/\ ModelFam.CrouzeixRaviart K c 1 = Base.Ok el, ModelFam.el_nodes K el = map (ModelFam.PointEvaluation K) pts,
      crouzeix_raviart sqrt c 1 = Ok U & nodal_at sqrt c 1 U pts] /\
  [/\ size pts = (sdim_of c).+1,
      forall e W, facet c e = Some W -> [/\ (e < size pts)%N,
        SpecCell.dofs_on (ModelFam.el_ids K el) (ModelCell.DI (sdim_of c - 1), e) = [:: e] & centroid c W (nth [::] pts e)],
      forall e W cf, facet c e = Some W -> (sdim_of c)%:R * pval (sdim_of c) 1 cf (nth [::] pts e)
        = \sum_(v <- W) pval (sdim_of c) 1 cf (nth [::] (vts c) v),
      forall j Wj v, facet c j = Some Wj -> (v <= sdim_of c)%N ->
        basis sqrt c 1 U j (nth [::] (vts c) v) = if v \in Wj then 1 else 1 - (sdim_of c)%:R &
      forall j Wj x, facet c j = Some Wj -> in_plane (sdim_of c) (vts c) Wj x -> basis sqrt c 1 U j x = 1].
Proof.
move=> c Hc. have [el [pts [E1 E2 E3 E4]]] := cr_nodes Hc.
have [U [pts' [el' [E1' E2' _ E3' HN]]]] := (C47_crouzeix_raviart F0 Hsq 1 Hc).1 erefl.
have Eel : el' = el by move: E1'; rewrite E1 => -[].
have Epts : pts' = pts. { have inj : injective (ModelFam.PointEvaluation K) by move=> a b [->]. apply: (inj_map inj). by rewrite -E2 -E2' Eel. }
move: HN. rewrite Epts => HN {E1' E2' Eel Epts el' pts'}.
have Hd : (0 < sdim_of c)%N by case: (c) Hc. have Nd : (sdim_of c)%:R != 0 :> F by exact: F0.
have SW e W : facet c e = Some W -> size W = sdim_of c by move=> /(entity_ok Hc) [_ _ -> _]; lia.
have M e W cf : facet c e = Some W -> (sdim_of c)%:R * pval (sdim_of c) 1 cf (nth [::] pts e) = \sum_(v <- W) pval (sdim_of c) 1 cf (nth [::] (vts c) v).
{ move=> HW. have [_ _ G] := E4 e W HW. by rewrite -(mean cf Hc G) (SW e W HW). }
exists U, el, pts. split; first by split.
have HB j Wj v : facet c j = Some Wj -> (v <= sdim_of c)%N -> basis sqrt c 1 U j (nth [::] (vts c) v) = if v \in Wj then 1 else 1 - (sdim_of c)%:R.
{ move=> Hj Hv. have [Jp _ _] := E4 j Wj Hj. have [_ H1 H2 _ _] := HN. have [cf [G _]] := H1 j Jp. rewrite G.
  pose S := \sum_(u < (sdim_of c).+1) pval (sdim_of c) 1 cf (nth [::] (vts c) u).
  have B u : (u <= sdim_of c)%N -> pval (sdim_of c) 1 cf (nth [::] (vts c) u) = if u \in Wj then S else S - (sdim_of c)%:R.
  { move=> Hu. have [e [W [HW Hin Hs]]] := opposite Hc Hu. have [Ep _ _] := E4 e W HW.
    have := Hs (fun u => pval (sdim_of c) 1 cf (nth [::] (vts c) u)). rewrite -/S -(M e W cf HW) -G H2 // (Hin j Wj Hj).
    case: eqP => _ /=; rewrite ?mulr1 ?mulr0 ?add0r // => <-. by rewrite addrC addKr. }
  suff E : S = 1 by rewrite B // E.
  apply: (mulfI Nd). have := M j Wj cf Hj. rewrite -G H2 // eqxx => ->.
  rewrite (eq_big_seq (fun _ => S)); last by move=> u Hu; rewrite B ?Hu //; have [_ _ _ ->] := entity_ok Hc Hj.
  rewrite -(SW j Wj Hj). elim: (Wj) => [|u W IH]; rewrite ?big_nil ?mul0r // big_cons /= -IH mulrS mulrDl mul1r. by []. }
split=> // j Wj x Hj [Sx [l [L1 Lx]]]. have [Jp _ _] := E4 j Wj Hj. have [_ H1 _ _ _] := HN. have [cf [G _]] := H1 j Jp.
have [|A [B EA]] := @affine (sdim_of c) cf; first by case: (c) Hc.
suff -> : basis sqrt c 1 U j x = \sum_(v <- Wj) l v * basis sqrt c 1 U j (nth [::] (vts c) v).
{ rewrite -L1. apply: eq_big_seq => v Hv. rewrite (HB j Wj v Hj) ?Hv ?mulr1 //. have [_ _ _ ->] := entity_ok Hc Hj; by []. }
rewrite G EA (eq_bigr (fun v => l v * A + \sum_(i < sdim_of c) B i * (l v * nth 0 (nth [::] (vts c) v) i))).
- rewrite big_split /= -mulr_suml L1 mul1r. congr (_ + _). rewrite exchange_big /=. apply: eq_bigr => i _. by rewrite Lx // mulr_sumr.
- move=> v _. rewrite G EA mulrDr mulr_sumr. congr (_ + _). apply: eq_bigr => i _. by rewrite mulrCA.
Qed.
(** Weak conformity: the mean over facet [e] of every basis function registered
    elsewhere is zero, so that two functions on neighbouring cells with the
    same coefficient on a common facet have a jump of mean zero there. *)
Theorem C59_weak_conformity : forall c, SpecFam.simplex c -> exists U el,
  [/\ ModelFam.CrouzeixRaviart K c 1 = Base.Ok el, crouzeix_raviart sqrt c 1 = Ok U &
    forall e W j, facet c e = Some W -> (j <= sdim_of c)%N ->
      ~ List.In j (SpecCell.dofs_on (ModelFam.el_ids K el) (ModelCell.DI (sdim_of c - 1), e)) ->
      \sum_(v <- W) basis sqrt c 1 U j (nth [::] (vts c) v) = 0].
Proof.
move=> c Hc. have [U [el [pts [[E1 E2 E3 HN] [P1 P2 P3 P4 P5]]]]] := C59_crouzeix_raviart Hc.
exists U, el. split=> // e W j HW Hj Hn. have [Ep Dp _] := P2 e W HW. have [_ H1 H2 _ _] := HN.
have Jp : (j < size pts)%N by rewrite P1. have [cf [G _]] := H1 j Jp.
rewrite (eq_bigr _ (fun v _ => G _)) -(P3 e W cf HW) -G H2 //. rewrite Dp in Hn.
by case: eqP => [Eij|_]; [case: Hn; left|rewrite mulr0].
Qed.
End C59.

(** A concrete case: on the UFC triangle over the algebraic numbers the basis
    function of the edge opposite vertex 0 is -1 at vertex 0 and 1 at the
    vertices 1 and 2. *)
Example C59_example : exists sqrt U, [/\ @sqrt_exact Algebraics.Implementation.fieldType sqrt, crouzeix_raviart sqrt ModelCell.UFCTriangle 1 = Ok U,
  basis sqrt ModelCell.UFCTriangle 1 U 0 [:: 0; 0] = -1 & basis sqrt ModelCell.UFCTriangle 1 U 0 [:: 1; 0] = 1].
Proof.
have [C0 Hsq] := C23_sqrt_witness_algC. have [//|U [el [pts [[E1 E2 E3 HN] [_ _ _ H _]]]]] := @C59_crouzeix_raviart _ C0 _ Hsq ModelCell.UFCTriangle.
exists sqrtC, U. split=> //.
- have := H 0%N [:: 1%N; 2%N] 0%N erefl isT. move=> ->. by rewrite /= -[2%:R]/(1 + 1) opprD addrA subrr add0r.
- by have := H 0%N [:: 1%N; 2%N] 1%N erefl isT.
Qed.
Print Assumptions C59_crouzeix_raviart.
Print Assumptions C59_weak_conformity.
