(** Every lattice point of a simplex is a node of the Lagrange dual set. *)
Set Warnings "-notation-overridden,-ambiguous-paths".
From mathcomp Require Import all_ssreflect all_algebra zify.
From Verif Require Base ModelIndex SpecIndex ModelCell SpecFam ModelFam ProofsLagNodes.
From Verif Require Import FieldTac ModelJacobi SpecJacobi PropsSimplexTopo ProofsDmatsReg.
Set Implicit Arguments. Unset Strict Implicit. Unset Printing Implicit Defensive.
Import GRing.Theory.
Local Open Scope ring_scope.

Lemma simplex_dim c : SpecFam.simplex c -> simplex_class c /\ ModelCell.num_vertices c = (ModelCell.spatial_dimension c).+1 /\
  (1 <= ModelCell.spatial_dimension c <= 3)%N.
Proof. by case: c => //= _; split=> //; constructor. Qed.
Lemma topE c d : SpecFam.simplex c -> (if ModelCell.dlookup (ModelCell.DI d) (ModelCell.topology c) is Some es then es else [::]) = ModelFam.top c d.
Proof. by rewrite /ModelFam.top; case: (ModelCell.dlookup _ _). Qed.
Lemma lookupE c d e vs : ModelCell.lookup (ModelCell.topology c) (ModelCell.DI d) e = Some vs ->
  ModelCell.elookup e (ModelFam.top c d) = Some vs.
Proof. rewrite /ModelCell.lookup /ModelFam.top. by case: (ModelCell.dlookup _ _). Qed.
Lemma num_bound c d e vs : SpecFam.simplex c -> ModelCell.lookup (ModelCell.topology c) (ModelCell.DI d) e = Some vs ->
  (e < ModelFam.num c d)%coq_nat /\ (d <= ModelCell.spatial_dimension c)%coq_nat.
Proof.
case: c => //= _; case: d => [|[|[|[|d]]]] //; do 7 (try (case: e => [|e] //)); move=> _; rewrite /ModelFam.num /=; split; lia.
Qed.
Section Lat.
Variable F : fieldType.
Hypothesis F0 : char_zero F.
Notation K := (mcF F).
Lemma char0K : Base.char0 K.
Proof. move=> n Hn. rewrite of_natE. apply/eqP. apply: F0. lia. Qed.
Lemma wsumE (w : nat -> nat) (y : nat -> F) vs :
  SpecIndex.wsum (K := K) [seq w v | v <- vs] [seq y v | v <- vs] = \sum_(v <- vs) (w v)%:R * y v.
Proof. elim: vs => [|v vs IH] /=; first by rewrite big_nil. by rewrite big_cons IH of_natE. Qed.
Lemma nsumE (w : nat -> nat) vs : Base.nsum [seq w v | v <- vs] = (\sum_(v <- vs) w v)%N.
Proof. elim: vs => [|v vs IH]; first by rewrite big_nil. by rewrite big_cons -IH. Qed.
Definition vco c v i : F := nth 0 (nth [::] (ModelCell.vertices K c) v) i.
Lemma Lnth (A : Type) (x : A) s i : List.nth i s x = nth x s i.
Proof. by elim: i s => [|i IH] [|y s] //=. Qed.
Lemma lattice_node c n (w : nat -> nat) : SpecFam.simplex c -> (0 < n)%N ->
  (\sum_(v < (ModelCell.spatial_dimension c).+1) w v = n)%N ->
  exists x : seq F, List.In (ModelFam.PointEvaluation K x) (ModelFam.lagrange_dual K c n).1 /\ size x = ModelCell.spatial_dimension c /\
    forall i, (i < ModelCell.spatial_dimension c)%N ->
      nth 0 x i = (\sum_(v < (ModelCell.spatial_dimension c).+1) (w v)%:R * vco c v i) / n%:R.
Proof.
move=> Hc Hn Hw. have [Hsc [Hnv _]] := simplex_dim Hc.
pose N := (ModelCell.spatial_dimension c).+1.
pose V := [seq v <- iota 0 N | (0 < w v)%N].
have HV0 : V != [::].
{ apply/eqP => E. move: Hw. rewrite big1; first lia. move=> i _. apply/eqP. rewrite -leqn0 leqNgt. apply/negP => H.
  have : val i \in V by rewrite mem_filter H mem_iota /= add0n ltn_ord. by rewrite E. }
have [_ [H2 _]] := C42_simplex_topology_complete Hsc.
have [||e [W [HW [EW _]]]] := H2 V HV0.
- by rewrite filter_uniq ?iota_uniq.
- apply/allP => v. by rewrite mem_filter mem_iota Hnv /= add0n => /andP [].
have [HWu HWs HWa] := (C42_simplex_topology_complete Hsc).1 _ _ _ HW.
have P : perm_eq W V. { apply: uniq_perm; [exact HWu|by rewrite filter_uniq ?iota_uniq|by move=> z; rewrite EW]. }
have Sall (R : Type) (idx : R) (op : Monoid.com_law idx) (f : nat -> R) : (forall v, w v = 0%N -> f v = idx) ->
   \big[op/idx]_(v <- W) f v = \big[op/idx]_(v < N) f v.
{ move=> Hf. rewrite (perm_big _ P) /= big_filter -(big_mkord xpredT) /index_iota subn0 big_mkcond /=. apply: eq_bigr => v _.
  case: posnP => // E. by rewrite Hf. }
have [B1 B2] := num_bound Hc HW.
have [||||x [X1 [X2 X3]]] := @ProofsLagNodes.entity_node K char0K c (size V).-1 e W n [seq w v | v <- W] Hc B2 (lookupE HW) B1.
- by rewrite -[LHS]/(size _) size_map.
- move=> z /List.in_map_iff [v [<- Hv]]. have : v \in W. { elim: (W) Hv => [//|y l IH] /= [->|/IH H]; rewrite inE ?eqxx ?H ?orbT //. }
  rewrite (perm_mem P) mem_filter => /andP [? _]; lia.
- rewrite nsumE (Sall _ _ _ w) //.
- lia.
exists x. split=> //. split=> // i Hi. have := X3 i. rewrite /SpecIndex.coord !Lnth => ->; last by lia. rewrite of_natE.
have E := wsumE w (fun v => vco c v i) W.
rewrite (Sall _ _ _ (fun v => (w v)%:R * vco c v i)) in E; last by move=> v ->; rewrite mul0r.
refine (etrans _ (congr1 (fun z : F => z / n%:R) E)).
refine (congr1 (fun z : seq F => (SpecIndex.wsum (K := K) _ z : F) / n%:R) _).
apply: eq_map => v. by rewrite /SpecIndex.coord !Lnth.
Qed.
End Lat.
