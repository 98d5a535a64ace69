(** Proofs about the DPC nodes: the affine map, and lattices of non-degenerate
    simplices determine polynomials. *)
Set Warnings "-notation-overridden,-ambiguous-paths".
From mathcomp Require Import all_ssreflect all_algebra zify.
From Verif Require Base ModelIndex ModelCell SpecFam ModelFam.
From Verif Require Import FieldTac SpecJacobi ProofsDmatsReg SpecExpansion ModelDmats ModelAffine SpecAffine PropsAffine PropsExpansion.
From Verif Require Import ModelDual SpecDual ProofsDual SpecPoly ModelSpace ProofsLagLat ProofsSpace ProofsSpaceCell ProofsPolyClo PropsLagrange ModelDPC SpecDPC.
Set Implicit Arguments. Unset Strict Implicit. Unset Printing Implicit Defensive.
Import GRing.Theory.
Local Open Scope ring_scope.

Section Map.
Variable F : fieldType.
Hypothesis F0 : char_zero F.
Notation K := (mcF F).
Add Field FFdpc : (mc_field_theory F).
Definition rel s (x : seq F) : seq F := [seq (t - org F s) / scl F s | t <- x].

Lemma nth_verts s v k : nth 0 (nth [::] (verts F s) v) k = vco F s v k. Proof. by []. Qed.
Lemma map_to_V s V : SpecFam.simplex s -> size V = (sdim_of s).+1 -> in_dim (sdim_of s) V -> (0 < sdim_of s)%N ->
  exists A b, [/\ make_affine_mapping (verts F s) V = Base.Ok (A, b), size b = sdim_of s &
    forall x, size x = sdim_of s -> affine A b x = simplex_point V (rel s x)].
Proof.
move=> Hs SV DV d0. have [Sv Dv] := verts_dim F Hs.
have [||A [b [E [SA [RA Sb]] HV _]]] := C19_vertices_to_vertices d0 (verts_simplex F0 Hs) (ys := V); first by rewrite SV Sv.
- by [].
exists A, b. split=> // x Sx.
have H i j : (i <= sdim_of s)%N -> (j < sdim_of s)%N -> \sum_(k < sdim_of s) nth 0 (nth [::] A j) k * (org F s + scl F s * (i == k.+1)%:R) + nth 0 b j = nth 0 (nth [::] V i) j.
{ move=> Hi Hj. rewrite -HV ?Sv ?ltnS // /affine nth_mkseq ?Sb //. congr (_ + _). rewrite Dv; last by apply: mem_nth; rewrite Sv ltnS.
  apply: eq_bigr => k _. congr (_ * _). by rewrite nth_verts vcoE. }
have S0 := scl0 F0 s.
have Aj j k : (j < sdim_of s)%N -> (k < sdim_of s)%N -> nth 0 (nth [::] A j) k * scl F s = nth 0 (nth [::] V k.+1) j - nth 0 (nth [::] V 0) j.
{ move=> Hj Hk. rewrite -(H k.+1 j Hk Hj) -(H 0%N j (leq0n _) Hj) opprD addrACA subrr addr0 -sumrB.
  rewrite (bigD1 (Ordinal Hk)) //= eqxx mulr1 mulr0 addr0 big1 ?addr0 => [|i Hi]; first by rewrite -mulrBr addrC addKr.
  have -> : (k.+1 == i.+1) = false by rewrite eqSS; apply/eqP => Ek; case/eqP: Hi; exact/val_inj. by rewrite mulr0 addr0 subrr. }
rewrite /affine /simplex_point size_map Sx Sb. apply: (@eq_from_nth _ 0); rewrite !size_mkseq // => j Hj. rewrite !nth_mkseq //.
rewrite -{1}(H 0%N j (leq0n _) Hj) [RHS]addrAC. congr (_ + _). rewrite -big_split. apply: eq_bigr => k _ /=.
rewrite (nth_map 0) ?Sx // -Aj // mulr0 addr0. move: (nth 0 _ k) (nth 0 x k) (org F s) (scl F s) S0 => a y o t S0. ffield. nz.
Qed.
Definition lat_pt s n (idx : seq nat) : seq F := [seq org F s + scl F s * i%:R / n%:R | i <- idx].
Lemma lat_in c n (pts : seq (seq F)) idx : SpecFam.simplex c -> (0 < n)%N ->
  (ModelFam.lagrange_dual K c n).1 = map (ModelFam.PointEvaluation K) pts -> size idx = sdim_of c -> (sumn idx <= n)%N -> lat_pt c n idx \in pts.
Proof.
move=> Hc Hn Hp Hs Hk. have Hd := proj2 (proj2 (simplex_dim Hc)).
have Nn : n%:R != 0 :> F by apply: F0.
pose w v := if v is v'.+1 then nth 0%N idx v' else (n - sumn idx)%N.
have Hw : (\sum_(v < (sdim_of c).+1) w v = n)%N.
{ rewrite big_ord_recl /= -[RHS](subnK Hk). congr addn. rewrite sumnE (big_nth 0%N) Hs big_mkord. by []. }
have [x [X1 [X2 X3]]] := lattice_node F0 Hc Hn Hw.
have -> : lat_pt c n idx = x.
{ apply: (@eq_from_nth _ 0) => [|i]; rewrite size_map Hs; first by rewrite X2.
  move=> Hi. rewrite (nth_map 0%N) ?Hs // X3 //.
  have -> : \sum_(v < (sdim_of c).+1) (w v)%:R * vco F c v i = org F c * n%:R + scl F c * (nth 0%N idx i)%:R.
  { rewrite (eq_bigr (fun v : 'I_(sdim_of c).+1 => (w v)%:R * org F c + (w v)%:R * (scl F c * (v == i.+1 :> nat)%:R))).
    - rewrite big_split /= -mulr_suml -natr_sum Hw mulrC. congr (_ + _).
      rewrite (bigD1 (Ordinal (Hi : (i.+1 < (sdim_of c).+1)%N))) //= eqxx mulr1 mulrC big1 ?addr0 // => v Hv.
      have -> : (v == i.+1 :> nat) = false by apply/eqP => Ek; case/eqP: Hv; exact/val_inj. by rewrite !mulr0.
    - move=> v _. rewrite vcoE //; last by have := ltn_ord v; lia. by rewrite mulrDr. }
  by rewrite mulrDl mulfK. }
move: X1. rewrite Hp => /List.in_map_iff [y [[<-] Hy]].
elim: (pts) Hy => [|z l IH] //= [->|/IH]; rewrite inE ?eqxx // => ->. by rewrite orbT.
Qed.
Lemma lat_inj c n : (0 < n)%N -> injective (lat_pt c n).
Proof.
move=> Hn. apply: inj_map => i j /addrI/(congr1 ( *%R^~ n%:R)). rewrite !divfK ?F0 // => /(mulfI (scl0 F0 c)) E. exact: (natr_inj F0 E).
Qed.
Lemma lagrange_perm c n (pts : seq (seq F)) : SpecFam.simplex c -> (0 < n)%N ->
  (ModelFam.lagrange_dual K c n).1 = map (ModelFam.PointEvaluation K) pts -> size pts = size (exps (sdim_of c) n) ->
  perm_eq pts [seq lat_pt c n idx | idx <- exps (sdim_of c) n].
Proof.
move=> Hc Hn Hp Sp. rewrite perm_sym.
have U : uniq [seq lat_pt c n idx | idx <- exps (sdim_of c) n] by rewrite map_inj_uniq ?exps_uniq //; exact: lat_inj.
have I : {subset [seq lat_pt c n idx | idx <- exps (sdim_of c) n] <= pts}.
{ move=> x /mapP [idx]. rewrite exps_mem => /andP [/eqP H1 H2] ->. exact: lat_in Hp H1 H2. }
have [|S M] := uniq_min_size U I; first by rewrite size_map Sp.
apply: uniq_perm => //. by rewrite -(eq_uniq S M).
Qed.
(** simplices whose points cover the whole space *)
Definition covers d (V : seq (seq F)) := forall z, size z = d -> exists2 y, size y = d & simplex_point V y = z.
Lemma dpc_det s n V A b (pts : seq (seq F)) : SpecFam.simplex s -> (0 < n)%N -> covers (sdim_of s) V -> size b = sdim_of s ->
  (forall x, size x = sdim_of s -> affine A b x = simplex_point V (rel s x)) ->
  (ModelFam.lagrange_dual K s n).1 = map (ModelFam.PointEvaluation K) pts -> (forall x, x \in pts -> size x = sdim_of s) ->
  forall cf, (forall i, (i < size pts)%N -> pval (sdim_of s) n cf (affine A b (nth [::] pts i)) = 0) -> {in exps (sdim_of s) n, forall a, cf a = 0}.
Proof.
move=> Hs Hn HV Sb Haff Hp Sp cf H. have Hd := proj2 (proj2 (simplex_dim Hs)).
have [||cg Hg] := @is_poly_comp F (sdim_of s) (sdim_of s) n (pval (sdim_of s) n cf) (affine A b) (is_poly_pval _ _ cf).
- by move=> y _; rewrite size_mkseq.
- move=> i Hi. apply: (@is_poly_ext _ _ _ (fun y => \sum_(k < sdim_of s) nth 0 (nth [::] A i) k * nth 0 y k + nth 0 b i)) => [y Sy|].
  + by rewrite /affine nth_mkseq ?Sb // Sy.
  + apply: is_poly_add; last exact: is_poly_const. apply: (is_poly_sumo (f := fun k y => nth 0 (nth [::] A i) k * nth 0 y k)) => k _. apply: is_poly_scale. exact: is_poly_coord.
have Z : {in exps (sdim_of s) n, forall a, cg a = 0}.
{ apply: (lagrange_det F0 Hs Hn Hp) => i Hi. rewrite -Hg; first exact: H. by apply/Sp/mem_nth. }
have Z' x : size x = sdim_of s -> pval (sdim_of s) n cf x = 0.
{ move=> Sx. have [y Sy <-] := HV x Sx. pose x' := [seq org F s + scl F s * t | t <- y].
  have S' : size x' = sdim_of s by rewrite size_map.
  have -> : y = rel s x'.
  { rewrite /rel /x' -map_comp -[LHS]map_id. apply: eq_map => t /=. by rewrite addrAC subrr add0r mulrC mulKf ?scl0. }
  rewrite -Haff // Hg // /pval big_seq big1 // => a Ha. by rewrite Z ?mul0r. }
apply: (grid_zero (g := fun i => i%:R) Hd) => [i j E|idx Si _]; first exact: (natr_inj F0 E).
by rewrite Z' ?size_map.
Qed.
End Map.
