(** C50: Lagrange elements are conforming: the restriction to an entity is
    determined by the nodes of that entity. *)
Set Warnings "-notation-overridden,-ambiguous-paths".
From mathcomp Require Import all_ssreflect all_algebra all_field zify.
From Verif Require Base ModelIndex SpecIndex ModelCell SpecCell SpecFam ModelFam PropsFam.
From Verif Require Import SpecJacobi ProofsDmatsReg PropsExpansion ModelDual SpecDual SpecPoly ModelSpace SpecRT ProofsLagLat ProofsSpace ProofsSpaceCell ProofsPolyClo PropsLagrange.
Set Implicit Arguments. Unset Strict Implicit. Unset Printing Implicit Defensive.
Import GRing.Theory Num.Theory.
Local Open Scope ring_scope.

Lemma entity_ok c d e W : SpecFam.simplex c -> ModelCell.lookup (ModelCell.topology c) (ModelCell.DI d) e = Some W ->
  [/\ uniq W, W != [::], size W = d.+1 & forall v, v \in W -> (v <= sdim_of c)%N].
Proof.
move=> Hc H. have : [&& uniq W, W != [::], size W == d.+1 & all (fun v => v <= sdim_of c)%N W].
- move: H. by case: c Hc => //= _; case: d => [|[|[|[|d]]]] //; do 7 (try (case: e => [|e] //)); move=> [<-].
- by case/and4P => H1 H2 /eqP H3 /allP H4.
Qed.

Section C50.
Variable F : fieldType.
Hypothesis F0 : char_zero F.
Variable sqrt : F -> F.
Hypothesis Hsq : sqrt_exact sqrt.
Notation K := (mcF F).
Notation vts c := (ModelCell.vertices K c : seq (seq F)).

(** a polynomial of degree at most [n] that vanishes at the points with weights
    [w], [sum w = n], on the vertices [W] vanishes on the plane of [W] *)
Lemma plane_w c n W cf : SpecFam.simplex c -> (0 < n)%N -> uniq W -> W != [::] -> (forall v, v \in W -> (v <= sdim_of c)%N) ->
  (forall (w : nat -> nat) y, (forall v, (0 < w v)%N -> v \in W) -> (\sum_(v < (sdim_of c).+1) w v = n)%N -> size y = sdim_of c ->
    (forall i, (i < sdim_of c)%N -> nth 0 y i = (\sum_(v < (sdim_of c).+1) (w v)%:R * vco F c v i) / n%:R) -> pval (sdim_of c) n cf y = 0) ->
  forall x, in_plane (sdim_of c) (vts c) W x -> pval (sdim_of c) n cf x = 0.
Proof.
move=> Hc Hn. case: W => [|w0 W] //= /andP [N0 UW] _ Hle H0 x [Sx [l [Hl Hx]]].
have Nn : n%:R != 0 :> F by apply: F0. have Hd := proj2 (proj2 (simplex_dim Hc)). set sd := sdim_of c in Hle H0 Sx Hx Hd *.
pose d := size W. have d3 : (d <= 3)%N.
{ have := uniq_leq_size (s1 := w0 :: W) (s2 := iota 0 sd.+1). rewrite /= N0 UW size_iota => /(_ isT). have Hs : {subset w0 :: W <= iota 0 sd.+1} by move=> v /Hle; rewrite mem_iota.
  move/(_ Hs). rewrite -/d. move: Hd. rewrite -/sd. lia. }
pose h (y : seq F) := mkseq (fun i => vco F c w0 i + \sum_(k < d) nth 0 y k * (vco F c (nth 0%N W k) i - vco F c w0 i)) sd.
have Sh y : size y = d -> size (h y) = sd by rewrite size_mkseq.
have hN y i : (i < sd)%N -> nth 0 (h y) i = vco F c w0 i + \sum_(k < d) nth 0 y k * (vco F c (nth 0%N W k) i - vco F c w0 i) by move=> Hi; rewrite nth_mkseq.
(* the grid *)
have G idx : size idx = d -> (sumn idx <= n)%N -> pval sd n cf (h [seq j%:R / n%:R | j <- idx]) = 0.
{ move=> Hs Hm. pose w v := if v == w0 then (n - sumn idx)%N else if v \in W then nth 0%N idx (index v W) else 0%N.
  have Wsum (f : nat -> F) : \sum_(v < sd.+1) (w v)%:R * f v = (n - sumn idx)%:R * f w0 + \sum_(k < d) (nth 0%N idx k)%:R * f (nth 0%N W k).
  { rewrite -(big_mkord xpredT (fun v => (w v)%:R * f v)) (bigID (fun v => v \in w0 :: W)) /= [X in _ + X]big1 ?addr0; last first.
    { move=> v. rewrite inE negb_or /w => /andP [/negbTE -> /negbTE ->]. by rewrite mul0r. }
    rewrite -big_filter.
    have P : perm_eq [seq v <- index_iota 0 sd.+1 | v \in w0 :: W] (w0 :: W).
    { apply: uniq_perm; [exact: filter_uniq (iota_uniq _ _)|by rewrite /= N0|]. move=> v. rewrite mem_filter mem_index_iota.
      case Hv : (v \in w0 :: W) => //=. have := Hle v Hv. by rewrite ltnS. }
    rewrite (perm_big _ P) big_cons /w eqxx. congr (_ + _). rewrite (big_nth 0%N) big_mkord. apply: eq_bigr => k _.
    have Hk : nth 0%N W k \in W by apply: mem_nth. have -> : (nth 0%N W k == w0) = false by apply/eqP => E; move: N0; rewrite -E Hk. by rewrite Hk index_uniq. }
  have Hw : (\sum_(v < sd.+1) w v = n)%N.
  { apply: (natr_inj F0). rewrite natr_sum (eq_bigr (fun v : 'I_sd.+1 => (w v)%:R * 1)); last by move=> v _; rewrite mulr1.
    rewrite (Wsum (fun=> 1)) mulr1 (eq_bigr (fun k : 'I_d => (nth 0%N idx k)%:R)); last by move=> k _; rewrite mulr1.
    rewrite -natr_sum -natrD. congr (_%:R). rewrite -[RHS](subnK Hm). congr addn. by rewrite [RHS]sumnE (big_nth 0%N) Hs big_mkord. }
  pose y : seq F := mkseq (fun i => (\sum_(v < sd.+1) (w v)%:R * vco F c v i) / n%:R) sd.
  have Y2 : size y = sd by rewrite size_mkseq. have Y3 i : (i < sd)%N -> nth 0 y i = (\sum_(v < sd.+1) (w v)%:R * vco F c v i) / n%:R by move=> Hi; rewrite nth_mkseq.
  have Sg : \sum_(k < d) (nth 0%N idx k)%:R = n%:R - (n - sumn idx)%:R :> F.
  { rewrite natrB // opprB addrC subrK sumnE (big_nth 0%N) Hs big_mkord natr_sum. by []. }
  have Ey : h [seq j%:R / n%:R | j <- idx] = y.
  { apply: (@eq_from_nth _ 0) => [|i]; rewrite size_mkseq; first by rewrite Y2. move=> Hi. rewrite hN // Y3 // (Wsum (fun v => vco F c v i)). apply: (mulIf Nn). rewrite divfK //.
    rewrite mulrDl mulr_suml.
    rewrite (eq_bigr (fun k : 'I_d => (nth 0%N idx k)%:R * vco F c (nth 0%N W k) i - (nth 0%N idx k)%:R * vco F c w0 i)); last first.
    { move=> k _. rewrite (nth_map 0%N) ?Hs // mulrAC divfK // mulrBr. by []. }
    rewrite sumrB -mulr_suml Sg mulrBl addrCA addrC. congr (_ + _). by rewrite mulrC opprB addrC subrK. }
  rewrite Ey. apply: (H0 w) => // v. rewrite /w inE. case: (v == w0) => //=. by case: (v \in W). }
have Ex : x = h (mkseq (fun k => l (nth 0%N W k)) d).
{ apply: (@eq_from_nth _ 0) => [|i]; first by rewrite Sh ?size_mkseq. rewrite Sx => Hi. rewrite Hx // hN // big_cons.
  move: Hl. rewrite big_cons => Hl. have -> : l w0 = 1 - \sum_(j <- W) l j by rewrite -Hl addrK.
  rewrite mulrBl mul1r -addrA. congr (_ + _). have BW (f : nat -> F) : \sum_(j <- W) f j = \sum_(k < d) f (nth 0%N W k) by rewrite (big_nth 0%N) big_mkord.
  rewrite addrC !BW mulr_suml -sumrB. apply: eq_bigr => k _.
  rewrite nth_mkseq // mulrBr. by []. }
rewrite Ex. case: (posnP d) => [Ed0|dpos].
- have -> : mkseq (fun k => l (nth 0%N W k)) d = [::] by rewrite Ed0. have := G [::]. rewrite Ed0. by apply.
- have Hf : is_poly d n (fun y => pval sd n cf (h y)).
  { apply: (is_poly_comp (is_poly_pval sd n cf) Sh) => i Hi.
    apply: (@is_poly_ext _ _ _ (fun y => vco F c w0 i + \sum_(k < d) (vco F c (nth 0%N W k) i - vco F c w0 i) * nth 0 y k)).
    - move=> y Hy. rewrite hN //. congr (_ + _). apply: eq_bigr => k _. by rewrite mulrC.
    - apply: is_poly_add; first exact: is_poly_const.
      apply: (@is_poly_sumo F d 1 d (fun k y => (vco F c (nth 0%N W k) i - vco F c w0 i) * nth 0 y k)) => k _. apply: is_poly_scale. exact: is_poly_coord. }
  have dd : (1 <= d <= 3)%N by rewrite dpos.
  have gi : injective (fun j => j%:R / n%:R : F). { move=> i j /(congr1 ( *%R^~ n%:R)). rewrite !divfK // => E. exact: natr_inj E. }
  apply: (is_poly_grid dd gi Hf G). by rewrite size_mkseq.
Qed.

Lemma plane_det c n W (pts : seq (seq F)) cf : SpecFam.simplex c -> (0 < n)%N -> uniq W -> W != [::] -> (forall v, v \in W -> (v <= sdim_of c)%N) ->
  (ModelFam.lagrange_dual K c n).1 = map (ModelFam.PointEvaluation K) pts ->
  (forall i, (i < size pts)%N -> in_plane (sdim_of c) (vts c) W (nth [::] pts i) -> pval (sdim_of c) n cf (nth [::] pts i) = 0) ->
  forall x, in_plane (sdim_of c) (vts c) W x -> pval (sdim_of c) n cf x = 0.
Proof.
move=> Hc Hn UW NW Hle Hp H0. apply: plane_w => // w y Hsup Hw Y2' Y3'. have Nn : n%:R != 0 :> F by apply: F0. set sd := sdim_of c in Hle H0 Hw Y2' Y3' *.
have [y' [Y1 [Y2 Y3]]] := lattice_node F0 Hc Hn Hw.
have Ey : y = y' by apply: (@eq_from_nth _ 0) => [|i]; rewrite Y2' ?Y2 // => Hi; rewrite Y3' ?Y3.
move: Y1. rewrite Hp => /List.in_map_iff [y'' [[Ey'] Hy]]. rewrite Ey' -Ey in Hy.
have Hy' : y \in pts. { elim: (pts) Hy => [|z l' IH] //= [->|/IH]; rewrite inE ?eqxx // => ->. by rewrite orbT. }
rewrite -(nth_index [::] Hy'). apply: H0; first by rewrite index_mem. rewrite nth_index //. split=> //.
exists (fun v => (w v)%:R / n%:R).
have WS (f : nat -> F) : \sum_(v <- W) (w v)%:R / n%:R * f v = (\sum_(v < sd.+1) (w v)%:R * f v) / n%:R.
{ rewrite mulr_suml -(big_mkord xpredT (fun v => (w v)%:R * f v / n%:R)) [RHS](bigID (fun v => v \in W)) /= [X in _ = _ + X]big1 ?addr0; last first.
  { move=> v Hv. have -> : w v = 0%N by apply/eqP; rewrite -leqn0 leqNgt; apply/negP => /Hsup; exact/negP. by rewrite !mul0r. }
  rewrite -[RHS]big_filter. have P : perm_eq [seq v <- index_iota 0 sd.+1 | v \in W] W.
  { apply: uniq_perm => //; first exact: filter_uniq (iota_uniq _ _). move=> v. rewrite mem_filter mem_index_iota. case Hv : (v \in W) => //=. by rewrite ltnS Hle. }
  rewrite (perm_big _ P). apply: eq_bigr => v _. by rewrite mulrAC. }
split.
- rewrite (eq_bigr (fun v => (w v)%:R / n%:R * 1)); last by move=> v _; rewrite mulr1. rewrite (WS (fun=> 1)).
  rewrite (eq_bigr (fun v : 'I_sd.+1 => (w v)%:R)); last by move=> v _; rewrite mulr1. by rewrite -natr_sum Hw divff.
- move=> i Hi. rewrite Y3' //. rewrite -(WS (fun v => vco F c v i)). by [].
Qed.

(** barycentric coordinates, scaled *)
Definition bar c (x : seq F) (v : nat) : F := if v is i.+1 then nth 0 x i - org F c else scl F c - \sum_(i < sdim_of c) (nth 0 x i - org F c).
Lemma bar_plane c W x (l : nat -> F) : SpecFam.simplex c -> uniq W -> (forall v, v \in W -> (v <= sdim_of c)%N) -> \sum_(v <- W) l v = 1 ->
  (forall i, (i < sdim_of c)%N -> nth 0 x i = \sum_(v <- W) l v * vco F c v i) ->
  forall v, (v <= sdim_of c)%N -> bar c x v = scl F c * (if v \in W then l v else 0).
Proof.
move=> Hc UW Hle Hl Hx.
have X i : (i < sdim_of c)%N -> nth 0 x i - org F c = scl F c * (if i.+1 \in W then l i.+1 else 0).
{ move=> Hi. rewrite Hx // (eq_big_seq (fun v => org F c * l v + scl F c * (l v * (v == i.+1)%:R))).
  - rewrite big_split /= -!mulr_sumr Hl mulr1 addrAC subrr add0r. congr (_ * _). case: ifP => Hin.
    + rewrite (bigD1_seq i.+1) //= eqxx mulr1 big1 ?addr0 // => v /negbTE ->. by rewrite mulr0.
    + rewrite big1_seq // => v /andP [_ Hv]. case: (v =P i.+1) => [E|_]; last by rewrite mulr0. by rewrite -E Hv in Hin.
  - move=> v Hv. rewrite vcoE //; last exact: Hle. by rewrite mulrDr [l v * org F c]mulrC mulrCA. }
have S : \sum_(v < (sdim_of c).+1) (if val v \in W then l v else 0) = 1.
{ rewrite -Hl -(big_mkord xpredT (fun v => if v \in W then l v else 0)) -big_mkcond -big_filter. apply: perm_big. apply: uniq_perm => //; first exact: filter_uniq (iota_uniq _ _).
  move=> v. rewrite mem_filter mem_index_iota. case Hv : (v \in W) => //=. by rewrite ltnS Hle. }
case=> [|i] Hv /=; last exact: X.
rewrite (eq_bigr (fun i : 'I_(sdim_of c) => scl F c * (if i.+1 \in W then l i.+1 else 0))) => [|i _]; last exact: X.
rewrite -mulr_sumr -[X in X - _]mulr1 -mulrBr -S big_ord_recl /= addrK. by [].
Qed.
Lemma interior_sub c W d' e' W' x : SpecFam.simplex c -> uniq W -> (forall v, v \in W -> (v <= sdim_of c)%N) ->
  ModelCell.lookup (ModelCell.topology c) (ModelCell.DI d') e' = Some W' -> in_plane (sdim_of c) (vts c) W x ->
  SpecFam.interior_point (K := K) (SpecFam.vertices_of (K := K) c d' e') x -> {subset W' <= W}.
Proof.
move=> Hc UW Hle HW' [Sx [l [Hl Hx]]] [ws [Hs [Hpos [v0 [_ [_ Hi]]]]]] v Hv.
have [UW' _ _ Hle'] := entity_ok Hc HW'.
have EV : SpecFam.vertices_of (K := K) c d' e' = [seq (nth [::] (vts c) v) | v <- W'].
{ rewrite /SpecFam.vertices_of /SpecCell.dofs_on HW'. apply: eq_map => u. exact: Lnth. }
rewrite EV -[length (map _ _)]/(size _) size_map in Hs. rewrite EV in Hi. pose w u := nth 0%N ws (index u W').
have Ew : ws = [seq w u | u <- W'].
{ apply: (@eq_from_nth _ 0%N) => [|k Hk]; first by rewrite size_map. have Hk' : (k < size W')%N by rewrite -Hs. by rewrite (nth_map 0%N) // /w index_uniq. }
pose N := (\sum_(u <- W') w u)%N. have EN : Base.nsum ws = N by rewrite Ew nsumE.
have wpos u : u \in W' -> (0 < w u)%N.
{ move=> Hu. have : List.In (w u) ws; last by move/Hpos; lia. rewrite Ew. apply/List.in_map_iff. exists u. split=> //. elim: (W') Hu => [|z L IH] //=. by rewrite inE => /orP [/eqP ->|/IH]; [left|right]. }
have N0 : (0 < N)%N. { rewrite /N (bigD1_seq v) //=. apply: (leq_trans (wpos v Hv)). exact: leq_addr. }
have NF : N%:R != 0 :> F by apply: F0.
have B1 := bar_plane Hc UW Hle Hl Hx (Hle' v Hv).
have B2 : bar c x v = scl F c * (if v \in W' then (w v)%:R / N%:R else 0).
{ apply: (@bar_plane c W' x (fun u => (w u)%:R / N%:R)) => //; last exact: Hle'.
  - by rewrite -mulr_suml -natr_sum divff.
  - move=> i Hix. have Hlen : (i < length x)%coq_nat by rewrite -[length x]/(size x) Sx; lia. have := Hi i Hlen. rewrite EN of_natE.
    have -> : List.map (SpecIndex.coord (K := K) i) [seq nth [::] (vts c) v | v <- W'] = [seq vco F c u i | u <- W'].
    { clear. elim: W' => [|u L IH] //=. by rewrite IH /SpecIndex.coord Lnth. }
    rewrite Ew.
    rewrite wsumE /SpecIndex.coord Lnth => E. apply: (mulfI NF). refine (etrans E _). rewrite mulr_sumr. apply: eq_bigr => u _. by rewrite mulrA mulrCA divff // mulr1. }
case HvW : (v \in W) => //. move: B1. rewrite B2 HvW Hv => /(mulfI (scl0 F0 c)) /eqP. rewrite mulf_eq0 invr_eq0 (negbTE NF) orbF => /eqP E.
have := F0 (wpos v Hv). by rewrite E eqxx.
Qed.
(** The trace of a polynomial of degree at most [n] on an entity is determined by
    the Lagrange nodes that lie in it. *)
Theorem C50_lagrange_trace : forall c n, SpecFam.simplex c -> (0 < n)%N ->
  exists pts el, [/\ ModelFam.Lagrange K c n = Base.Ok el, ModelFam.el_nodes K el = map (ModelFam.PointEvaluation K) pts &
    forall d e W, ModelCell.lookup (ModelCell.topology c) (ModelCell.DI d) e = Some W ->
    forall cf, (forall i, (i < size pts)%N -> in_plane (sdim_of c) (vts c) W (nth [::] pts i) -> pval (sdim_of c) n cf (nth [::] pts i) = 0) ->
    forall x, in_plane (sdim_of c) (vts c) W x -> pval (sdim_of c) n cf x = 0].
Proof.
move=> c n Hc Hn. have [pts [el [E1 E2 E3 _]]] := lagrange_pts F0 Hc Hn. exists pts, el. split=> // d e W HW cf H0.
have [UW NW _ Hle] := entity_ok Hc HW. exact: (plane_det Hc Hn UW NW Hle E2 H0).
Qed.
(** A basis function registered on an entity that is not part of (the closure of)
    an entity [W] vanishes on the whole plane of [W]: neighbouring cells that
    share [W] and its nodes share the trace. *)
Theorem C50_lagrange_conforming : forall c n, SpecFam.simplex c -> (0 < n)%N ->
  exists U el, [/\ ModelFam.Lagrange K c n = Base.Ok el, lagrange sqrt c n = Ok U &
    forall d e W d' e' W', ModelCell.lookup (ModelCell.topology c) (ModelCell.DI d) e = Some W ->
    ModelCell.lookup (ModelCell.topology c) (ModelCell.DI d') e' = Some W' -> ~ {subset W' <= W} ->
    forall j, List.In j (SpecCell.dofs_on (ModelFam.el_ids K el) (ModelCell.DI d', e')) ->
    forall x, in_plane (sdim_of c) (vts c) W x -> basis sqrt c n U j x = 0].
Proof.
move=> c n Hc Hn. have [U [pts [el [E1 E2 E3 E4 HN]]]] := C47_lagrange F0 Hsq Hc Hn. exists U, el. split=> //.
move=> d e W d' e' W' HW HW' Hns j Hj x Hx. have [UW NW _ Hle] := entity_ok Hc HW.
have [el0 [E0 [_ [Hpl _]]]] := PropsFam.C34_lagrange K (char0K F0) c n Hc (ssrnat.ltP Hn).
rewrite E1 in E0. case: E0 => E0. rewrite -E0 in Hpl. have [nj [Nj Onj]] := Hpl d' e' j Hj.
have [Jp Enj] : (j < size pts)%N /\ nj = ModelFam.PointEvaluation K (nth [::] pts j).
{ move: Nj. rewrite E2. elim: (pts) j {Hj Hns} => [|z L IH] [|j] //=; [by move=> [<-]|exact: IH]. }
rewrite Enj /= in Onj. case: HN => [_ HN1 HN2 _ _]. have [cf [G1 _]] := HN1 j Jp. rewrite G1.
have [pts' [el' [L1 L2 L3 _]]] := lagrange_pts F0 Hc Hn. rewrite E1 in L1. case: L1 => L1. rewrite -L1 E2 in L3.
have Epts : pts' = pts. { have inj : injective (ModelFam.PointEvaluation K) by move=> a b [->]. exact: (inj_map inj (esym L3)). }
rewrite Epts in L2. apply: (plane_det Hc Hn UW NW Hle L2 _ Hx) => i Hi Hpi. rewrite -G1 HN2 //.
case: (i =P j) => // Eij. case: Hns. rewrite Eij in Hpi. exact: (interior_sub Hc UW Hle HW' Hpi Onj).
Qed.
End C50.

(** the hypotheses are met: on the triangle of degree 2, the vertex function of
    vertex 0 vanishes on the edge of vertices 1 and 2 *)
Example C50_example : exists sqrt U, [/\ @sqrt_exact Algebraics.Implementation.fieldType sqrt, lagrange sqrt ModelCell.UFCTriangle 2 = Ok U &
  basis sqrt ModelCell.UFCTriangle 2 U 0 [:: 2%:R^-1; 2%:R^-1] = 0].
Proof.
have [C0 Hsq] := C23_sqrt_witness_algC. have [|//|U [el [E1 E2 H]]] := @C50_lagrange_conforming _ C0 _ Hsq ModelCell.UFCTriangle 2; first by [].
exists sqrtC, U. split=> //. apply: (H 1%N 0%N [:: 1%N; 2%N] 0%N 0%N [:: 0%N]) => //.
- by move/(_ 0%N (mem_head _ _)).
- move: E1. rewrite /ModelFam.Lagrange /=. by move=> [<-]; left.
- split=> //. exists (fun=> 2%:R^-1). have h2 : 2%:R^-1 + 2%:R^-1 = 1 :> Algebraics.Implementation.fieldType.
  { have := divff (C0 2%N isT). rewrite -[X in X / _]/(1 + 1) mulrDl mul1r. by []. }
  split; first by rewrite !big_cons big_nil addr0.
  by case=> [|[|j]] //= _; rewrite !big_cons big_nil /= ?mulr0 ?mulr1 ?addr0 ?add0r.
Qed.
