(** C47: the orthonormal expansion set spans P_n, and the Lagrange,
    discontinuous Lagrange and Crouzeix-Raviart elements are unisolvent on it:
    from the constructor call to the tabulated basis functions. *)
Set Warnings "-notation-overridden,-ambiguous-paths".
From mathcomp Require Import all_ssreflect all_algebra zify.
From Verif Require Base ModelIndex SpecIndex ProofsIndex ModelCell SpecFam ModelFam ProofsFam ProofsFam5 PropsFam PropsTraceCells.
From Verif Require Import FieldTac SpecJacobi ProofsJacobi ProofsDmatsReg SpecExpansion ModelDmats ProofsExpProg ProofsExpOrtho ProofsExpIdx PropsExpansion ProofsDmats.
From Verif Require Import ModelDual SpecDual ProofsDual PropsDual SpecPoly ModelSpace ProofsLagLat ProofsSpace ProofsSpaceDer ProofsSpaceCell ProofsElem.
Set Implicit Arguments. Unset Strict Implicit. Unset Printing Implicit Defensive.
Import GRing.Theory.
Local Open Scope ring_scope.

Section Statement.
Variables (F : fieldType) (sqrt : F -> F) (c : cell) (n : nat).
Notation pt := [eqType of seq F].
Notation sd := (sdim_of c).
(** value and derivative of basis function [j] of an element with degree-[n]
    expansion set on [c]: what [element.tabulate] returns *)
Definition basis (U : polyset F) (j : nat) (x : seq F) : F :=
  fval (@member F pt (exp_set sqrt c n (num_members U)) U j) [::] x.
Definition basis_der (U : polyset F) (j : nat) (al : seq nat) (x : seq F) : F :=
  fder (@member F pt (exp_set sqrt c n (num_members U)) U j) [::] al x.
(** the basis functions are polynomials of degree at most [n], dual to point
    evaluation at [pts]; interpolation at [pts] reproduces every polynomial of
    degree at most [n] with all its derivatives *)
Definition nodal_at (U : polyset F) (pts : seq (seq F)) : Prop :=
  [/\ num_members U = size pts /\ pshape U = [::],
      forall j, (j < size pts)%N -> exists cf, (forall x, basis U j x = pval sd n cf x) /\
        forall al x, size al = sd -> basis_der U j al x = pder sd n cf al x,
      forall i j, (i < size pts)%N -> (j < size pts)%N -> basis U j (nth [::] pts i) = (i == j)%:R,
      forall cf x, pval sd n cf x = \sum_(j < size pts) pval sd n cf (nth [::] pts j) * basis U j x &
      forall cf al x, size al = sd -> pder sd n cf al x = \sum_(j < size pts) pval sd n cf (nth [::] pts j) * basis_der U j al x].
End Statement.

Section C47.
Variable F : fieldType.
Hypothesis F0 : char_zero F.
Variable sqrt : F -> F.
Hypothesis Hsq : sqrt_exact sqrt.
Notation K := (mcF F).
Notation pt := [eqType of seq F].
Add Field FFpl : (mc_field_theory F).

Lemma unit_comb N (a : nat -> F) (f : nat -> F) : \sum_(j < N) a j * (\sum_(i < N) (i == j :> nat)%:R * f i) = \sum_(i < N) a i * f i.
Proof.
apply: eq_bigr => j _. congr (_ * _). rewrite (bigD1 j) //= eqxx mul1r big1 ?addr0 // => i Hi.
have -> : (i == j :> nat) = false by apply/eqP => E; case/eqP: Hi; exact/val_inj. by rewrite mul0r.
Qed.
(** The orthonormal set of degree [n] has binom(n + sd, sd) members and its
    combinations are exactly the polynomials of degree at most [n]. *)
Theorem C47_orthonormal_set_spans_Pn : forall c n, SpecFam.simplex c ->
  let sd := sdim_of c in
  exists U, [/\ on_set sqrt c n = Ok U, num_members U = Base.binom (n + sd) sd,
    (forall a : nat -> F, exists cf, (forall x, \sum_(j < num_members U) a j * basis sqrt c n U j x = pval sd n cf x) /\
       forall al x, size al = sd -> \sum_(j < num_members U) a j * basis_der sqrt c n U j al x = pder sd n cf al x),
    (forall cf, exists a : nat -> F, (forall x, \sum_(j < num_members U) a j * basis sqrt c n U j x = pval sd n cf x) /\
       forall al x, size al = sd -> \sum_(j < num_members U) a j * basis_der sqrt c n U j al x = pder sd n cf al x) &
    forall a : nat -> F, (forall x, size x = sd -> \sum_(j < num_members U) a j * basis sqrt c n U j x = 0) ->
      forall j, (j < num_members U)%N -> a j = 0].
Proof.
move=> c n Hc sd. have HN := exps_size n (proj2 (proj2 (simplex_dim Hc))).
eexists. split; [exact: (on_set_ok F0 Hsq n Hc)|by rewrite /= HN| | |] => [a|cf|a] /=; set N := size _; set E := exp_set sqrt c n N.
- have [cf [G1 G2]] := expand_poly F0 Hsq n Hc (fun _ i => a i). exists cf. split=> [x|al x Hal].
  + rewrite -[RHS]G1. exact: (unit_comb N a (fun i => phi E i x)).
  + rewrite -[RHS]G2 //. exact: (unit_comb N a (fun i => dphi E al i x)).
- have [r [G1 G2]] := poly_expand F0 Hsq n Hc cf. exists (r [::]). split=> [x|al x Hal].
  + rewrite -[RHS]G1. exact: (unit_comb N (r [::]) (fun i => phi E i x)).
  + rewrite -[RHS]G2 //. exact: (unit_comb N (r [::]) (fun i => dphi E al i x)).
- have [N' [cf [_ H0 [H1 _ H3]]]] := exp_ok F0 Hsq n Hc. rewrite H0 -/sd -/N in H1 H3. move=> Ha. apply: H3 => x Hx.
  rewrite -[RHS](Ha x Hx). symmetry. apply: (etrans (unit_comb N a (fun i => phi E i x))). apply: eq_bigr => i _. by rewrite /= H1 nth_map_iota.
Qed.

(** nodes that evaluate at points *)
Lemma pe_map (l : seq (ModelFam.node K)) d : List.Forall (PropsTraceCells.pe K d) l -> exists pts : seq (seq F), l = map (ModelFam.PointEvaluation K) pts.
Proof.
elim: l => [|y l IH] H; first by exists [::]. inversion H as [|? ? [x [Ex _]] H2]; subst. have [pts ->] := IH H2. by exists (x :: pts).
Qed.
Lemma map_res_pe (pts : seq (seq F)) : map_res (@node_functional F) (map (ModelFam.PointEvaluation K) pts) = Ok (map (@point_eval F) pts).
Proof. by elim: pts => [|x pts /= ->]. Qed.
Lemma apply_pe (x : seq F) f : apply (point_eval x) f = fval f [::] x.
Proof. by rewrite /apply /= big_nil addr0 big_seq1 /= big_seq1 mul1r. Qed.
Lemma good_pe c n N (pts : seq (seq F)) : (0 < size pts)%N ->
  good_nodes (exp_set sqrt c n N) (map (@point_eval F) pts) (mkPolySet N [::] (fun j _ i => (i == j)%:R)).
Proof.
move=> H0. split.
- by rewrite size_map.
- by case: pts H0.
- rewrite all_map. by apply/allP.
- rewrite has_map. by move/hasP => [].
Qed.
Lemma nodal_element c n (el : ModelFam.element K) (pts : seq (seq F)) : SpecFam.simplex c ->
  ModelFam.el_nodes K el = map (ModelFam.PointEvaluation K) pts -> size pts = size (exps (sdim_of c) n) ->
  (forall cf, (forall i, (i < size pts)%N -> pval (sdim_of c) n cf (nth [::] pts i) = 0) -> {in exps (sdim_of c) n, forall a, cf a = 0}) ->
  exists U', element_of sqrt c n (Base.Ok el) = Ok U' /\ nodal_at sqrt c n U' pts.
Proof.
move=> Hc He HS Hdet. rewrite /element_of (on_set_ok F0 Hsq n Hc) /= He map_res_pe /=.
have HN := exps_size n (proj2 (proj2 (simplex_dim Hc))).
have Hn i : (i < size pts)%N -> nth (mkFunctional [::] [::] [::]) (map (@point_eval F) pts) i = point_eval (nth [::] pts i).
{ move=> Hi. by rewrite (nth_map [::]). }
have [|||U' [-> [M1 M2 M3 M4 M5]]] := @elem_ok F F0 sqrt Hsq c n Hc (map (@point_eval F) pts).
- by rewrite size_map.
- apply: good_pe. rewrite HS. have : nseq (sdim_of c) 0%N \in exps (sdim_of c) n by rewrite exps_mem size_nseq eqxx sumn_nseq. by case: exps.
- move=> cf H. apply: Hdet => i Hi. have := H i. rewrite -HS => /(_ Hi). by rewrite Hn // apply_pe.
exists U'. split=> //. rewrite /nodal_at /basis /basis_der M1 -HS. rewrite -HS in M1 M3 M4 M5.
split=> [|j Hj|i j Hi Hj|cf x|cf al x Hal]; first by [].
- have [cf [G1 G2]] := M3 j Hj. exists cf. split=> [x|al x Hal]; [exact: G1|exact: G2].
- have := M4 i j Hi Hj. rewrite Hn // apply_pe. by [].
- have [G1 _] := M5 cf. apply: (etrans (G1 x)). apply: eq_bigr => j _. congr (_ * _).
  rewrite Hn // apply_pe. by [].
- have [_ G2] := M5 cf. apply: (etrans (G2 al x Hal)). apply: eq_bigr => j _. congr (_ * _).
  rewrite Hn // apply_pe. by [].
Qed.
Lemma nth_le_sumn (a : seq nat) k : (nth 0%N a k <= sumn a)%N.
Proof. elim: a k => [|y a IH] [|k] //=; first exact: leq_addr. apply: (leq_trans (IH k)). exact: leq_addl. Qed.
(** the Lagrange lattice determines polynomials of degree [n] *)
Lemma lagrange_det c n (pts : seq (seq F)) : SpecFam.simplex c -> (0 < n)%N ->
  (ModelFam.lagrange_dual K c n).1 = map (ModelFam.PointEvaluation K) pts ->
  forall cf, (forall i, (i < size pts)%N -> pval (sdim_of c) n cf (nth [::] pts i) = 0) -> {in exps (sdim_of c) n, forall a, cf a = 0}.
Proof.
move=> Hc Hn Hp cf H. have Hd := proj2 (proj2 (simplex_dim Hc)).
have Nn : n%:R != 0 :> F by apply: F0.
pose g i : F := org F c + scl F c * i%:R / n%:R.
apply: (grid_zero (g := g) Hd).
- move=> i j /addrI/(congr1 ( *%R^~ n%:R)). rewrite !divfK // => /(mulfI (scl0 F0 c)) E. exact: natr_inj E.
- move=> idx Hs Hk.
  pose w v := if v is v'.+1 then nth 0%N idx v' else (n - sumn idx)%N.
  have Hw : (\sum_(v < (sdim_of c).+1) w v = n)%N.
  { rewrite big_ord_recl /= -[RHS](subnK Hk). congr addn. rewrite sumnE (big_nth 0%N) Hs big_mkord. by []. }
  have [x [X1 [X2 X3]]] := lattice_node F0 Hc Hn Hw.
  have -> : [seq g i | i <- idx] = x.
  { apply: (@eq_from_nth _ 0) => [|i]; rewrite size_map Hs; first by rewrite X2.
    move=> Hi. rewrite (nth_map 0%N) ?Hs // X3 // /g.
    have -> : \sum_(v < (sdim_of c).+1) (w v)%:R * vco F c v i = org F c * n%:R + scl F c * (nth 0%N idx i)%:R.
    { rewrite (eq_bigr (fun v : 'I_(sdim_of c).+1 => (w v)%:R * org F c + (w v)%:R * (scl F c * (v == i.+1 :> nat)%:R))).
      - rewrite big_split /= -mulr_suml -natr_sum Hw mulrC. congr (_ + _).
        rewrite (bigD1 (Ordinal (Hi : (i.+1 < (sdim_of c).+1)%N))) //= eqxx mulr1 mulrC big1 ?addr0 // => v Hv.
        have -> : (v == i.+1 :> nat) = false by apply/eqP => Ek; case/eqP: Hv; exact/val_inj. by rewrite !mulr0.
      - move=> v _. rewrite vcoE //; last by have := ltn_ord v; lia. by rewrite mulrDr. }
    by rewrite mulrDl mulfK. }
  move: X1. rewrite Hp => /List.in_map_iff [y [[<-] Hy]].
  have Hy' : y \in pts. { elim: (pts) Hy => [|z l IH] //= [->|/IH]; rewrite inE ?eqxx // => ->. by rewrite orbT. }
  rewrite -(nth_index [::] Hy'). apply: H. by rewrite index_mem.
Qed.
Lemma lagrange_pts c n : SpecFam.simplex c -> (0 < n)%N -> exists pts el,
  [/\ ModelFam.Lagrange K c n = Base.Ok el, (ModelFam.lagrange_dual K c n).1 = map (ModelFam.PointEvaluation K) pts,
      ModelFam.el_nodes K el = map (ModelFam.PointEvaluation K) pts & size pts = Base.binom (n + sdim_of c) (sdim_of c)].
Proof.
move=> Hc Hn. have [el [E [_ [_ [_ Hl]]]]] := PropsFam.C34_lagrange K (char0K F0) c n Hc (ltP Hn).
have [pts Hp] := pe_map (PropsTraceCells.lagrange_pe K (char0K F0) c n Hc).
exists pts, el. move: (E). rewrite /ModelFam.Lagrange. case: ModelFam.on_members => //= m.
case EL : (ModelFam.lagrange_dual K c n) Hp => [nodes ids] /= Hp [Eel]. rewrite -Eel /= in Hl *. split=> //.
by rewrite -Hl Hp -[LHS](size_map (ModelFam.PointEvaluation K)).
Qed.

Theorem C47_lagrange : forall c n, SpecFam.simplex c -> (0 < n)%N ->
  exists U pts el, [/\ ModelFam.Lagrange K c n = Base.Ok el, ModelFam.el_nodes K el = map (ModelFam.PointEvaluation K) pts,
    size pts = Base.binom (n + sdim_of c) (sdim_of c), lagrange sqrt c n = Ok U & nodal_at sqrt c n U pts].
Proof.
move=> c n Hc Hn. have [pts [el [E1 E2 E3 E4]]] := lagrange_pts Hc Hn.
have HN := exps_size n (proj2 (proj2 (simplex_dim Hc))).
have [||U [H1 H2]] := nodal_element (n := n) Hc E3; first by rewrite HN.
- exact: lagrange_det E2.
- exists U, pts, el. split=> //. by rewrite /lagrange E1.
Qed.
Theorem C47_discontinuous_lagrange : forall c n, SpecFam.simplex c ->
  exists U pts el, [/\ ModelFam.DiscontinuousLagrange K c n = Base.Ok el, ModelFam.el_nodes K el = map (ModelFam.PointEvaluation K) pts,
    size pts = Base.binom (n + sdim_of c) (sdim_of c), discontinuous_lagrange sqrt c n = Ok U & nodal_at sqrt c n U pts].
Proof.
move=> c n Hc. have HN := exps_size n (proj2 (proj2 (simplex_dim Hc))). case: (posnP n) => [->|Hn].
- have [el [E [_ [_ [_ _]]]]] := @ProofsFam5.P0_ok K c Hc.
  have El : ModelFam.el_nodes K el = map (ModelFam.PointEvaluation K) [:: ModelFam.barycenter K c].
  { move: E. rewrite /ModelFam.P0. case: ModelFam.on_members => //= m [<-]. by []. }
  have HN0 := exps_size 0 (proj2 (proj2 (simplex_dim Hc))).
  have Hb : Base.binom (0 + sdim_of c) (sdim_of c) = 1%N by case: c Hc {E El HN HN0}.
  have [||U [H1 H2]] := nodal_element (n := 0) Hc El; first by rewrite HN0 Hb.
  + move=> cf H a Ha. have := H 0%N isT. rewrite /pval. 
    have Es : exps (sdim_of c) 0 = [:: a]. { move: Ha HN0. rewrite Hb. case: (exps _ _) => [|b [|]] //. by rewrite inE => /eqP ->. }
    rewrite Es big_seq1 /mono big1 ?mulr1 // => i _. move: Ha. rewrite exps_mem => /andP [/eqP Sa].
    rewrite leqn0 => /eqP Hz. have -> : nth 0%N a i = 0%N; last by rewrite expr0.
    have := nth_le_sumn a i. by rewrite Hz leqn0 => /eqP.
  + exists U, [:: ModelFam.barycenter K c], el. rewrite /discontinuous_lagrange /ModelFam.DiscontinuousLagrange /= E. split=> //=.
- have [el [el' [E1 [E2 E3]]]] := @ProofsFam5.DG_nodes K c n Hc (ltP Hn).
  have [pts [el0 [E1' E2' E3' E4]]] := lagrange_pts Hc Hn. move: E1. rewrite E1' => -[E1]. rewrite -E1 E3' in E3.
  have [||U [H1 H2]] := nodal_element (n := n) Hc E3; first by rewrite HN.
  + exact: lagrange_det E2'.
  + exists U, pts, el'. split=> //. by rewrite /discontinuous_lagrange E2.
Qed.

(** Crouzeix-Raviart: the facet midpoints *)
Definition cr_grid c (k : nat) : F := org F c + scl F c * (1 - k%:R) / (sdim_of c)%:R.
Lemma idx1 idx : size idx = 1%N -> (sumn idx <= 1)%N -> idx = [:: 0%N] \/ idx = [:: 1%N].
Proof. case: idx => [|a []] //= _. case: a => [|[|a]] //=; auto. Qed.
Lemma idx2 idx : size idx = 2%N -> (sumn idx <= 1)%N -> idx = [:: 0%N; 0%N] \/ idx = [:: 1%N; 0%N] \/ idx = [:: 0%N; 1%N].
Proof. case: idx => [|a [|b []]] //= _. case: a => [|[|a]]; case: b => [|[|b]] //=; auto. Qed.
Lemma idx3 idx : size idx = 3%N -> (sumn idx <= 1)%N ->
  idx = [:: 0%N; 0%N; 0%N] \/ idx = [:: 1%N; 0%N; 0%N] \/ idx = [:: 0%N; 1%N; 0%N] \/ idx = [:: 0%N; 0%N; 1%N].
Proof. case: idx => [|a [|b [|d []]]] //= _. case: a => [|[|a]]; case: b => [|[|b]]; case: d => [|[|d]] //=; auto. Qed.
Ltac cr_close := split; [by []|rewrite /cr_grid /= ?subr0 ?subrr ?mulr1 ?mulr0 ?mul0r ?addr0; (congr [:: _; _; _] || congr [:: _; _]);
  rewrite ?(subr0, subrr, mulr1, mulr0, mul0r, addr0) -?[3%:R]/(1 + (1 + 1)) /addF /mulF /divF /subF /oneF /zeroF /oppF; refine (_ : @eq F _ _); try reflexivity; ffield; repeat split; nz].
Lemma cr_pts c : SpecFam.simplex c -> exists el pts,
  [/\ ModelFam.CrouzeixRaviart K c 1 = Base.Ok el, ModelFam.el_nodes K el = map (ModelFam.PointEvaluation K) pts, size pts = (sdim_of c).+1 &
      forall idx, size idx = sdim_of c -> (sumn idx <= 1)%N -> exists i, (i < size pts)%N /\ nth [::] pts i = [seq cr_grid c k | k <- idx]].
Proof.
have T2 : 1 + 1 != 0 :> F by have := two_neq0 F0; rewrite mulrS mulr1n.
have T3 : 1 + 1 + 1 != 0 :> F by have := F0 (m := 3%N) isT; rewrite -[3%:R]/(1 + (1 + 1) : F) addrA.
pose unpe (l : ModelFam.node K) : seq F := if l is ModelFam.PointEvaluation x then x else [::].
move=> Hc. exists (if ModelFam.CrouzeixRaviart K c 1 is Base.Ok el then el else ModelFam.mkEl K 0 [::] [::]).
exists (map unpe (ModelFam.el_nodes K (if ModelFam.CrouzeixRaviart K c 1 is Base.Ok el then el else ModelFam.mkEl K 0 [::] [::]))).
have G1 (o s : F) : o + s * (1 - 0%:R) / 1%:R = o + s by rewrite subr0 mulr1 divr1.
have G2 (o s m : F) : o + s * (1 - 1%:R) / m = o by rewrite subrr mulr0 mul0r addr0.
have G3 (o s : F) : o + s * (1 - 0%:R) / 2%:R = o + s / (1 + 1) by rewrite subr0 mulr1.
have G4 (o s : F) : o + s * (1 - 0%:R) / 3%:R = o + s / (1 + 1 + 1) by rewrite subr0 mulr1 -[3%:R]/(1 + (1 + 1) : F) addrA.
case: c Hc => // _; split; try reflexivity; rewrite [sdim_of _]/=.
all: move=> idx H1 H2; (have [->|->] := idx1 H1 H2) || (have [->|[->|->]] := idx2 H1 H2) || (have [->|[->|[->|->]]] := idx3 H1 H2); clear H1 H2 idx.
1,3: by exists 1%N; split=> //; rewrite /cr_grid /= G1 //; congr [:: _]; rewrite /oneF; fring.
1,2: by exists 0%N; split=> //; rewrite /cr_grid /= G2.
all: (have := G2 => _); first [exists 0%N; cr_close|exists 1%N; cr_close|exists 2%N; cr_close|exists 3%N; cr_close].
Qed.
Theorem C47_crouzeix_raviart : forall c n, SpecFam.simplex c ->
  (n = 1%N -> exists U pts el, [/\ ModelFam.CrouzeixRaviart K c n = Base.Ok el, ModelFam.el_nodes K el = map (ModelFam.PointEvaluation K) pts,
    size pts = (sdim_of c).+1, crouzeix_raviart sqrt c n = Ok U & nodal_at sqrt c n U pts]) /\
  (n <> 1%N -> crouzeix_raviart sqrt c n = Err Base.PlainException).
Proof.
move=> c n Hc. split=> [->|Hn].
- have [el [pts [E1 E2 E3 E4]]] := cr_pts Hc. have Hd := proj2 (proj2 (simplex_dim Hc)).
  have [||U [H1 H2]] := nodal_element (n := 1) Hc E2.
  + rewrite E3 exps_size //. by case: c Hc {E1 E2 E3 E4 Hd}.
  + move=> cf H. apply: (grid_zero (g := cr_grid c) Hd).
    * move=> i j /addrI/(congr1 ( *%R^~ (sdim_of c)%:R)). have Nd : (sdim_of c)%:R != 0 :> F by apply: F0; lia.
      rewrite !divfK // => /(mulfI (scl0 F0 c))/addrI/oppr_inj E. exact: natr_inj E.
    * move=> idx Hs Hk. have [i [Hi <-]] := E4 idx Hs Hk. exact: H.
  + exists U, pts, el. split=> //. by rewrite /crouzeix_raviart E1.
- rewrite /crouzeix_raviart /ModelFam.CrouzeixRaviart. by case: n Hn => [|[|n]].
Qed.

(** Degree 0: the constructor builds one node per vertex for the constants, so
    the Lagrange element cannot be built. *)
Theorem C47_lagrange_degree_zero_refuted : forall c, SpecFam.simplex c -> lagrange sqrt c 0 = Err Base.LinAlgError.
Proof.
move=> c Hc. rewrite /lagrange. have [el [E [_ H2]]] := PropsFam.C34_lagrange_degree_zero_refuted K c Hc.
have [pts Hp] := pe_map (PropsTraceCells.lagrange_pe K (char0K F0) c 0 Hc).
have El : ModelFam.el_nodes K el = map (ModelFam.PointEvaluation K) pts.
{ move: E. rewrite /ModelFam.Lagrange. case: ModelFam.on_members => //= m. by case EL : (ModelFam.lagrange_dual K c 0) Hp => [nodes ids] /= Hp [<-]. }
have HS : (2 <= size pts)%N. { move: H2. rewrite El -[length _]/(size _) size_map => /leP. by []. }
rewrite E /element_of (on_set_ok F0 Hsq 0 Hc) /= El map_res_pe /=.
have HG := @good_pe c 0 (size (exps (sdim_of c) 0)) pts (ltnW HS).
have [_] := C10_construction_iff_unisolvent HG. apply. case=> Es _. move: Es HS. rewrite size_map /= exps_size; last exact: (proj2 (proj2 (simplex_dim Hc))).
by move=> ->; case: c Hc {E El HG Hp}.
Qed.
End C47.

From mathcomp Require Import algC.
Import Num.Theory.
(** A concrete case: quadratic Lagrange on the UFC triangle over the algebraic
    numbers has 6 nodes, and interpolation reproduces x*y. *)
Example C47_p2_triangle : exists U pts, [/\ size pts = 6%N,
  lagrange sqrtC ModelCell.UFCTriangle 2 = Ok U &
  forall x : seq algC, pval 2 2 (fun a => (a == [:: 1%N; 1%N])%:R) x =
    \sum_(j < size pts) pval 2 2 (fun a => (a == [:: 1%N; 1%N])%:R) (nth [::] pts j) * basis sqrtC ModelCell.UFCTriangle 2 U j x].
Proof.
have [H1 H2] := C23_sqrt_witness_algC.
have [U [pts [el [_ _ E1 E2 [_ _ _ H _]]]]] := C47_lagrange H1 H2 (c := ModelCell.UFCTriangle) (n := 2) I isT.
by exists U, pts.
Qed.
