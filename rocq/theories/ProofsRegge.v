(** Polynomials that vanish at the lattice points with positive weights on two
    vertices, and symmetric tensors whose components along the edges vanish. *)
Set Warnings "-notation-overridden,-ambiguous-paths".
From mathcomp Require Import all_ssreflect all_algebra zify.
From Verif Require Base ModelGeom ModelIndex SpecIndex ModelCell SpecCell SpecFam ModelFam PropsSimplexTopo ProofsEntPts.
From Verif Require Import FieldTac SpecJacobi ProofsDmatsReg PropsExpansion ModelDmats ModelDual SpecDual ProofsDual SpecPoly SpecRT SpecTens ModelSpace ModelTens ProofsLagLat ProofsSpace ProofsSpaceCell ProofsElem ProofsPolyClo
  ProofsTaylor PropsConform ProofsTensElem ProofsTens ProofsTensNodes PropsFunctional.
Set Implicit Arguments. Unset Strict Implicit. Unset Printing Implicit Defensive.
Import GRing.Theory.
Local Open Scope ring_scope.

Section Edge.
Variable F : fieldType.
Hypothesis F0 : char_zero F.
Add Field FFreg : (mc_field_theory F).
Notation K := (mcF F).
Notation vts c := (ModelCell.vertices K c : seq (seq F)).
Lemma sum_pt (sd a : nat) (f : nat -> F) : (a <= sd)%N -> \sum_(v < sd.+1) (v == a :> nat)%:R * f v = f a.
Proof.
move=> Ha. rewrite -ltnS in Ha. rewrite (bigD1 (Ordinal Ha)) //= eqxx mul1r big1 ?addr0 // => v Hv.
have -> : (v == a :> nat) = false by apply/eqP => Ev; case/eqP: Hv; exact: val_inj. by rewrite mul0r.
Qed.
Lemma sum_ptn (sd a : nat) : (a <= sd)%N -> (\sum_(v < sd.+1) (v == a :> nat) = 1)%N.
Proof.
move=> Ha. rewrite -ltnS in Ha. rewrite (bigD1 (Ordinal Ha)) //= eqxx big1 ?addn0 // => v Hv.
by have -> : (v == a :> nat) = false by apply/eqP => Ev; case/eqP: Hv; exact: val_inj.
Qed.
Lemma dil (X A B P Q : F) : P != 0 -> Q != 0 -> X = (Q * ((P * X - A - B) / Q) + A + B) / P.
Proof. move=> HP HQ. ffield. repeat split; nz. Qed.
Lemma dil2 (A B C D e f : F) : (f * A - C - D) * e * B = (f * (A * B) - C * B - D * B) * e.
Proof. fring. Qed.
Lemma dil3 (Q : F) : Q != 0 -> (Q + 2%:R - 1 - 1) / Q = 1.
Proof. move=> HQ. rewrite mulr2n. ffield. repeat split; nz. Qed.
Lemma edge_det c n W a b cf : SpecFam.simplex c -> uniq W -> (forall v, v \in W -> (v <= sdim_of c)%N) -> a \in W -> b \in W ->
  (forall (w : nat -> nat) y, (forall v, (0 < w v)%N -> v \in W) -> (0 < w a)%N -> (0 < w b)%N -> (\sum_(v < (sdim_of c).+1) w v = n + 2)%N -> size y = sdim_of c ->
    (forall i, (i < sdim_of c)%N -> nth 0 y i = (\sum_(v < (sdim_of c).+1) (w v)%:R * vco F c v i) / (n + 2)%:R) -> pval (sdim_of c) n cf y = 0) ->
  forall x, in_plane (sdim_of c) (vts c) W x -> pval (sdim_of c) n cf x = 0.
Proof.
move=> Hc UW Hle Ha Hb H0 x [Sx [l [Hl Hx]]]. set sd := sdim_of c in Hle H0 Sx Hx *.
have N2 : (n + 2)%:R != 0 :> F by apply: F0; rewrite addn2.
pose h (y : seq F) := mkseq (fun i => (n%:R * nth 0 y i + vco F c a i + vco F c b i) / (n + 2)%:R) sd.
have Sh y : size (h y) = sd by rewrite size_mkseq.
have hN y i : (i < sd)%N -> nth 0 (h y) i = (n%:R * nth 0 y i + vco F c a i + vco F c b i) / (n + 2)%:R by move=> Hi; rewrite nth_mkseq.
(* the dilation sends lattice points to lattice points *)
have G (w : nat -> nat) y : (forall v, (0 < w v)%N -> v \in W) -> (\sum_(v < sd.+1) w v = n)%N ->
  (forall i, (i < sd)%N -> n%:R * nth 0 y i = \sum_(v < sd.+1) (w v)%:R * vco F c v i) -> pval sd n cf (h y) = 0.
{ move=> Hw Sw Hy. apply: (H0 (fun v => w v + ((v == a) + (v == b)))%N); rewrite ?eqxx //; try lia.
  - move=> v. case: (v =P a) => [->|_] //. case: (v =P b) => [->|_] //. rewrite !addn0. exact: Hw.
  - by rewrite !big_split /= Sw !sum_ptn ?Hle.
  - move=> i Hi. rewrite hN // Hy //. congr (_ / _).
    transitivity (\sum_(v < sd.+1) ((w v)%:R * vco F c v i + ((v == a :> nat)%:R * vco F c v i + (v == b :> nat)%:R * vco F c v i))).
    + by rewrite !big_split /= !(@sum_pt _ _ (fun v => vco F c v i)) ?Hle // addrA.
    + apply: eq_bigr => v _. by rewrite !natrD !mulrDl. }
have Hp : is_poly sd n (fun y => pval sd n cf (h y)).
{ apply: (is_poly_comp (is_poly_pval sd n cf)) => [y _|i Hi]; first exact: Sh.
  apply: (@is_poly_ext _ _ _ (fun y => (n + 2)%:R^-1 * (n%:R * nth 0 y i + (vco F c a i + vco F c b i)))) => [y _|]; first by rewrite hN // mulrC addrA.
  apply: is_poly_scale. apply: is_poly_add; last exact: is_poly_const. apply: is_poly_scale. exact: is_poly_coord. }
case: (posnP n) => [n0|n0].
- have H1 y : pval sd n cf y = cf (nseq sd 0%N).
  { apply: const_pval => al. rewrite exps_mem n0 leqn0 => /andP [_ /eqP ->]. by rewrite ltnn. }
  rewrite H1 -(H1 (h [::])). apply: (G (fun=> 0%N)) => //; first by rewrite big1 // n0.
  move=> i Hi. rewrite big1 ?n0 ?mul0r // => v _. by rewrite mul0r.
- have Nn : n%:R != 0 :> F by apply: F0.
  case: Hp => cf' Hcf'.
  pose y := mkseq (fun i => ((n + 2)%:R * nth 0 x i - vco F c a i - vco F c b i) / n%:R) sd.
  have Ey : x = h y.
  { apply: (@eq_from_nth _ 0) => [|i]; rewrite Sx ?Sh // => Hi. rewrite hN // nth_mkseq //.
    exact: dil. }
  rewrite Ey Hcf' ?size_mkseq //. apply: (@plane_w F F0 c n W cf' Hc n0 UW) => //; first by case: (W) Ha.
  + move=> w y' Hw Sw Sy Hy. rewrite -Hcf' //. apply: (G w) => // i Hi. by rewrite Hy // mulrC divfK.
  + split; first by rewrite size_mkseq.
    exists (fun v => ((n + 2)%:R * l v - (v == a)%:R - (v == b)%:R) / n%:R).
    have S1 (g : nat -> F) u : u \in W -> \sum_(v <- W) (v == u)%:R * g v = g u.
    { move=> Hu. rewrite (bigD1_seq u) //= eqxx mul1r big1 ?addr0 // => v /negbTE ->. by rewrite mul0r. }
    have S0 (g : nat -> F) : \sum_(v <- W) ((n + 2)%:R * l v - (v == a)%:R - (v == b)%:R) / n%:R * g v = ((n + 2)%:R * (\sum_(v <- W) l v * g v) - g a - g b) / n%:R.
    { rewrite -(S1 g a Ha) -(S1 g b Hb) mulr_sumr -!sumrB mulr_suml. apply: eq_bigr => v _.
      exact: dil2. }
    split.
    * have := S0 (fun=> 1). under eq_bigr do rewrite mulr1. move=> ->. under eq_bigr do rewrite mulr1. rewrite Hl mulr1 natrD. exact: dil3.
    * move=> i Hi. rewrite nth_mkseq // S0 Hx //.
Qed.

(** a symmetric tensor is determined by its components along the edges *)
Definition edge_comp (d : nat) (M : nat -> nat -> F) (a b : nat) : F :=
  \sum_(i < d) \sum_(j < d) ((b == i.+1)%:R - (a == i.+1)%:R) * M i j * ((b == j.+1)%:R - (a == j.+1)%:R).
Lemma edges_det d M : (2 <= d <= 3)%N -> (forall i j, (i < d)%N -> (j < d)%N -> M i j = M j i) ->
  (forall a b, (a < b)%N -> (b <= d)%N -> edge_comp d M a b = 0) -> forall i j, (i < d)%N -> (j < d)%N -> M i j = 0.
Proof.
have T2 : 2%:R != 0 :> F by apply: F0.
have Q (x y z : F) : x = 0 -> y = 0 -> x + y - z - z = 0 -> z = 0.
{ move=> -> ->. rewrite addr0 sub0r -opprD => /eqP. rewrite oppr_eq0 -mulr2n -mulr_natr mulf_eq0 (negbTE T2) orbF => /eqP. by []. }
move=> Hd. have [->|->] : d = 2%N \/ d = 3%N by lia.
- move=> Hs H. have H01 := H 0%N 1%N isT isT. have H02 := H 0%N 2%N isT isT. have H12 := H 1%N 2%N isT isT.
  rewrite /edge_comp !big_ord_recl !big_ord0 /= in H01 H02 H12. rewrite /bump /= ?addn0 in H01 H02 H12.
    have M0 : M 0%N 0%N = 0 by rewrite -[RHS]H01; fring. have M1 : M 1%N 1%N = 0 by rewrite -[RHS]H02; fring.
  have M2 : M 0%N 1%N = 0 by apply: (Q _ _ _ M0 M1); rewrite -[RHS]H12 (Hs 1%N 0%N) //; fring.
  case=> [|[|i]] // [|[|j]] // _ _. by rewrite Hs.
- move=> Hs H. have H01 := H 0%N 1%N isT isT. have H02 := H 0%N 2%N isT isT. have H03 := H 0%N 3%N isT isT.
  have H12 := H 1%N 2%N isT isT. have H13 := H 1%N 3%N isT isT. have H23 := H 2%N 3%N isT isT.
  rewrite /edge_comp !big_ord_recl !big_ord0 /= in H01 H02 H03 H12 H13 H23. rewrite /bump /= ?addn0 ?addn1 in H01 H02 H03 H12 H13 H23.
  have M0 : M 0%N 0%N = 0 by rewrite -[RHS]H01; fring. have M1 : M 1%N 1%N = 0 by rewrite -[RHS]H02; fring. have M3 : M 2%N 2%N = 0 by rewrite -[RHS]H03; fring.
  have M01 : M 0%N 1%N = 0 by apply: (Q _ _ _ M0 M1); rewrite -[RHS]H12 (Hs 1%N 0%N) //; fring.
  have M02 : M 0%N 2%N = 0 by apply: (Q _ _ _ M0 M3); rewrite -[RHS]H13 (Hs 2%N 0%N) //; fring.
  have M12 : M 1%N 2%N = 0 by apply: (Q _ _ _ M1 M3); rewrite -[RHS]H23 (Hs 2%N 1%N) //; fring.
  case=> [|[|[|i]]] // [|[|[|j]]] // _ _; by rewrite Hs.
Qed.
End Edge.

Lemma map_res_map (A B : Type) (f : A -> result B) (g : A -> B) l : (forall x, List.In x l -> f x = Ok (g x)) -> map_res f l = Ok (map g l).
Proof. elim: l => [|x l IH] H //=. rewrite (H x (or_introl erefl)) IH // => y Hy. apply: H. by right. Qed.
Lemma nth_error_map (A B : Type) (g : A -> B) l k x d : List.nth_error l k = Some x -> (k < size (map g l))%N /\ nth d (map g l) k = g x.
Proof. elim: l k => [|y l IH] [|k] //= H; first by case: H => ->. exact: IH. Qed.
Lemma nth_error_some (A : Type) (l : seq A) k : (k < size l)%N -> exists x, List.nth_error l k = Some x.
Proof. elim: l k => [|y l IH] [|k] //= H; [by exists y|exact: IH]. Qed.

Section Node.
Variable F : fieldType.
Hypothesis F0 : char_zero F.
Add Field FFreg2 : (mc_field_theory F).
Notation K := (mcF F).
Notation pt := [eqType of seq F].
Notation vts c := (ModelCell.vertices K c : seq (seq F)).
Notation pip c v w x := (ModelFunctional.PointwiseInnerProductEvaluation (geometry_of F c) v w x).
Lemma pip_apply c v w x (f : func F pt) : apply (pip c v w x) f = bilin (sdim_of c) w v (fun i j => fval f [:: i; j] x).
Proof.
rewrite /apply /= big_nil addr0 big_seq1 /=. rewrite -/(ModelIndex.index_iterator [:: sdim_of c; sdim_of c]) big_map index2.
apply: eq_bigr => i _. apply: eq_bigr => j _ /=. by rewrite mulrAC.
Qed.
Lemma in_In (A : eqType) (x : A) l : x \in l -> List.In x l.
Proof. elim: l => //= y l IH. rewrite inE => /orP [/eqP ->|/IH]; [by left|by right]. Qed.
Lemma iter2 m : ModelIndex.index_iterator [:: m; m] = flatten [seq [seq [:: i; j] | j <- iota 0 m] | i <- iota 0 m].
Proof.
rewrite /ModelIndex.index_iterator flat_mapE /Base.range !seqE !PeanoNat.Nat.sub_0_r. congr flatten. apply: eq_map => i /=.
by rewrite !mapE -map_comp.
Qed.
Lemma pip_wf c v w x (E : expansion F pt) : wf_functional E [:: sdim_of c; sdim_of c] (pip c v w x).
Proof.
rewrite /wf_functional /= !andbT. rewrite -/(ModelIndex.index_iterator [:: sdim_of c; sdim_of c]) iter2.
apply/allP => wc /mapP [ij] /flattenP [s /mapP [i Hi] ->] /mapP [j Hj ->] -> /=.
apply/comps2P. exists i, j. by rewrite !mem_iota in Hi Hj *.
Qed.
(** a lattice point lies on the entity of its support *)
Lemma lat_entity c m (w : nat -> nat) a b : SpecFam.simplex c -> (a <= sdim_of c)%N -> (b <= sdim_of c)%N -> a != b ->
  (0 < w a)%N -> (0 < w b)%N -> (\sum_(v < (sdim_of c).+1) w v = m)%N ->
  exists d e W (x : seq F), [/\ ModelCell.lookup (ModelCell.topology c) (ModelCell.DI d) e = Some W, (1 <= d)%N, forall v, (v \in W) = (v <= sdim_of c)%N && (0 < w v)%N,
    List.In x (ModelFam.make_points K c d e m) & size x = sdim_of c /\
    forall i, (i < sdim_of c)%N -> nth 0 x i = (\sum_(v < (sdim_of c).+1) (w v)%:R * vco F c v i) / m%:R].
Proof.
move=> Hc La Lb Hab Pa Pb Hw. have [Hsc [Hnv _]] := simplex_dim Hc.
pose N := (ModelCell.spatial_dimension c).+1. rewrite -[(sdim_of c).+1]/N in Hw *.
have m0 : (0 < m)%N. { rewrite -Hw. rewrite -ltnS in La. rewrite (bigD1 (Ordinal La)) //=. apply: (leq_trans Pa). exact: leq_addr. }
pose V := [seq v <- iota 0 N | (0 < w v)%N].
have Va : a \in V by rewrite mem_filter Pa mem_iota /= add0n.
have Vb : b \in V by rewrite mem_filter Pb mem_iota /= add0n.
have VU : uniq V by rewrite filter_uniq ?iota_uniq.
have HV2 : (2 <= size V)%N.
{ have := uniq_leq_size (s1 := [:: a; b]) (s2 := V). rewrite /= inE Hab => /(_ isT). apply. move=> z. by rewrite !inE => /orP [] /eqP ->. }
have HV0 : V != [::] by case: (V) HV2.
have [_ [H2 _]] := PropsSimplexTopo.C42_simplex_topology_complete Hsc.
have [||e [W [HW [EW _]]]] := H2 V HV0; first exact: VU.
- apply/allP => v. by rewrite mem_filter mem_iota Hnv /= add0n => /andP [].
have [UW NW SW Hle] := entity_ok Hc HW.
have P : perm_eq W V. { apply: uniq_perm; [exact UW|exact: VU|by move=> z; rewrite EW]. }
have Sall (R : Type) (idx : R) (op : Monoid.com_law idx) (f : nat -> R) : (forall v, w v = 0%N -> f v = idx) ->
   \big[op/idx]_(v <- W) f v = \big[op/idx]_(v < N) f v.
{ move=> Hf. rewrite (perm_big _ P) /= big_filter -(big_mkord xpredT) /index_iota subn0 big_mkcond /=. apply: eq_bigr => v _.
  case: posnP => // E. by rewrite Hf. }
have [B1 B2] := num_bound Hc HW. pose d := (size V).-1. rewrite -/d in HW SW B1 B2.
have d1 : (1 <= d)%coq_nat by rewrite /d; lia.
have [||||x [X1 [X2 X3]]] := @ProofsEntPts.entity_point K (char0K F0) c d e W m [seq w v | v <- W] Hc (conj d1 B2) (lookupE HW) B1.
- by rewrite -[LHS]/(size _) size_map.
- move=> z /List.in_map_iff [v [<- Hv]]. have : v \in W. { elim: (W) Hv => [//|y l IH] /= [->|/IH H]; rewrite inE ?eqxx ?H ?orbT //. }
  rewrite (perm_mem P) mem_filter => /andP [? _]; lia.
- by rewrite nsumE (Sall _ _ _ w).
- lia.
exists d, e, W, x. split=> //; first by apply/ssrnat.leP.
- move=> v. by rewrite (perm_mem P) mem_filter mem_iota /= add0n /N ltnS andbC.
split=> // i Hi. have := X3 i. rewrite /SpecIndex.coord !Lnth => ->; last by lia. rewrite of_natE.
have E := wsumE w (fun v => vco F c v i) W.
rewrite (Sall _ _ _ (fun v => (w v)%:R * vco F c v i)) in E; last by move=> v ->; rewrite mul0r.
refine (etrans _ (congr1 (fun z : F => z / m%:R) E)).
refine (congr1 (fun z : seq F => (SpecIndex.wsum (K := K) _ z : F) / m%:R) _).
apply: eq_map => v. by rewrite /SpecIndex.coord !Lnth.
Qed.
(** the node on the edge of the vertices [a], [b] at a lattice point *)
Lemma tangent_node c n (w : nat -> nat) a b : SpecFam.simplex c -> (a <= sdim_of c)%N -> (b <= sdim_of c)%N -> a != b ->
  (0 < w a)%N -> (0 < w b)%N -> (\sum_(v < (sdim_of c).+1) w v = n + 2)%N ->
  exists (t x : seq F) s, [/\ List.In (ModelFam.InnerProduct K t t x) (regge_nodes K c n), size x = sdim_of c, s * s = 1,
    forall i, (i < sdim_of c)%N -> nth 0 x i = (\sum_(v < (sdim_of c).+1) (w v)%:R * vco F c v i) / (n + 2)%:R &
    forall i, (i < sdim_of c)%N -> nth 0 t i = s * (vco F c b i - vco F c a i)].
Proof.
move=> Hc La Lb Hab Pa Pb Hw. have [d [e [W [x [HW /ssrnat.leP d1 EW X1 [X2 X4]]]]]] := lat_entity Hc La Lb Hab Pa Pb Hw.
have [UW NW SW Hle] := entity_ok Hc HW. have [B1 B2] := num_bound Hc HW.
have EV : ModelFam.entity_vertices K c d e = [seq (nth [::] (vts c) v : seq F) | v <- W].
{ rewrite /ModelFam.entity_vertices (lookupE HW) /=. apply: eq_map => v. exact: Lnth. }
have Wa : a \in W by rewrite EW La. have Wb : b \in W by rewrite EW Lb.
(* the tangents of the entity *)
have T p q : (p < q)%N -> (q <= d)%N -> exists t, [/\ List.In (ModelFam.InnerProduct K t t x) (regge_nodes K c n) &
  forall i, (i < sdim_of c)%N -> nth 0 t i = vco F c (nth 0%N W q) i - vco F c (nth 0%N W p) i].
{ move=> Hpq Hq. exists (@ModelIndex.vsub K (List.nth q (ModelFam.entity_vertices K c d e) [::]) (List.nth p (ModelFam.entity_vertices K c d e) [::])). split.
  - rewrite /regge_nodes. apply/List.in_flat_map. exists d. split; first by apply/Base.in_range; lia.
    apply/List.in_flat_map. exists e. split; first by apply/Base.in_range; lia.
    rewrite /ProofsFam4.regge_fun. apply/List.in_flat_map. exists x. split=> //. apply/List.in_map_iff. eexists; split; first by [].
    rewrite /ModelFam.face_edge_tangents. apply/List.in_flat_map. exists p. split; first by apply/Base.in_range; lia.
    apply/List.in_map_iff. exists q. split; first by []. apply/Base.in_range; lia. 
  - move=> i Hi. rewrite EV !Lnth !(nth_map 0%N) ?SW //; last by lia.
    have S1 v : v \in W -> size (nth [::] (vts c) v : seq F) = sdim_of c.
    { move=> /Hle Hv. have [Z1 Z2] := verts_dim F Hc. apply: Z2. apply: mem_nth. by rewrite Z1. }
    have M (X Y : seq F) : size X = sdim_of c -> size Y = sdim_of c -> nth 0 (@ModelIndex.vsub K X Y) i = nth 0 X i - nth 0 Y i.
    { move: Hi. clear. rewrite /ModelIndex.vsub. move: (sdim_of c) => m. elim: X Y i m => [|x0 X IH] [|y0 Y] [|i] [|m] //= Hi [HX] [HY]. exact: (IH Y i m). }
    rewrite M //; apply: S1; apply: mem_nth; rewrite SW; lia. }
have Ia : (index a W < d.+1)%N by rewrite -SW index_mem. have Ib : (index b W < d.+1)%N by rewrite -SW index_mem.
have Iab : index a W != index b W by apply: contra Hab => /eqP E; rewrite -(nth_index 0%N Wa) E nth_index.
case: (ltngtP (index a W) (index b W)) Iab => // L _.
- have [t [T1 T2]] := T _ _ L Ib. exists t, x, 1. split=> //; first by rewrite mulr1. move=> i Hi. by rewrite T2 // !nth_index // mul1r.
- have [t [T1 T2]] := T _ _ L Ia. exists t, x, (-1). split=> //; first by rewrite mulrNN mulr1. move=> i Hi. by rewrite T2 // !nth_index // mulN1r opprB.
Qed.
(** the value of such a node *)
Lemma bilin_edge c (t : seq F) s a b (M : nat -> nat -> F) : SpecFam.simplex c -> (a <= sdim_of c)%N -> (b <= sdim_of c)%N -> s * s = 1 ->
  (forall i, (i < sdim_of c)%N -> nth 0 t i = s * (vco F c b i - vco F c a i)) ->
  bilin (sdim_of c) t t M = scl F c * scl F c * edge_comp (sdim_of c) M a b.
Proof.
move=> Hc La Lb Hs Ht. rewrite /bilin /edge_comp mulr_sumr. apply: eq_bigr => i _. rewrite mulr_sumr. apply: eq_bigr => j _.
rewrite !Ht ?ltn_ord // !vcoE ?ltn_ord //.
have G (o z p q r u m : F) : s * (o + z * p - (o + z * q)) * m * (s * (o + z * r - (o + z * u))) = (s * s) * (z * z * ((p - q) * m * (r - u))) by fring.
by rewrite G Hs mul1r.
Qed.
End Node.

Section Det.
Variable F : fieldType.
Hypothesis F0 : char_zero F.
Notation K := (mcF F).
Notation vts c := (ModelCell.vertices K c : seq (seq F)).
(** lattice points with support in [W] lie in the plane of [W] *)
Lemma lat_plane c m W (w : nat -> nat) (y : seq F) : (0 < m)%N -> uniq W -> (forall v, v \in W -> (v <= sdim_of c)%N) ->
  (forall v, (0 < w v)%N -> v \in W) -> (\sum_(v < (sdim_of c).+1) w v = m)%N -> size y = sdim_of c ->
  (forall i, (i < sdim_of c)%N -> nth 0 y i = (\sum_(v < (sdim_of c).+1) (w v)%:R * vco F c v i) / m%:R) -> in_plane (sdim_of c) (vts c) W y.
Proof.
move=> Hm UW Hle Hsup Hw Y2 Y3. set sd := sdim_of c in Hle Hw Y2 Y3 *. have Nn : m%:R != 0 :> F by apply: F0.
split=> //. exists (fun v => (w v)%:R / m%:R).
have WS (f : nat -> F) : \sum_(v <- W) (w v)%:R / m%:R * f v = (\sum_(v < sd.+1) (w v)%:R * f v) / m%:R.
{ rewrite mulr_suml -(big_mkord xpredT (fun v => (w v)%:R * f v / m%:R)) [RHS](bigID (fun v => v \in W)) /= [X in _ = _ + X]big1 ?addr0; last first.
  { move=> v Hv. have -> : w v = 0%N by apply/eqP; rewrite -leqn0 leqNgt; apply/negP => /Hsup; exact/negP. by rewrite !mul0r. }
  rewrite -[RHS]big_filter. have P : perm_eq [seq v <- index_iota 0 sd.+1 | v \in W] W.
  { apply: uniq_perm => //; first exact: filter_uniq (iota_uniq _ _). move=> v. rewrite mem_filter mem_index_iota. case Hv : (v \in W) => //=. by rewrite ltnS Hle. }
  rewrite (perm_big _ P). apply: eq_bigr => v _. by rewrite mulrAC. }
split.
- rewrite (eq_bigr (fun v => (w v)%:R / m%:R * 1)); last by move=> v _; rewrite mulr1. rewrite (WS (fun=> 1)).
  rewrite (eq_bigr (fun v : 'I_sd.+1 => (w v)%:R)); last by move=> v _; rewrite mulr1. by rewrite -natr_sum Hw divff.
- move=> i Hi. rewrite Y3 // -(WS (fun v => vco F c v i)). by [].
Qed.
Add Field FFreg3 : (mc_field_theory F).
Lemma cellE (L o z d : F) : L * (o + z * d) = L * o + d * (L * z).
Proof. fring. Qed.
(** every point lies in the plane of all the vertices *)
Lemma cell_plane c x : SpecFam.simplex c -> size x = sdim_of c -> in_plane (sdim_of c) (vts c) (iota 0 (sdim_of c).+1) x.
Proof.
move=> Hc Sx. split=> //. have [l Hl] : exists l : nat -> F, forall i, l i * scl F c = nth 0 x i - org F c.
{ exists (fun i => (nth 0 x i - org F c) / scl F c) => i. by rewrite divfK ?scl0. }
exists (fun v => if v is i.+1 then l i else 1 - \sum_(i < sdim_of c) l i).
have B (f : nat -> F) : \sum_(v <- iota 0 (sdim_of c).+1) f v = f 0%N + \sum_(i < sdim_of c) f i.+1.
{ by rewrite -[iota _ _]/(index_iota 0 (sdim_of c).+1) big_mkord big_ord_recl. }
rewrite B subrK. split=> // j Hj. rewrite (B (fun v => (if v is i.+1 then l i else 1 - \sum_(i < sdim_of c) l i) * vco F c v j)). cbv beta iota.
rewrite vcoE // mulr0 addr0 mulrBl mul1r.
have -> : \sum_(i < sdim_of c) l i * vco F c i.+1 j = \sum_(i < sdim_of c) (l i * org F c + (i == j :> nat)%:R * (l i * scl F c)).
{ apply: eq_bigr => i _. rewrite vcoE // eqSS. exact: cellE. }
rewrite big_split /= -mulr_suml addrA subrK (bigD1 (Ordinal Hj)) //= eqxx mul1r big1 ?addr0; last first.
{ move=> i Hi. have -> : (i == j :> nat) = false by apply/eqP => Ei; case/eqP: Hi; exact: val_inj. by rewrite mul0r. }
by rewrite Hl addrC subrK.
Qed.
Lemma edgeE (P M Q X : F) : P * M * Q * X = P * (M * X) * Q.
Proof. fring. Qed.
(** the coefficients of a component along an edge *)
Definition edge_cf (d a b : nat) (cfs : seq nat -> seq nat -> F) (al : seq nat) : F := edge_comp d (fun i j => cfs [:: i; j] al) a b.
Lemma pval_edge sd n a b cfs x : pval sd n (edge_cf sd a b cfs) x = edge_comp sd (fun i j => pval sd n (cfs [:: i; j]) x) a b.
Proof.
rewrite /edge_comp. under [RHS]eq_bigr => i _ do under eq_bigr => j _ do rewrite mulr_sumr mulr_suml.
under [RHS]eq_bigr => i _ do rewrite exchange_big /=. rewrite exchange_big /=. rewrite /pval. apply: eq_bigr => al _.
rewrite mulr_suml. apply: eq_bigr => i _. rewrite mulr_suml. apply: eq_bigr => j _. exact: edgeE.
Qed.
(** fields whose nodes in the plane of [W] vanish have no component along the
    edges of [W] *)
Lemma tang_zero c n W a b (cfs : seq nat -> seq nat -> F) : SpecFam.simplex c -> uniq W -> (forall v, v \in W -> (v <= sdim_of c)%N) -> a \in W -> b \in W -> a != b ->
  (forall t y, List.In (ModelFam.InnerProduct K t t y) (regge_nodes K c n) -> in_plane (sdim_of c) (vts c) W y ->
    bilin (sdim_of c) t t (fun i j => pval (sdim_of c) n (cfs [:: i; j]) y) = 0) ->
  forall x, in_plane (sdim_of c) (vts c) W x -> edge_comp (sdim_of c) (fun i j => pval (sdim_of c) n (cfs [:: i; j]) x) a b = 0.
Proof.
move=> Hc UW Hle Ha Hb Hab H0 x Hx. rewrite -pval_edge. apply: (edge_det F0 Hc UW Hle Ha Hb) Hx => w y Hsup Pa Pb Hw Sy Hy.
have [t [x' [s [T1 T2 T3 T4 T5]]]] := tangent_node F0 Hc (Hle a Ha) (Hle b Hb) Hab Pa Pb Hw.
have Ey : x' = y by apply: (@eq_from_nth _ 0) => [|i]; rewrite T2 ?Sy // => Hi; rewrite T4 ?Hy.
rewrite Ey in T1. have := H0 t y T1 (lat_plane (m := (n + 2)%N) _ UW Hle Hsup Hw Sy Hy). rewrite {1}addn2 => /(_ isT).
rewrite (bilin_edge _ Hc (Hle a Ha) (Hle b Hb) T3 T5) pval_edge => /eqP. by rewrite mulf_eq0 mulf_eq0 !(negbTE (scl0 F0 c)) /= => /eqP.
Qed.
End Det.
