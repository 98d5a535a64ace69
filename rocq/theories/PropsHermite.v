(** C51: the cubic Hermite element on intervals, triangles and tetrahedra, from the
    constructor call to the basis functions, and its conformity. *)
Set Warnings "-notation-overridden,-ambiguous-paths".
From mathcomp Require Import all_ssreflect all_algebra all_field zify.
From Verif Require Base ModelIndex SpecIndex ModelCell SpecCell SpecFam ModelFam PropsFam.
From Verif Require Import FieldTac SpecJacobi ProofsJacobi ProofsDmatsReg PropsSimplexTopo PropsExpansion ModelDual SpecDual SpecPoly ModelSpace SpecRT SpecJet.
From Verif Require Import ModelExpansion ModelDmats ModelAffine ProofsLagLat ProofsSpace ProofsSpaceCell ProofsPolyClo ProofsElem PropsConform ProofsRestr ProofsJet.
Set Implicit Arguments. Unset Strict Implicit. Unset Printing Implicit Defensive.
Import GRing.Theory.
Local Open Scope ring_scope.

Section Statement.
Variable F : fieldType.
(** the center of the face with vertices [W] *)
Definition face_center (c : cell) (W : seq nat) : seq F :=
  mkseq (fun i => (\sum_(v <- W) nth 0 (nth [::] (verts F c) v) i) / 3%:R) (sdim_of c).
(** value and gradient at every vertex, value at the center of every face *)
Definition hermite_nodes (c : cell) : seq (dnode F) :=
  flatten [seq at_pt x :: [seq der_at x [seq (k == i : nat) | k <- iota 0 (sdim_of c)] | i <- iota 0 (sdim_of c)] | x <- verts F c] ++
  [seq at_pt (face_center c W) | W <- [seq p.2 | p <- ModelFam.top c 2]].
End Statement.

Section C51.
Variable F : fieldType.
Hypothesis F0 : char_zero F.
Variable sqrt : F -> F.
Hypothesis Hsq : sqrt_exact sqrt.
Notation K := (mcF F).
Notation vts c := (ModelCell.vertices K c : seq (seq F)).
Notation unit sd i := [seq nat_of_bool (k == i :> nat) | k <- iota 0 sd].
Add Field FFhe : (mc_field_theory F).

(** a cubic with zero value and gradient at two points vanishes on their line *)
Lemma edge_zero sd cf (x z : seq F) : size x = sd -> size z = sd -> pval sd 3 cf x = 0 -> pval sd 3 cf z = 0 ->
  (forall i, (i < sd)%N -> pder sd 3 cf (unit sd i) x = 0) -> (forall i, (i < sd)%N -> pder sd 3 cf (unit sd i) z = 0) ->
  forall t, pval sd 3 cf (mkseq (fun i => nth 0 x i + t * (nth 0 z i - nth 0 x i)) sd) = 0.
Proof.
move=> Sx Sz Vx Vz Dx Dz t. pose d := mkseq (fun i => nth 0 z i - nth 0 x i) sd.
have A s : along sd x d s = mkseq (fun i => nth 0 x i + s * (nth 0 z i - nth 0 x i)) sd.
{ apply: (@eq_from_nth _ 0) => [|i]; rewrite !size_mkseq // => Hi. by rewrite !nth_mkseq. }
have A0 : along sd x d 0 = x by rewrite A; apply: (@eq_from_nth _ 0) => [|i]; rewrite size_mkseq // => Hi; rewrite nth_mkseq // mul0r addr0.
have A1 : along sd x d 1 = z by rewrite A; apply: (@eq_from_nth _ 0) => [|i]; rewrite size_mkseq // => Hi; rewrite nth_mkseq // mul1r addrC subrK.
have D s : (forall i, (i < sd)%N -> pder sd 3 cf (unit sd i) (along sd x d s) = 0) -> (lpoly sd 3 cf x d (nseq sd 0%N))^`().[s] = 0.
{ move=> H. rewrite lpoly_der horner_sum big1 // => i _. rewrite hornerZ lpoly_ev (pder_ext _ _ (al' := unit sd i)) ?H ?mulr0 //.
  move=> j Hj. by rewrite nth_mkseq // nth_nseq Hj add0n (nth_map 0%N) ?size_iota // nth_iota // add0n. }
rewrite -A -lpoly_val.
have -> : lpoly sd 3 cf x d (nseq sd 0%N) = 0; last by rewrite horner0.
apply: (@zeros_count _ _ [:: (0, 2%N); (1, 2%N)]) => [|p|].
- by rewrite /= inE eq_sym oner_eq0.
- rewrite !inE => /orP [] /eqP -> /=; apply: dvd_double; rewrite ?lpoly_val ?A0 ?A1 //; apply: D; by rewrite ?A0 ?A1.
- apply: (leq_trans (lpoly_size _ _ _ _ _ _)). rewrite !big_cons big_nil /=. by rewrite ltnS leq_subr.
Qed.

(** the nodes attached to the vertices, edges and faces of [W] *)
Lemma hermite_plane c W cf : SpecFam.simplex c -> uniq W -> W != [::] -> (forall v, v \in W -> (v <= sdim_of c)%N) ->
  (forall v, v \in W -> pval (sdim_of c) 3 cf (nth [::] (vts c) v) = 0 /\ forall i, (i < sdim_of c)%N -> pder (sdim_of c) 3 cf (unit (sdim_of c) i) (nth [::] (vts c) v) = 0) ->
  (forall e Wf, ModelCell.lookup (ModelCell.topology c) (ModelCell.DI 2) e = Some Wf -> {subset Wf <= W} -> pval (sdim_of c) 3 cf (face_center F c Wf) = 0) ->
  forall x, in_plane (sdim_of c) (vts c) W x -> pval (sdim_of c) 3 cf x = 0.
Proof.
move=> Hc UW NW Hle HV HF. have [Hsc [Hnv _]] := simplex_dim Hc. set sd := sdim_of c in Hle HV HF *.
have T3 : 3%:R != 0 :> F by apply: F0.
apply: (plane_w F0 Hc) => // w y Hsup Hw Sy Hy. rewrite -/sd in Hw Sy Hy *.
pose s := flatten [seq nseq (w v) v | v <- iota 0 sd.+1].
have Ss : size s = 3%N.
{ rewrite size_flatten /shape -map_comp sumnE big_map -[RHS]Hw -(big_mkord xpredT w) /index_iota subn0. apply: eq_bigr => v _. by rewrite /= size_nseq. }
have Es (f : nat -> F) : \sum_(v < sd.+1) (w v)%:R * f v = \sum_(v <- s) f v.
{ rewrite /s big_flatten big_map -(big_mkord xpredT (fun v => (w v)%:R * f v)) /index_iota subn0. apply: eq_bigr => v _. by rewrite big_nseq iter_addr_0 mulr_natl. }
have Hin v : v \in s -> v \in W.
{ move/flattenP => [l /mapP [u _ ->]]. rewrite mem_nseq => /andP [Hu /eqP ->]. exact: Hsup. }
have {}Hy i : (i < sd)%N -> nth 0 y i = (\sum_(v <- s) vco F c v i) / 3%:R by move=> Hi; rewrite Hy // (Es (fun v => vco F c v i)).
move: s Ss Hin Hy {Es Hw Hsup} => [|a [|b [|d []]]] // _ Hin Hy.
have Ha : a \in W by apply: Hin; rewrite !inE eqxx. have Hb : b \in W by apply: Hin; rewrite !inE eqxx ?orbT. have Hd : d \in W by apply: Hin; rewrite !inE eqxx ?orbT.
have Sv v : v \in W -> size (nth [::] (vts c) v) = sd.
{ move=> Hv. have [V1 V2] := verts_dim F Hc. apply: V2. apply: mem_nth. by rewrite V1 ltnS Hle. }
have Edge u v : u \in W -> v \in W -> (forall i, (i < sd)%N -> nth 0 y i = (vco F c u i + vco F c u i + vco F c v i) / 3%:R) -> pval sd 3 cf y = 0.
{ move=> Hu Hv Hyi. have [V1 D1] := HV u Hu. have [V2 D2] := HV v Hv. have := edge_zero (Sv u Hu) (Sv v Hv) V1 V2 D1 D2 3%:R^-1.
  set y' := mkseq _ sd. have -> // : y' = y. apply: (@eq_from_nth _ 0) => [|i]; rewrite size_mkseq // => Hi. rewrite nth_mkseq // Hyi // -/(vco F c u i) -/(vco F c v i). move: (vco F c u i) (vco F c v i) => a1 a2.
  have -> : 3%:R = 1 + 1 + 1 :> F by rewrite -[3%:R]/(1 + (1 + 1)) addrA. have T3' : 1 + 1 + 1 != 0 :> F by rewrite -addrA. ffield. nz. }
case: (eqVneq a b) => Eab.
{ subst b. apply: (Edge a d Ha Hd) => i Hi. rewrite Hy // !big_cons big_nil addr0 addrA. by []. }
case: (eqVneq a d) => Ead.
{ subst d. apply: (Edge a b Ha Hb) => i Hi. rewrite Hy // !big_cons big_nil addr0. congr (_ / _). fring. }
case: (eqVneq b d) => Ebd.
{ subst d. apply: (Edge b a Hb Ha) => i Hi. rewrite Hy // !big_cons big_nil addr0. congr (_ / _). fring. }
have [_ [H2 _]] := C42_simplex_topology_complete Hsc.
have [|||e [Wf [HW [EW _]]]] := H2 [:: a; b; d] _.
- by [].
- by rewrite /= !inE negb_or Eab Ead Ebd.
- apply/allP => v Hv. rewrite Hnv ltnS. apply: Hle. by apply: Hin.
have [HWu HWs HWa] := (C42_simplex_topology_complete Hsc).1 _ _ _ HW.
have P : perm_eq Wf [:: a; b; d]. { apply: uniq_perm; [exact HWu|by rewrite /= !inE negb_or Eab Ead Ebd|by move=> z; rewrite EW]. }
have := HF e Wf HW. have -> // : face_center F c Wf = y; last by apply=> z; rewrite (perm_mem P); exact: Hin.
apply: (@eq_from_nth _ 0) => [|i]; rewrite size_mkseq // => Hi. rewrite nth_mkseq // Hy // /vco. congr (_ / _). exact: perm_big.
Qed.

(** the nodes built by the constructor *)
Definition jnode (l : ModelFam.node K) : dnode F :=
  match l with ModelFam.PointEvaluation x => at_pt (x : seq F) | ModelFam.PointDerivative x a => der_at (x : seq F) a | _ => [::] end.
Definition jet_node (sd : nat) (l : ModelFam.node K) : Prop :=
  match l with ModelFam.PointEvaluation x => True | ModelFam.PointDerivative x a => size a = sd /\ (0 < sumn a)%N | _ => False end.
Lemma centers c : SpecFam.simplex c ->
  map jnode (List.flat_map (fun f => List.map (ModelFam.PointEvaluation K) (ModelFam.first (ModelFam.make_points K c 2 f 3))) (ModelCell.keys (ModelCell.sort_items (ModelFam.top c 2))))
  = [seq at_pt (face_center F c W) | W <- [seq p.2 | p <- ModelFam.top c 2]].
Proof.
have T3 : 1 + 1 + 1 != 0 :> F by have := F0 (m := 3%N) isT; rewrite -[3%:R]/(1 + (1 + 1) : F) addrA.
have T3' : 1 + (1 + 1) != 0 :> F by have := F0 (m := 3%N) isT; rewrite -[3%:R]/(1 + (1 + 1) : F).
case: c => // _.
all: rewrite /face_center /mkseq /= !(big_cons, big_nil) /= -?[3%:R]/(1 + (1 + 1)) /addF /mulF /divF /subF /oneF /zeroF /oppF.
1-3: congr [:: at_pt [:: _; _]].
7-9: congr [:: at_pt [:: _; _; _]; at_pt [:: _; _; _]; at_pt [:: _; _; _]; at_pt [:: _; _; _]].
all: refine (_ : @eq F _ _); ffield; repeat split; nz.
Qed.
Lemma hermite_el c : SpecFam.simplex c -> exists el, [/\ ModelFam.CubicHermite K c 3 = Base.Ok el, map jnode (ModelFam.el_nodes K el) = hermite_nodes F c &
  forall l, List.In l (ModelFam.el_nodes K el) -> jet_node (sdim_of c) l].
Proof.
move=> Hc. have Ec := centers Hc. case: c Hc Ec => // _ Ec; eexists; (split; first reflexivity).
all: try (rewrite /hermite_nodes -Ec; reflexivity).
all: by move=> l /=; repeat (move=> [<-|]; first by []).
Qed.
Lemma map_res_jet sd (L : seq (ModelFam.node K)) : (forall l, List.In l L -> jet_node sd l) ->
  exists fs, [/\ map_res (@node_functional F) L = Ok fs, size fs = size L &
    forall i, (i < size L)%N -> realizes sd (nth (mkFunctional [::] [::] [::]) fs i) (nth [::] (map jnode L) i)].
Proof.
elim: L => [|l L IH] H; first by exists [::]. have [|fs [E1 E2 E3]] := IH; first by move=> l' Hl; apply: H; right.
have Hl := H l (or_introl erefl). have [f [Ef Rf]] : exists f, node_functional l = Ok f /\ realizes sd f (jnode l).
{ case: l Hl {H} => //= [x _|x a [H1 H2]]; eexists; (split; first reflexivity); [exact: realizes_pe|exact: realizes_pd]. }
exists (f :: fs). rewrite /= Ef /= E1. split=> //=; first by rewrite E2. case=> [|i] //=. exact: E3.
Qed.
Lemma dval_at (x : seq F) f fd : dval (at_pt x) f fd = f x. Proof. by rewrite /dval big_seq1 /= mul1r. Qed.
Lemma dval_der (x : seq F) al f fd : al != [::] -> dval (der_at x al) f fd = fd al x. Proof. by move=> H; rewrite /dval big_seq1 /= (negbTE H) mul1r. Qed.
Lemma unit_neq sd i : (0 < sd)%N -> unit sd i != [::]. Proof. by case: sd. Qed.
(** the nodes of vertex [v] and of the face [W] are listed *)
Lemma mem_vertex c v : SpecFam.simplex c -> (v <= sdim_of c)%N -> at_pt (nth [::] (vts c) v) \in hermite_nodes F c /\
  forall i, (i < sdim_of c)%N -> der_at (nth [::] (vts c) v) (unit (sdim_of c) i) \in hermite_nodes F c.
Proof.
move=> Hc Hv. have [V1 _] := verts_dim F Hc. have Hin : nth [::] (vts c) v \in (verts F c : seq (seq F)) by apply: mem_nth; rewrite V1.
split=> [|i Hi]; rewrite /hermite_nodes mem_cat; apply/orP; left; apply/flattenP.
- exists (at_pt (nth [::] (vts c) v) :: [seq der_at (nth [::] (vts c) v) (unit (sdim_of c) i) | i <- iota 0 (sdim_of c)]); last exact: mem_head.
  apply/mapP. by exists (nth [::] (vts c) v).
- exists (at_pt (nth [::] (vts c) v) :: [seq der_at (nth [::] (vts c) v) (unit (sdim_of c) i) | i <- iota 0 (sdim_of c)]).
  + apply/mapP. by exists (nth [::] (vts c) v).
  + rewrite inE. apply/orP; right. apply/mapP. exists i => //. by rewrite mem_iota.
Qed.
Lemma mem_face c e W : ModelCell.lookup (ModelCell.topology c) (ModelCell.DI 2) e = Some W -> at_pt (face_center F c W) \in hermite_nodes F c.
Proof.
move=> H. rewrite /hermite_nodes mem_cat. apply/orP; right. apply/mapP. exists W => //. move: H. rewrite /ModelCell.lookup /ModelFam.top.
case: (ModelCell.dlookup _ _) => // es. elim: es => [|[e' W'] es IH] //=. case: ifP => _; first by move=> [->]; rewrite mem_head. by move/IH; rewrite inE => ->; rewrite orbT.
Qed.
Lemma all_plane c x : SpecFam.simplex c -> size x = sdim_of c -> in_plane (sdim_of c) (vts c) (iota 0 (sdim_of c).+1) x.
Proof.
move=> Hc Sx. split=> //. pose l v : F := if v is i.+1 then (nth 0 x i - org F c) / scl F c else 1 - \sum_(i < sdim_of c) (nth 0 x i - org F c) / scl F c.
have S0 := scl0 F0 c. have Hl : \sum_(v <- iota 0 (sdim_of c).+1) l v = 1.
{ rewrite -[iota _ _]/(index_iota 0 (sdim_of c).+1) big_mkord big_ord_recl /= subrK. by []. }
exists l. split=> // j Hj. have Hm : j.+1 \in iota 0 (sdim_of c).+1 by rewrite mem_iota. rewrite (eq_big_seq (fun v => org F c * l v + scl F c * (l v * (v == j.+1)%:R))).
- rewrite big_split /= -!mulr_sumr Hl mulr1 (bigD1_seq _ Hm (iota_uniq _ _)).
  rewrite eqxx mulr1 big1 /=; last by move=> v /negbTE ->; rewrite mulr0. by rewrite addr0 [scl F c * _]mulrC divfK // addrC subrK.
- move=> v. rewrite mem_iota => Hv. rewrite -[nth 0 (nth _ _ _) _]/(vco F c v j) vcoE //. by rewrite mulrDr [l v * org F c]mulrC mulrCA.
Qed.
Lemma hermite_det c cf : SpecFam.simplex c -> (forall N, N \in hermite_nodes F c -> dval N (pval (sdim_of c) 3 cf) (pder (sdim_of c) 3 cf) = 0) ->
  {in exps (sdim_of c) 3, forall a, cf a = 0}.
Proof.
move=> Hc H. have Hd := proj2 (proj2 (simplex_dim Hc)). apply: (grid_zero (g := fun i => i%:R) Hd); first exact: (natr_inj F0).
move=> idx Hs _. apply: (@hermite_plane c (iota 0 (sdim_of c).+1)) => //.
- exact: iota_uniq.
- by move=> v; rewrite mem_iota.
- move=> v. rewrite mem_iota /= add0n ltnS => Hv. have [M1 M2] := mem_vertex Hc Hv. split=> [|i Hi]; first by have := H _ M1; rewrite dval_at.
  have := H _ (M2 i Hi). rewrite dval_der // unit_neq //. by case/andP: Hd.
- move=> e W HW _. have := H _ (mem_face HW). by rewrite dval_at.
- apply: all_plane => //. by rewrite size_map.
Qed.
(** The cubic Hermite element can be built on every simplex cell; its basis
    functions are dual to the values and gradients at the vertices and the values
    at the face centers, and interpolation reproduces all cubics. *)
Theorem C51_cubic_hermite : forall c, SpecFam.simplex c ->
  exists U, cubic_hermite sqrt c = Ok U /\ jet_nodal sqrt c 3 U (hermite_nodes F c).
Proof.
move=> c Hc. have [el [E1 E2 E3]] := hermite_el Hc. have [fs [F1 F2 F3]] := map_res_jet E3.
have HN := exps_size 3 (proj2 (proj2 (simplex_dim Hc))).
have Sn : size (hermite_nodes F c) = size (exps (sdim_of c) 3).
{ rewrite HN. by case: c Hc {el E1 E2 E3 fs F1 F2 F3 HN}. }
have SL : size (ModelFam.el_nodes K el) = size (hermite_nodes F c) by rewrite -E2 size_map.
rewrite /cubic_hermite E1 /element_of (on_set_ok F0 Hsq 3 Hc) /= F1 /=.
have [||||U [H1 H2]] := jet_element F0 Hsq (c := c) (n := 3) (nodes := fs) (nds := hermite_nodes F c) Hc.
- by rewrite F2 SL.
- by rewrite F2 SL.
- move=> i Hi. rewrite -E2. apply: F3. by rewrite -F2.
- move=> cf H. apply: hermite_det => // N HNin. rewrite -(nth_index [::] HNin). apply: H. by rewrite index_mem.
exists U. split=> //. rewrite -Sn -SL -F2. exact: H1.
Qed.

(** positions of the nodes *)
Lemma pos_vertex c v : SpecFam.simplex c -> (v <= sdim_of c)%N -> (v * (sdim_of c).+1 < size (hermite_nodes F c))%N /\ nth [::] (hermite_nodes F c) (v * (sdim_of c).+1) = at_pt (nth [::] (vts c) v) /\
  forall i, (i < sdim_of c)%N -> (v * (sdim_of c).+1 + i.+1 < size (hermite_nodes F c))%N /\ nth [::] (hermite_nodes F c) (v * (sdim_of c).+1 + i.+1) = der_at (nth [::] (vts c) v) (unit (sdim_of c) i).
Proof.
case: c => //= _; case: v => [|[|[|[|v]]]] //= _; (split; first by []); (split; first reflexivity); case=> [|[|[|i]]] //= _; split=> //; reflexivity.
Qed.
Lemma pos_face c e W : SpecFam.simplex c -> ModelCell.lookup (ModelCell.topology c) (ModelCell.DI 2) e = Some W ->
  ((sdim_of c).+1 * (sdim_of c).+1 + e < size (hermite_nodes F c))%N /\ nth [::] (hermite_nodes F c) ((sdim_of c).+1 * (sdim_of c).+1 + e) = at_pt (face_center F c W).
Proof.
by case: c => //= _; case: e => [|[|[|[|e]]]] // [<-]; split=> //; reflexivity.
Qed.
Lemma pos_dof c el d e W j : SpecFam.simplex c -> ModelFam.CubicHermite K c 3 = Base.Ok el -> ModelCell.lookup (ModelCell.topology c) (ModelCell.DI d) e = Some W ->
  List.In j (SpecCell.dofs_on (ModelFam.el_ids K el) (ModelCell.DI d, e)) ->
  (W = [:: e] /\ (e * (sdim_of c).+1 <= j < e * (sdim_of c).+1 + (sdim_of c).+1)%N /\ (e <= sdim_of c)%N) \/ (d = 2%N /\ j = (sdim_of c).+1 * (sdim_of c).+1 + e)%N.
Proof.
case: c => //= _ [<-] //=; case: d => [|[|[|[|d]]]] //; do 7 (try (case: e => [|e] //)); move=> [<-] //=;
  repeat (move=> [<-|]; first ((by left; split; [|split]) || by right)); by [].
Qed.
(** A basis function registered on an entity that is not part of (the closure of)
    an entity [W] vanishes on the plane of [W]: the traces of neighbouring cells
    agree when the shared nodes do. *)
Theorem C51_hermite_conforming : forall c, SpecFam.simplex c ->
  exists U el, [/\ ModelFam.CubicHermite K c 3 = Base.Ok el, cubic_hermite sqrt c = Ok U &
    forall d e W d' e' W', ModelCell.lookup (ModelCell.topology c) (ModelCell.DI d) e = Some W ->
    ModelCell.lookup (ModelCell.topology c) (ModelCell.DI d') e' = Some W' -> ~ {subset W' <= W} ->
    forall j, List.In j (SpecCell.dofs_on (ModelFam.el_ids K el) (ModelCell.DI d', e')) ->
    forall x, in_plane (sdim_of c) (vts c) W x -> bval sqrt c 3 U j x = 0].
Proof.
move=> c Hc. have [U [HU [_ HP HD _ _]]] := C51_cubic_hermite Hc. have [el [E1 E2 E3]] := hermite_el Hc. exists U, el. split=> //.
move=> d e W d' e' W' HW HW' Hns j Hj x Hx. have [UW NW _ Hle] := entity_ok Hc HW. have Hpos := pos_dof Hc E1 HW' Hj.
have Jp : (j < size (hermite_nodes F c))%N.
{ case: Hpos => [[_ [Hr He]]|[Ed ->]]; last by subst d'; case: (pos_face Hc HW').
  have [P1 [_ P2]] := pos_vertex Hc He. have : (j = e' * (sdim_of c).+1 \/ exists2 i, (i < sdim_of c)%N & j = e' * (sdim_of c).+1 + i.+1)%N.
  - case: (posnP (j - e' * (sdim_of c).+1)) => H; [left; lia|right; exists (j - e' * (sdim_of c).+1).-1; lia].
  - by case=> [->|[i Hi ->]] //; case: (P2 i Hi). }
have [cf [G1 G2]] := HP j Jp. rewrite G1.
have Z i N : (i < size (hermite_nodes F c))%N -> nth [::] (hermite_nodes F c) i = N -> i != j -> dval N (pval (sdim_of c) 3 cf) (pder (sdim_of c) 3 cf) = dval N (bval sqrt c 3 U j) (bder sqrt c 3 U j) -> dval N (pval (sdim_of c) 3 cf) (pder (sdim_of c) 3 cf) = 0.
{ move=> Hi EN Hne ->. rewrite -EN HD //. by rewrite (negbTE Hne). }
apply: (hermite_plane Hc UW NW Hle _ _ Hx).
- move=> v Hv. have [P1 [Q1 P2]] := pos_vertex Hc (Hle v Hv).
  have Ne k : (k < (sdim_of c).+1)%N -> (v * (sdim_of c).+1 + k)%N != j.
  { move=> Hk. apply/eqP => Ek. case: Hpos => [[EW' [Hr He]]|[_ Ej]].
    - have Ev : v = e'. { have := congr1 (fun z => z %/ (sdim_of c).+1)%N Ek. rewrite divnMDl // divn_small // addn0 => ->. apply/eqP. rewrite eqn_leq leq_divRL // -ltnS ltn_divLR //. case/andP: Hr => -> H. by rewrite mulSn addnC H. }
      apply: Hns. rewrite EW' => z. by rewrite inE => /eqP ->; rewrite -Ev.
    - have := Hle v Hv. move: Ek. rewrite Ej. move: (sdim_of c) Hk => n Hk Ek Hvn. have : (v * n.+1 <= n * n.+1)%N by rewrite leq_mul2r Hvn orbT. have : (n.+1 * n.+1 = n.+1 + n * n.+1)%N by rewrite mulSn. move: Ek Hk. clear. lia. }
  split.
  + have := Z _ _ P1 Q1. rewrite !dval_at. apply; last exact: esym (G1 _). by have := Ne 0%N isT; rewrite addn0.
  + move=> i Hi. have [P3 Q3] := P2 i Hi. have Hu : unit (sdim_of c) i != [::] by apply: unit_neq; exact: (leq_ltn_trans (leq0n i) Hi).
    have := Z _ _ P3 Q3. rewrite !dval_der //. apply; first exact: Ne. rewrite G2 //. by rewrite size_map size_iota.
- move=> f Wf HWf Hsub. have [P1 Q1] := pos_face Hc HWf. have := Z _ _ P1 Q1. rewrite !dval_at. apply; last exact: esym (G1 _).
  apply/eqP => Ef. case: Hpos => [[_ [/andP [_ Hr] He]]|[Ed Ej]].
  + move: Hr. rewrite -Ef. move: (sdim_of c) He => n He. have : (e' * n.+1 <= n * n.+1)%N by rewrite leq_mul2r He orbT. have : (n.+1 * n.+1 = n.+1 + n * n.+1)%N by rewrite mulSn. clear. lia.
  + move: Ef. rewrite Ej => /addnI Ef. subst d' f. apply: Hns. move: HWf. rewrite HW' => -[->]. exact: Hsub.
Qed.
End C51.

Import Num.Theory.
(** the hypotheses are met: on the triangle, the function dual to the x-derivative
    at vertex 0 is 1 there and vanishes on the edge of vertices 1 and 2 *)
Example C51_example : exists sqrt U, [/\ @sqrt_exact Algebraics.Implementation.fieldType sqrt, cubic_hermite sqrt ModelCell.UFCTriangle = Ok U,
  bder sqrt ModelCell.UFCTriangle 3 U 1 [:: 1%N; 0%N] [:: 0; 0] = 1 & bval sqrt ModelCell.UFCTriangle 3 U 1 [:: 2%:R^-1; 2%:R^-1] = 0].
Proof.
have [C0 Hsq] := C23_sqrt_witness_algC. have [U [el [E1 E2 H]]] := @C51_hermite_conforming _ C0 _ Hsq ModelCell.UFCTriangle I.
have [U' [E3 [_ _ HD _ _]]] := @C51_cubic_hermite _ C0 _ Hsq ModelCell.UFCTriangle I. move: E3. rewrite E2 => -[EU]. rewrite -EU in HD.
exists sqrtC, U. split=> //.
- have := HD 1%N 1%N isT isT. by rewrite dval_der.
- apply: (H 1%N 0%N [:: 1%N; 2%N] 0%N 0%N [:: 0%N]) => //.
  + by move/(_ 0%N (mem_head _ _)).
  + move: E1. rewrite /ModelFam.CubicHermite /=. by move=> [<-] /=; right; left.
  + split=> //. exists (fun=> 2%:R^-1). have h2 : 2%:R^-1 + 2%:R^-1 = 1 :> Algebraics.Implementation.fieldType.
    { have := divff (C0 2%N isT). rewrite -[X in X / _]/(1 + 1) mulrDl mul1r. by []. }
    split; first by rewrite !big_cons big_nil addr0.
    by case=> [|[|j]] //= _; rewrite !big_cons big_nil /= ?mulr0 ?mulr1 ?addr0 ?add0r.
Qed.
