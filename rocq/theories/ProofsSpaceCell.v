(** The expansion set of each simplex class, as polynomials with explicit
    coefficients. *)
Set Warnings "-notation-overridden,-ambiguous-paths".
From mathcomp Require Import all_ssreflect all_algebra zify.
From Verif Require Base ModelIndex SpecIndex ProofsIndex ModelCell SpecFam ModelFam ProofsFam.
From Verif Require Import FieldTac RingTac ModelJacobi SpecJacobi ProofsJacobi ProofsOrtho ModelExpansion SpecExpansion ProofsExpIdx ProofsExpProg ProofsExpOrtho ProofsExpDeg ModelDmats ProofsDmats ProofsDmatsCell ProofsDmatsDer ProofsUnisolv PropsJacobi PropsExpansion ProofsDmatsReg ProofsDmatsLine PropsDmats.
From Verif Require Import ModelAffine SpecAffine PropsAffine ModelDual SpecDual SpecPoly ModelSpace ProofsLagLat ProofsSpace ProofsSpaceDer.
Set Implicit Arguments. Unset Strict Implicit. Unset Printing Implicit Defensive.
Import GRing.Theory.
Local Open Scope ring_scope.

Section Cell.
Variable F : fieldType.
Hypothesis F0 : char_zero F.
Add Field FFsc : (mc_field_theory F).
Variable sqrt : F -> F.
Hypothesis Hsq : sqrt_exact sqrt.
Notation K := (mcF F).

(** vertex [v] of a simplex class is org + scl * e_v *)
Definition org (c : cell) : F := match c with
  | ModelCell.DefaultLine | ModelCell.DefaultTriangle | ModelCell.DefaultTetrahedron => -1 | _ => 0 end.
Definition scl (c : cell) : F := match c with
  | ModelCell.DefaultLine | ModelCell.DefaultTriangle | ModelCell.DefaultTetrahedron => 1 + 1 | _ => 1 end.
Lemma scl0 c : scl c != 0.
Proof. have T := two_neq0 F0. rewrite mulrS mulr1n in T. case: c => * //=; exact: oner_neq0. Qed.
Lemma vcoE c v i : SpecFam.simplex c -> (v <= sdim_of c)%N -> (i < sdim_of c)%N ->
  vco F c v i = org c + scl c * (v == i.+1)%:R.
Proof.
case: c => //= _; case: v => [|[|[|[|v]]]] // _; case: i => [|[|[|i]]] // _;
 rewrite /vco /= ?(mulr0, mulr1, addr0, add0r, addNKr) //; by rewrite addrA addNr add0r.
Qed.
Lemma verts_dim c : SpecFam.simplex c -> size (verts F c) = (sdim_of c).+1 /\ in_dim (sdim_of c) (verts F c).
Proof.
move=> Hc. split; first by case: c Hc.
case: c Hc => //= _ x; rewrite /verts /= !inE; (try move=> /or4P); (try move=> /or3P); (try move=> /orP); by case=> /eqP ->.
Qed.
Lemma verts_simplex c : SpecFam.simplex c -> simplex_in (sdim_of c) (verts F c).
Proof.
move=> Hc. have [Hs Hd] := verts_dim Hc. split=> // a e H.
have Hv v : (v <= sdim_of c)%N -> \sum_(k < sdim_of c) a k * (org c + scl c * (v == k.+1)%:R) + e = 0.
{ move=> Hv. have Hv' : (v < size (verts F c))%N by rewrite Hs.
  rewrite -[RHS](H _ (mem_nth [::] Hv')). congr (_ + _). apply: eq_bigr => k _. by rewrite -vcoE. }
have H0 : \sum_(k < sdim_of c) a k * org c + e = 0.
{ rewrite -[RHS](Hv 0%N isT). congr (_ + _). apply: eq_bigr => k _. by rewrite mulr0 addr0. }
have Ha k : (k < sdim_of c)%N -> a k = 0.
{ move=> Hk. have := Hv k.+1 Hk. under eq_bigr do rewrite mulrDr. rewrite big_split /=.
  have -> : \sum_(i < sdim_of c) a i * (scl c * (k.+1 == i.+1)%:R) = a k * scl c.
  { rewrite (bigD1 (Ordinal Hk)) //= eqxx mulr1 big1 ?addr0 // => k' Hk'. rewrite eqSS.
    have -> : (k == k' :> nat) = false by apply/eqP => E; case/eqP: Hk'; exact/val_inj. by rewrite mulr0 mulr0. }
  rewrite addrAC H0 add0r => /eqP. by rewrite mulf_eq0 (negbTE (scl0 c)) orbF => /eqP. }
split=> //. move: H0. rewrite big1 ?add0r // => k _. by rewrite Ha // mul0r.
Qed.
Lemma base_dim c c0 : SpecFam.simplex c -> base_cell c = Ok c0 -> [/\ SpecFam.simplex c0, sdim_of c0 = sdim_of c, org c0 = -1 & scl c0 = 1 + 1].
Proof. by case: c => //= _ [<-]. Qed.
(** the affine map of the expansion set sends the vertices to those of the
    default simplex *)
Lemma exp_map_ok c : SpecFam.simplex c -> exists M b, exp_map F c = Ok (M, b) /\
  forall v j, (v <= sdim_of c)%N -> (j < sdim_of c)%N -> \sum_(k < sdim_of c) M j k * vco F c v k + b j = -1 + (1 + 1) * (v == j.+1)%:R.
Proof.
move=> Hc. have [c0 Hb] : exists c0, base_cell c = Ok c0 by case: c Hc => //= _; eexists.
have [Hc0 Hd0 Ho Hsc] := base_dim Hc Hb.
have [Hs0 Hi0] := verts_dim Hc0. have [Hs Hi] := verts_dim Hc. have [_ [_ Hd1]] := simplex_dim Hc.
have Hd : (0 < sdim_of c)%N by lia.
have [||A [b [E [HA1 [HA2 Hb2]] Hv _]]] := @C19_vertices_to_vertices F (sdim_of c) (sdim_of c) (verts F c) (verts F c0) Hd (verts_simplex Hc).
- by rewrite Hs0 Hs Hd0.
- move=> x Hx. by rewrite (Hi0 _ Hx) Hd0.
rewrite /exp_map Hb /= E. eexists; eexists; split; first by [].
move=> v j Hv1 Hj /=. have := Hv v. rewrite Hs ltnS => /(_ Hv1) Ev.
have Sx : size (nth [::] (verts F c) v) = sdim_of c. { apply: Hi. apply: mem_nth. by rewrite Hs. }
have := congr1 (fun z => nth 0 z j) Ev. rewrite /affine nth_mkseq ?Hb2 // Sx => Ej.
rewrite -[RHS]/(-1 + (1 + 1) * _) -Ho -Hsc -vcoE ?Hd0 //.
Qed.

(** matrix argument for independence *)
Lemma unit_indep N (V : 'M[F]_N) (a : nat -> F) : V \in unitmx -> (forall j : 'I_N, \sum_(k < N) a k * V j k = 0) -> forall k, (k < N)%N -> a k = 0.
Proof.
move=> HV H k Hk. have Hz : V *m (\col_i a (val i)) = 0.
{ apply/colP => j. rewrite mxE [RHS]mxE -[RHS](H j). apply: eq_bigr => i _. by rewrite mxE mulrC. }
have : \col_i a (val i) = 0 :> 'cV[F]_N by rewrite -[LHS](mulKmx HV) Hz mulmx0. by move/colP/(_ (Ordinal Hk)); rewrite !mxE.
Qed.
Lemma on_dmats_unit N sd n (tab : seq (seq F)) dts dm : (0 < n)%N -> on_dmats N sd n tab dts = Ok dm -> size tab = N /\ mx_of N N tab \in unitmx.
Proof. move=> Hn. rewrite /on_dmats eqn0Ngt Hn /=. by case: eqP => //= H; case: ifP. Qed.

Lemma assoc_in (l : seq (seq nat * seq F)) (f : seq nat -> seq F) al :
  (forall aA, aA \in l -> aA.2 = f aA.1) -> al \in [seq aA.1 | aA <- l] -> assoc al l = f al.
Proof.
elim: l => [|[b v] l IH] //= H. rewrite inE. case: eqP => [->|Hb] /=; first by move=> _; exact: (H (b, v) (mem_head _ _)).
move=> Hal. apply: IH => // aA HaA. apply: H. by rewrite inE HaA orbT.
Qed.
Lemma keys_mem sd order al : (0 < sd)%N -> (al \in keys sd order) = (size al == sd) && (sumn al <= order)%N.
Proof.
move=> Hs. have := C12_jet_keys order Hs al. set k := keys sd order => H.
have EI : List.In al k <-> al \in k.
{ elim: (k) => [|x l IH] //=. rewrite inE. split=> [[->|/IH ->]|/orP [/eqP ->|/IH]]; rewrite ?eqxx ?orbT //; by [left|right]. }
apply/idP/andP => [/EI /H [/eqP ? ?]|[/eqP ? ?]] //. apply/EI/H. by [].
Qed.
Lemma columns_ok N (sd order : nat) (jets : seq (seq nat * 'M[F]_(N, 1))) (g : nat -> seq nat -> F) : (0 < sd)%N ->
  [seq aA.1 | aA <- jets] = keys sd order ->
  (forall a A, List.In (a, A) jets -> forall k : 'I_N, A k 0 = g k a) ->
  exists js, columns (Ok jets) = Ok js /\ forall al, size al = sd -> (sumn al <= order)%N ->
    assoc al js = [seq g k al | k <- iota 0 N].
Proof.
move=> Hs Hk HA. exists [seq (aA.1, column aA.2) | aA <- jets]. split=> // al H1 H2.
apply: (@assoc_in _ (fun al => [seq g k al | k <- iota 0 N])).
- move=> [a' v] /mapP [[a A] HaA [-> ->]] /=.
  have HI : List.In (a, A) jets. { elim: (jets) HaA => [|y l IH] //=. rewrite inE => /orP [/eqP ->|/IH]; by [left|right]. }
  rewrite /column -val_enum_ord -[RHS]map_comp. apply: eq_map => k /=. exact: HA.
- rewrite -map_comp /comp /= Hk keys_mem // H1 eqxx. exact: H2.
Qed.

Lemma bindE (A B : Type) (x : A) (f : A -> result B) : bind (Ok x) f = f x. Proof. by []. Qed.
(** what the expansion set of degree [n] on [c] is *)
Definition exp_spec (c : cell) (n N : nat) (cf : nat -> seq nat -> F) : Prop :=
  [/\ forall x, exp_table sqrt c n x = Ok [seq pval (sdim_of c) n (cf k) x | k <- iota 0 N],
      forall x order, exists js, exp_jets sqrt c n x order = Ok js /\
        forall al, size al = sdim_of c -> (sumn al <= order)%N -> assoc al js = [seq pder (sdim_of c) n (cf k) al x | k <- iota 0 N] &
      forall a : nat -> F, (forall x, size x = sdim_of c -> \sum_(k < N) a k * pval (sdim_of c) n (cf k) x = 0) -> forall k, (k < N)%N -> a k = 0].

Lemma verts2 c : SpecFam.simplex c -> sdim_of c = 2%N -> exists v0 v1 v2, [/\ verts F c = [:: v0; v1; v2], size v0 = 2%N, size v1 = 2%N & size v2 = 2%N].
Proof. case: c => // _ _; by do 3 eexists; split. Qed.
Lemma verts3 c : SpecFam.simplex c -> sdim_of c = 3%N -> exists v0 v1 v2 v3, [/\ verts F c = [:: v0; v1; v2; v3], size v0 = 3%N, size v1 = 3%N, size v2 = 3%N & size v3 = 3%N].
Proof. case: c => // _ _; by do 4 eexists; split. Qed.
Lemma one_deg3 : deg3_le 0 (1 : {poly {poly {poly F}}}).
Proof. move=> i j k. by case: i => [|i]; case: j => [|j]; case: k => [|k] // H; rewrite ?(coef1, coef0, coefC). Qed.
Lemma tri_spec c n : SpecFam.simplex c -> sdim_of c = 2%N -> exists cf, exp_spec c n (tri_num n) cf.
Proof.
move=> Hc Hd. have [M [b [E Hv]]] := exp_map_ok Hc. rewrite Hd in Hv.
have Hv' v j : (v <= 2)%N -> (j < 2)%N -> M j 0%N * vco F c v 0 + M j 1%N * vco F c v 1 + b j = -1 + (1 + 1) * (v == j.+1)%:R.
{ move=> H1 H2. by rewrite -Hv // !big_ord_recl big_ord0 /= addr0. }
have [v0 [v1 [v2 [EV S0 S1 S2]]]] := verts2 Hc Hd.
have V0 i : vco F c 0 i = nth 0 v0 i by rewrite /vco -/(verts F c) EV.
have V1 i : vco F c 1 i = nth 0 v1 i by rewrite /vco -/(verts F c) EV.
have V2 i : vco F c 2 i = nth 0 v2 i by rewrite /vco -/(verts F c) EV.
have A0 : (M 0%N 0%N * nth 0 v0 0 + M 0%N 1%N * nth 0 v0 1 + b 0%N, M 1%N 0%N * nth 0 v0 0 + M 1%N 1%N * nth 0 v0 1 + b 1%N) = (-1, -1).
{ by congr (_, _); rewrite -!V0 (Hv' 0%N) // mulr0 addr0. }
have A1 : (M 0%N 0%N * nth 0 v1 0 + M 0%N 1%N * nth 0 v1 1 + b 0%N, M 1%N 0%N * nth 0 v1 0 + M 1%N 1%N * nth 0 v1 1 + b 1%N) = (1, -1).
{ by congr (_, _); rewrite -!V1 (Hv' 1%N) //= ?mulr0 ?addr0 // mulr1 addrA addNr add0r. }
have A2 : (M 0%N 0%N * nth 0 v2 0 + M 0%N 1%N * nth 0 v2 1 + b 0%N, M 1%N 0%N * nth 0 v2 0 + M 1%N 1%N * nth 0 v2 1 + b 1%N) = (-1, 1).
{ by congr (_, _); rewrite -!V2 (Hv' 2%N) //= ?mulr0 ?addr0 // mulr1 addrA addNr add0r. }
have [dm Hdm] := tri_regular F0 Hsq S0 S1 S2 A0 A1 A2 n.
have EL : ModelFam.make_points K c 2 0 (n + 2 + 1) = ModelIndex.make_lattice (K := K) [:: v0; v1; v2] (n + 2 + 1) 1.
{ rewrite /ModelFam.make_points Hd. rewrite -EV. by []. }
exists (fun k => cf2 (tri_phi sqrt M b n k)).
have Dg k : (k < tri_num n)%N -> deg2_le n (tri_phi sqrt M b n k) by move=> H; exact: tri_phi_deg.
split.
- move=> x. rewrite /exp_table E /= Hd tri_table_ok //=. congr Ok. apply/eq_in_map => k. rewrite mem_iota => /andP [_ Hk].
  by rewrite pval2 ?ev2mE //; exact: Dg.
- move=> x order. rewrite /exp_jets E /= Hd EL -/(tri_lattice v0 v1 v2 n) Hdm bindE.
  have [jets [-> [J2 J3]]] := tri_jets_ok F0 Hdm 1%:M [:: (nth 0 x 0, nth 0 x 1)] order.
  have [||js [-> Hjs]] := @columns_ok _ 2 order jets (fun k al => pder 2 n (cf2 (tri_phi sqrt M b n k)) al x) isT.
  + exact: J2.
  + move=> al A HA k. have Hal : al \in keys 2 order.
    { rewrite /keys -J2. apply/mapP. exists (al, A) => //. elim: (jets) HA => [|y l IH] //= [->|/IH H]; rewrite inE ?eqxx ?H ?orbT //. }
    rewrite keys_mem // in Hal. case: al Hal HA => [|a1 [|a2 []]] //= Hal HA.
    rewrite (J3 _ _ HA k 0) pder2; last exact: Dg. congr (ev2m _ _ _). congr (dalpha _ _ _).
    rewrite /tri_poly (bigD1 k) //= mxE eqxx rmorph1 mul1r big1 ?addr0 // => k' Hk'. by rewrite mxE eq_sym (negbTE Hk') rmorph0 mul0r.
  exists js. by split.
- rewrite Hd => a Ha. case: (posnP n) => [En|Hn].
  { move: Ha. rewrite En. have N1 : tri_num 0 = 1%N by []. move=> Ha. rewrite N1 in Ha * => k. rewrite ltnS leqn0 => /eqP ->.
    have := Ha [:: 0; 0] erefl. rewrite big_ord1 /= pval2; last by move=> i j Hij; rewrite /tri_phi /= coef1; case: i Hij => [|i] Hij; rewrite ?coef1 ?coef0; [case: j Hij|].
    by rewrite /tri_phi /= /ev2 hornerC hornerC mulr1. }
  have := Hdm. rewrite /tri_dmats tri_table_ok // tri_dtildes_ok //= => H. have [HS HU] := on_dmats_unit Hn H.
  apply: (unit_indep HU) => j. 
  have Hj : (j < size (tri_lattice v0 v1 v2 n))%N by rewrite tri_lattice_size.
  set p := nth (0, 0) (tri_lattice v0 v1 v2 n) j.
  have := Ha [:: p.1; p.2] erefl => Hz. rewrite -[RHS]Hz. apply: eq_bigr => k _. congr (_ * _).
  rewrite mxE (nth_map (0, 0)) // nth_map_iota // -/p pval2 ?ev2mE //. exact: Dg.
Qed.
Lemma tet_spec c n : SpecFam.simplex c -> sdim_of c = 3%N -> exists cf, exp_spec c n (tet_num n) cf.
Proof.
move=> Hc Hd. have [M [b [E Hv]]] := exp_map_ok Hc. rewrite Hd in Hv.
have Hv' v j : (v <= 3)%N -> (j < 3)%N -> M j 0%N * vco F c v 0 + M j 1%N * vco F c v 1 + M j 2%N * vco F c v 2 + b j = -1 + (1 + 1) * (v == j.+1)%:R.
{ move=> H1 H2. by rewrite -Hv // !big_ord_recl big_ord0 /= addr0 !addrA. }
have [v0 [v1 [v2 [v3 [EV S0 S1 S2 S3]]]]] := verts3 Hc Hd.
have V0 i : vco F c 0 i = nth 0 v0 i by rewrite /vco -/(verts F c) EV.
have V1 i : vco F c 1 i = nth 0 v1 i by rewrite /vco -/(verts F c) EV.
have V2 i : vco F c 2 i = nth 0 v2 i by rewrite /vco -/(verts F c) EV.
have V3 i : vco F c 3 i = nth 0 v3 i by rewrite /vco -/(verts F c) EV.
pose co i (p : seq F) := M i 0%N * nth 0 p 0 + M i 1%N * nth 0 p 1 + M i 2%N * nth 0 p 2 + b i.
have A0 : (co 0%N v0, co 1%N v0, co 2%N v0) = (-1, -1, -1). { by congr (_, _, _); rewrite /co -!V0 (Hv' 0%N) // mulr0 addr0. }
have A1 : (co 0%N v1, co 1%N v1, co 2%N v1) = (1, -1, -1). { by congr (_, _, _); rewrite /co -!V1 (Hv' 1%N) //= ?mulr0 ?addr0 // mulr1 addrA addNr add0r. }
have A2 : (co 0%N v2, co 1%N v2, co 2%N v2) = (-1, 1, -1). { by congr (_, _, _); rewrite /co -!V2 (Hv' 2%N) //= ?mulr0 ?addr0 // mulr1 addrA addNr add0r. }
have A3 : (co 0%N v3, co 1%N v3, co 2%N v3) = (-1, -1, 1). { by congr (_, _, _); rewrite /co -!V3 (Hv' 3%N) //= ?mulr0 ?addr0 // mulr1 addrA addNr add0r. }
have [dm Hdm] := tet_regular F0 Hsq S0 S1 S2 S3 A0 A1 A2 A3 n.
have EL : ModelFam.make_points K c 3 0 (n + 3 + 1) = ModelIndex.make_lattice (K := K) [:: v0; v1; v2; v3] (n + 3 + 1) 1.
{ rewrite /ModelFam.make_points Hd. rewrite -EV. by []. }
exists (fun k => cf3 (tet_phi sqrt M b n k)).
have Dg k : (k < tet_num n)%N -> deg3_le n (tet_phi sqrt M b n k) by move=> H; exact: tet_phi_deg.
split.
- move=> x. rewrite /exp_table E /= Hd tet_table_ok //=. congr Ok. apply/eq_in_map => k. rewrite mem_iota => /andP [_ Hk].
  by rewrite pval3 ?ev3mE //; exact: Dg.
- move=> x order. rewrite /exp_jets E /= Hd EL -/(tet_lattice v0 v1 v2 v3 n) Hdm bindE.
  have [jets [-> [J2 J3]]] := tet_jets_ok F0 Hdm 1%:M [:: (nth 0 x 0, nth 0 x 1, nth 0 x 2)] order.
  have [||js [-> Hjs]] := @columns_ok _ 3 order jets (fun k al => pder 3 n (cf3 (tet_phi sqrt M b n k)) al x) isT.
  + exact: J2.
  + move=> al A HA k. have Hal : al \in keys 3 order.
    { rewrite /keys -J2. apply/mapP. exists (al, A) => //. elim: (jets) HA => [|y l IH] //= [->|/IH H]; rewrite inE ?eqxx ?H ?orbT //. }
    rewrite keys_mem // in Hal. case: al Hal HA => [|a1 [|a2 [|a3 []]]] //= Hal HA.
    rewrite (J3 _ _ HA k 0) pder3; last exact: Dg. congr (ev3m _ _ _ _). congr (dalpha _ _ _).
    rewrite /tet_poly (bigD1 k) //= mxE eqxx rmorph1 mul1r big1 ?addr0 // => k' Hk'. by rewrite mxE eq_sym (negbTE Hk') rmorph0 mul0r.
  exists js. by split.
- rewrite Hd => a Ha. case: (posnP n) => [En|Hn].
  { move: Ha. rewrite En. have N1 : tet_num 0 = 1%N by []. move=> Ha. rewrite N1 in Ha * => k. rewrite ltnS leqn0 => /eqP ->.
    have := Ha [:: 0; 0; 0] erefl. rewrite big_ord1 /= pval3; last by rewrite -[tet_phi _ _ _ _ _]/1; exact: one_deg3.
    by rewrite /tet_phi /= /ev3 hornerC hornerC hornerC mulr1. }
  have := Hdm. rewrite /tet_dmats tet_table_ok // tet_dtildes_ok //= => H. have [HS HU] := on_dmats_unit Hn H.
  apply: (unit_indep HU) => j. 
  have Hj : (j < size (tet_lattice v0 v1 v2 v3 n))%N by rewrite tet_lattice_size.
  set p := nth (0, 0, 0) (tet_lattice v0 v1 v2 v3 n) j.
  have := Ha [:: p.1.1; p.1.2; p.2] erefl => Hz. rewrite -[RHS]Hz. apply: eq_bigr => k _. congr (_ * _).
  rewrite mxE (nth_map (0, 0, 0)) // nth_map_iota // -/p pval3 ?ev3mE //. exact: Dg.
Qed.
Lemma verts1 c : SpecFam.simplex c -> sdim_of c = 1%N -> exists v0 v1, verts F c = [:: [:: v0]; [:: v1]].
Proof. case: c => // _ _; by do 2 eexists. Qed.
Lemma lphi0 M b : lphi sqrt M b 0 = (sqrt 2%:R^-1)%:P.
Proof. by rewrite /lphi jacobi_poly0 comp_polyC add0r /= alg_polyC. Qed.
Lemma sqrt_half : sqrt 2%:R^-1 != 0.
Proof. apply/eqP => E. have := line_norm_sq F0 Hsq 0. rewrite add0r E mul0r => /esym/eqP. by rewrite invr_eq0 (negbTE (two_neq0 F0)). Qed.
Lemma line_spec c n : SpecFam.simplex c -> sdim_of c = 1%N -> exists cf, exp_spec c n (n + 1) cf.
Proof.
move=> Hc Hd. have [M [b [E Hv]]] := exp_map_ok Hc. rewrite Hd in Hv.
have [v0 [v1 EV]] := verts1 Hc Hd.
pose m := M 0%N 0%N; pose b0 := b 0%N.
have A0 : m * v0 + b0 = -1. { have := Hv 0%N 0%N isT isT. rewrite big_ord1 mulr0 addr0 => <-. by rewrite /vco -/(verts F c) EV. }
have A1 : m * v1 + b0 = 1. { have := Hv 1%N 0%N isT isT. rewrite big_ord1 mulr1 addrA addNr add0r => <-. by rewrite /vco -/(verts F c) EV. }
have Evol : line_vol F c = v1 - v0 by rewrite /line_vol EV.
have EM : 1 * m = 2%:R / line_vol F c.
{ have H2 : m * (v1 - v0) = 2%:R. { have -> : m * (v1 - v0) = (m * v1 + b0) - (m * v0 + b0) by fring. rewrite A0 A1 mulrS mulr1n. by rewrite opprK. }
  have Hz : v1 - v0 != 0. { apply/eqP => E0. move: H2. rewrite E0 mulr0 => /esym/eqP. by rewrite (negbTE (two_neq0 F0)). }
  by rewrite Evol mul1r -H2 mulfK. }
have [dm Hdm] := line_regular F0 Hsq n A0 A1 (line_vol F c).
have EL : ModelFam.make_points K c 1 0 (n + 1 + 1) = ModelIndex.make_lattice (K := K) [:: [:: v0]; [:: v1]] (n + 1 + 1) 1.
{ rewrite /ModelFam.make_points Hd. rewrite -EV. by []. }
exists (fun k => cf1 (lphi sqrt m b0 k)).
have Dg k : (k < n + 1)%N -> (size (lphi sqrt m b0 k) <= n.+1)%N by move=> H; apply: (leq_trans (lphi_size F0 sqrt m b0 k)); lia.
split.
- move=> x. rewrite /exp_table E bindE Hd [(M, b).1]/= [(M, b).2]/= -/m -/b0 line_table_ok //. congr Ok. rewrite /tabT [nth _ _ _]/=. apply/eq_in_map => k. rewrite mem_iota => /andP [_ Hk].
  by rewrite pval1 //; exact: Dg.
- move=> x order. rewrite /exp_jets E /= Hd EL -/(line_lattice n v0 v1) Hdm bindE.
  have [jets [-> [J2 J3]]] := line_jets_ok F0 Hsq EM Hdm 1%:M [:: nth 0 x 0] order.
  have [||js [-> Hjs]] := @columns_ok _ 1 order jets (fun k al => pder 1 n (cf1 (lphi sqrt m b0 k)) al x) isT.
  + exact: J2.
  + move=> al A HA k. have Hal : al \in keys 1 order.
    { rewrite /keys -J2. apply/mapP. exists (al, A) => //. elim: (jets) HA => [|y l IH] //= [->|/IH H]; rewrite inE ?eqxx ?H ?orbT //. }
    rewrite keys_mem // in Hal. case: al Hal HA => [|a1 []] //= Hal HA.
    rewrite (J3 _ _ HA k 0) pder1; last exact: Dg. rewrite dalpha1 expr1n scale1r /=. rewrite /horner_eval. congr (_^`(_).[_]).
    rewrite /line_poly (bigD1 k) //= mxE eqxx mul1r big1 ?addr0 // => k' Hk'. by rewrite mxE eq_sym (negbTE Hk') mul0r.
  exists js. by split.
- rewrite Hd => a Ha. case: (posnP n) => [En|Hn].
  { move: Ha. rewrite En => Ha k. rewrite addn1 ltnS leqn0 => /eqP ->.
    have := Ha [:: 0] erefl. rewrite big_ord1 /= pval1; last exact: lphi_size.
    rewrite lphi0 hornerC => /eqP. by rewrite mulf_eq0 (negbTE sqrt_half) orbF => /eqP. }
  have := Hdm. rewrite /line_dmats => H. have [HS HU] := on_dmats_unit Hn H.
  apply: (unit_indep HU) => j. 
  have Hj : (j < size (line_lattice n v0 v1))%N by rewrite line_lattice_size.
  set p := nth 0 (line_lattice n v0 v1) j.
  have := Ha [:: p] erefl => Hz. rewrite -[RHS]Hz. apply: eq_bigr => k _. congr (_ * _).
  rewrite line_table_ok // (@tabT_mx _ _ _ _ _ 0) //. cbv beta. rewrite (pval1 _ (Dg _ _)) //. by rewrite line_lattice_size.
Qed.

Lemma natdivE q d : (0 < d)%N -> PeanoNat.Nat.div q d = (q %/ d)%N.
Proof.
move=> Hd. symmetry. apply: (@PeanoNat.Nat.div_unique q d _ (q %% d)%N).
- have := ltn_pmod q Hd. lia.
- rewrite {1}(divn_eq q d). lia.
Qed.
(** all simplex classes; [N] is the dimension of P_n *)
Lemma exp_ok c n : SpecFam.simplex c -> exists N cf, [/\ ModelFam.polynomial_dimension c n = Base.Ok N, N = size (exps (sdim_of c) n) & exp_spec c n N cf].
Proof.
move=> Hc. have [_ [_ Hd]] := simplex_dim Hc. have [[E|E]|E] : (sdim_of c = 1%N \/ sdim_of c = 2%N) \/ sdim_of c = 3%N by lia.
- have [cf H] := line_spec n Hc E. exists (n + 1)%N, cf. split=> //; last by rewrite E exps_size // ProofsIndex.binom_1; lia.
  by case: c Hc E {H Hd} => // _ _.
- have [cf H] := tri_spec n Hc E. exists (tri_num n)%N, cf. split=> //; last by rewrite E exps_size // addn2 binom2.
  have -> : ModelFam.polynomial_dimension c n = Base.Ok (PeanoNat.Nat.div ((n + 1) * (n + 2)) 2) by case: c Hc E {H Hd} => // _ _.
  congr Base.Ok. rewrite /tri_num. exact: natdivE.
- have [cf H] := tet_spec n Hc E. exists (tet_num n)%N, cf. split=> //; last by rewrite E exps_size // addn3 binom3.
  have -> : ModelFam.polynomial_dimension c n = Base.Ok (PeanoNat.Nat.div ((n + 1) * (n + 2) * (n + 3)) 6) by case: c Hc E {H Hd} => // _ _.
  congr Base.Ok. rewrite /tet_num. exact: natdivE.
Qed.
End Cell.
