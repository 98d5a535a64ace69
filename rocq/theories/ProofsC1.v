(** Lemmas for the Morley and Argyris elements. *)
Set Warnings "-notation-overridden,-ambiguous-paths".
From mathcomp Require Import all_ssreflect all_algebra zify.
From Verif Require Base ModelIndex ModelCell SpecCell SpecFam ModelFam PropsFam ModelFunctional ProofsC1Nodes.
From Verif Require Import FieldTac SpecJacobi ProofsJacobi ProofsDmatsReg PropsSimplexTopo PropsExpansion ModelDual SpecDual SpecPoly ModelSpace SpecRT SpecJet.
From Verif Require Import ModelExpansion ModelDmats ModelAffine ProofsLagLat ProofsSpace ProofsSpaceCell ProofsPolyClo ProofsElem PropsConform ProofsRestr ProofsJet
  ModelNormal SpecNormal PropsNormalCells ProofsGaussReal ProofsRTNodes ModelC1 SpecC1 ProofsC1Uni ProofsC1Edge.
Set Implicit Arguments. Unset Strict Implicit. Unset Printing Implicit Defensive.
Import Order.TTheory GRing.Theory Num.Theory.
Local Open Scope ring_scope.

Section C1.
Variable R : rcfType.
Notation K := (mcF R).
Notation arr := (seq (seq R)).
Notation fnl := (functional R [eqType of seq R]).
Notation nil_f := (@mkFunctional R [eqType of seq R] [::] [::] [::]).
Notation V c v := (nth [::] (ModelCell.vertices K c : seq (seq R)) v).
Notation vts c := (ModelCell.vertices K c : seq (seq R)).
Let R0 : char_zero R := num_char0 R.
Add Field FFc1p : (mc_field_theory R).
Variables (svd : arr -> arr * seq R * arr) (qr : arr -> arr * arr) (pop : seq nat -> nat).
Hypotheses (Hsvd : svd_correct svd) (Hqr : qr_correct qr) (Hpop : pop_correct pop).

Lemma tri_ok c : ModelFam.is_triangle c = true -> [/\ solid c, SpecFam.simplex c, sdim_of c = 2%N & c <> ModelCell.UFCTetrahedron].
Proof. case: c => // _; split=> //; constructor. Qed.
Definition nrm (c : cell) (e : nat) : seq R := if cell_normal svd qr pop c e is Base.Ok n then n else [::].
Lemma nrm_ok c e W : ModelFam.is_triangle c = true -> facet_is c e W ->
  [/\ cell_normal svd qr pop c e = Ok (nrm c e), orthogonal_to 2 (vts c) W (nrm c e) & inner 2 (nrm c e) (nrm c e) = 1].
Proof.
move=> Hc Hf. have [Hs _ Hd Hne] := tri_ok Hc. have [v [n [_ H1 [H2 H3] _]]] := C20_scaled_normal Hsvd Hqr Hpop Hs Hne Hf.
rewrite /nrm H1. move: H2 H3. rewrite -[ModelCell.spatial_dimension c]/(sdim_of c) Hd. by [].
Qed.
Lemma unit_nrm c : ModelFam.is_triangle c = true -> unit_normals c (nrm c).
Proof. move=> Hc e W Hf. by have [_ H1 H2] := nrm_ok Hc Hf. Qed.
(** the nodes as combinations of derivatives *)
Definition cnode (c : cell) : ModelFam.node K -> dnode R := node_terms (nrm c).
Definition cnode_ok (l : ModelFam.node K) : Prop :=
  match l with
  | ModelFam.PointEvaluation x => True
  | ModelFam.PointDerivative x a => size a = 2%N /\ (0 < sumn a)%N
  | ModelFam.PointNormalDerivative e x => (e < 3)%N
  | _ => False
  end.
Lemma realizes_pnd c n e (x : seq R) : sdim_of c = 2%N -> realizes 2 (ModelFunctional.PointNormalDerivative (geometry_normal c n) e x) (along_at 2 x n).
Proof.
move=> Hd. split=> //.
- move=> E HE. by rewrite /wf_functional /= /ModelFunctional.e_ Hd HE.
- move=> _. by rewrite /max_deriv_order /= big_seq1 /= Hd /= /ModelFunctional.e_ /= !big_cons big_nil.
- move=> f. rewrite /apply /dval /along_at /= big_nil add0r big_seq1 /= Hd /= !big_cons !big_nil /=. by [].
Qed.
Lemma c1_nodes c (L : seq (ModelFam.node K)) : ModelFam.is_triangle c = true -> (forall l, List.In l L -> cnode_ok l) ->
  exists fs, [/\ map_res (c1_node svd qr pop c) L = Ok fs, size fs = size L &
    forall i, (i < size L)%N -> realizes 2 (nth nil_f fs i) (nth [::] (map (cnode c) L) i)].
Proof.
move=> Hc. elim: L => [|l L IH] H; first by exists [::]. have [|fs [E1 E2 E3]] := IH; first by move=> l' Hl; apply: H; right.
have Hl := H l (or_introl erefl). have [f [Ef Rf]] : exists f, c1_node svd qr pop c l = Ok f /\ realizes 2 f (cnode c l).
{ case: l Hl {H} => //= [x _|x a [H1 H2]|e x He].
  - eexists. split; [reflexivity|exact: realizes_pe].
  - eexists. split; [reflexivity|exact: realizes_pd].
  - have [W HW] : exists W, facet_is c e W by clear -Hc He; case: c Hc => // _; case: e He => [|[|[|e]]] // _; eexists; reflexivity.
    have [N1 _ _] := nrm_ok Hc HW. rewrite N1 /=. eexists. split; [reflexivity|]. apply: realizes_pnd. by case: (tri_ok Hc). }
exists (f :: fs). rewrite /= Ef /= E1. split=> //=; first by rewrite E2. case=> [|i] //=. exact: E3.
Qed.
Lemma In_map (A : Type) (B : eqType) (f : A -> B) x l : List.In x l -> f x \in map f l.
Proof. elim: l => [|y l IH] //= [->|/IH H]; by rewrite inE ?eqxx ?H ?orbT. Qed.
(** points of an edge *)
Lemma edge_pair c e W : ModelFam.is_triangle c = true -> facet_is c e W -> exists a b, [/\ W = [:: a; b], a != b, (a <= 2)%N, (b <= 2)%N & (e < 3)%N].
Proof. clear. case: c => // _; case: e => [|[|[|e]]] //; rewrite /facet_is ?[ModelCell.lookup _ _ _]/(Some _) => -[<-]; by do 2 eexists. Qed.
Lemma V_coord c v i : ModelFam.is_triangle c = true -> (v <= 2)%N -> (i < 2)%N -> nth 0 (V c v) i = org R c + scl R c * (v == i.+1)%:R.
Proof. move=> Hc Hv Hi. have [_ Hx Hd _] := tri_ok Hc. apply: (vcoE R Hx); by rewrite Hd. Qed.
Lemma size_V c v : ModelFam.is_triangle c = true -> (v <= 2)%N -> size (V c v) = 2%N.
Proof. move=> Hc Hv. have [_ Hx Hd _] := tri_ok Hc. have [V1 V2] := verts_dim R Hx. rewrite -Hd. apply: V2. apply: mem_nth. by rewrite V1 Hd. Qed.
Lemma edge_in c e a b k m : ModelFam.is_triangle c = true -> facet_is c e [:: a; b] -> (0 < k < m)%N -> List.In (on_edge R c a b k m : seq R) (ModelFam.make_points K c 1 e m).
Proof.
move=> Hc Hf Hk. have [Hs Hx Hd _] := tri_ok Hc. have [a' [b' [[<- <-] Hab Ha Hb He]]] := edge_pair Hc Hf.
have Hf' : ModelCell.lookup (ModelCell.topology c) (ModelCell.DI 1) e = Some [:: a; b] by move: Hf; rewrite /facet_is -[ModelCell.spatial_dimension c]/(sdim_of c) Hd.
pose w v := if v == a then (m - k)%N else k.
have U : uniq [:: a; b] by rewrite /= inE Hab.
have Hw v : v \in [:: a; b] -> (v <= sdim_of c)%N /\ (0 < w v)%N.
{ rewrite !inE Hd => /orP [] /eqP ->; rewrite /w; split=> //; case: eqP => _; lia. }
have Sw : (\sum_(v <- [:: a; b]) w v = m)%N by rewrite !big_cons big_nil /w eqxx eq_sym (negbTE Hab); lia.
have m0 : (0 < m)%N by lia.
have [x [X1 X2 X3]] := ent_pt R (d := 1) Hx isT Hf' U Hw Sw m0.
have -> : on_edge R c a b k m = x; last exact: X1. rewrite Hd in X2 X3.
have Nm : m%:R != 0 :> R by exact: R0.
apply: (@eq_from_nth _ 0) => [|i]; rewrite size_mkseq // => Hi. rewrite nth_mkseq // X3 // !V_coord // !inE /w.
have -> : (i.+1 == a) = (a == i.+1) by rewrite eq_sym. have -> : (i.+1 == b) = (b == i.+1) by rewrite eq_sym.
case: (eqVneq a i.+1) => Ea; case: (eqVneq b i.+1) => Eb /=.
- by move: Hab; rewrite Ea Eb eqxx.
- rewrite mulr1 mulr0 addr0 opprD addrA subrr add0r mulrN -addrA. congr (_ + _). rewrite natrB; last lia.
  by rewrite mulrBr mulrBl mulfK // [k%:R / _ * _]mulrC mulrA.
- rewrite mulr1 mulr0 addr0 addrAC subrr add0r. congr (_ + _). by rewrite mulrC mulrA.
- by rewrite !mulr0 !addr0 subrr mulr0 addr0 mul0r addr0.
Qed.
Lemma inside_in c i j k m : ModelFam.is_triangle c = true -> (0 < i)%N -> (0 < j)%N -> (0 < k)%N -> (i + j + k = m)%N -> List.In (inside R c i j k m : seq R) (ModelFam.make_points K c 2 0 m).
Proof.
move=> Hc Hi Hj Hk Hm. have [Hs Hx Hd _] := tri_ok Hc.
have Hf' : ModelCell.lookup (ModelCell.topology c) (ModelCell.DI 2) 0 = Some [:: 0; 1; 2]%N by have := solid_cell Hs; rewrite Hd.
pose w v := nth 0%N [:: i; j; k] v.
have Hw v : v \in [:: 0; 1; 2]%N -> (v <= sdim_of c)%N /\ (0 < w v)%N by rewrite !inE Hd => /or3P [] /eqP ->.
have Sw : (\sum_(v <- [:: 0; 1; 2]%N) w v = m)%N by rewrite !big_cons big_nil /w /=; lia.
have m0 : (0 < m)%N by lia.
have [x [X1 X2 X3]] := ent_pt R (d := 2) Hx isT Hf' isT Hw Sw m0.
have -> : inside R c i j k m = x; last exact: X1. rewrite Hd in X2 X3.
have Nm : m%:R != 0 :> R by exact: R0.
apply: (@eq_from_nth _ 0) => [|l]; rewrite size_mkseq // => Hl. rewrite nth_mkseq // X3 // !V_coord //.
have Eo : org R c = org R c * (i%:R + j%:R + k%:R) / m%:R by rewrite -!natrD Hm mulfK.
case: l Hl => [|[|l]] //= _; rewrite !(mulr0, mulr1, addr0) /w /= [in RHS]Eo; move: (org R c) (scl R c) (m%:R^-1) (i%:R : R) (j%:R : R) (k%:R : R) => o s m' i' j' k'; fring.
Qed.
(** the line of an edge *)
Notation on a b t := (along 2 (V _ a) (ed (V _ a) (V _ b)) t).
Lemma on_edgeE c a b k m : on_edge R c a b k m = along 2 (V c a) (ed (V c a) (V c b)) (fr R m k).
Proof. by apply: (@eq_from_nth _ 0); rewrite ?size_mkseq // => i Hi; rewrite !nth_mkseq //; case: i Hi => [|[|i]]. Qed.
Lemma plane_on c a b x : in_plane 2 (vts c) [:: a; b] x -> exists t, x = along 2 (V c a) (ed (V c a) (V c b)) t.
Proof.
move=> [Sx [l [Hl HX]]]. exists (l b). rewrite !big_cons big_nil addr0 in Hl.
apply: (@eq_from_nth _ 0) => [|i]; rewrite Sx ?size_mkseq // => Hi. rewrite nth_mkseq // HX // !big_cons big_nil addr0.
have -> : l a = 1 - l b by rewrite -Hl addrK. case: i Hi => [|[|i]] //= _; fring.
Qed.
Lemma on_plane c a b t : a != b -> in_plane 2 (vts c) [:: a; b] (along 2 (V c a) (ed (V c a) (V c b)) t).
Proof.
move=> Hab. split; first by rewrite size_mkseq. exists (fun v => if v == a then 1 - t else t). rewrite !big_cons big_nil eqxx eq_sym (negbTE Hab) addr0 subrK. split=> // j Hj.
rewrite nth_mkseq // !big_cons big_nil eqxx eq_sym (negbTE Hab) addr0. case: j Hj => [|[|j]] //= _; fring.
Qed.
Lemma edge_det c e a b n : ModelFam.is_triangle c = true -> facet_is c e [:: a; b] -> orthogonal_to 2 (vts c) [:: a; b] n -> inner 2 n n = 1 ->
  nth 0 n 0 * nth 0 (ed (V c a) (V c b)) 1 - nth 0 n 1 * nth 0 (ed (V c a) (V c b)) 0 != 0.
Proof.
move=> Hc Hf [Sn HO] H1. have [a' [b' [[<- <-] Hab Ha Hb He]]] := edge_pair Hc Hf.
have := HO b a. rewrite !inE !eqxx orbT => /(_ isT isT). have I2 (u v : seq R) : inner 2 u v = nth 0 u 0 * nth 0 v 0 + nth 0 u 1 * nth 0 v 1 by rewrite /inner !big_ord_recl big_ord0 addr0.
move: H1. rewrite !I2 /diff !nth_mkseq //= -/(nth 0 n 0) -/(nth 0 n 1). move: (nth 0 n 0) (nth 0 n 1) => n0 n1.
set d0 := nth 0 (V c b) 0 - nth 0 (V c a) 0. set d1 := nth 0 (V c b) 1 - nth 0 (V c a) 1.
move=> H1 HD. apply/eqP => Hdet.
have Hd0 : d0 = 0.
{ have -> : d0 = (n0 * n0 + n1 * n1) * d0 by rewrite H1 mul1r.
  have -> : (n0 * n0 + n1 * n1) * d0 = n0 * (n0 * d0 + n1 * d1) - n1 * (n0 * d1 - n1 * d0) by fring. by rewrite HD Hdet !mulr0 subrr. }
have Hd1 : d1 = 0.
{ have -> : d1 = (n0 * n0 + n1 * n1) * d1 by rewrite H1 mul1r.
  have -> : (n0 * n0 + n1 * n1) * d1 = n1 * (n0 * d0 + n1 * d1) + n0 * (n0 * d1 - n1 * d0) by fring. by rewrite HD Hdet !mulr0 addr0. }
move: Hd0 Hd1. rewrite /d0 /d1 !V_coord //. move: (scl R c) (scl0 R0 c) (org R c) => s s0 o.
have E u v : o + s * u%:R - (o + s * v%:R) = 0 -> u%:R = v%:R :> R by move/eqP; rewrite subr_eq0 => /eqP /addrI /(mulfI s0).
move/E=> /(natr_inj R0) E1 /E/(natr_inj R0) E2. move: Hab Ha Hb E1 E2. clear. by case: a => [|[|[|a]]]; case: b => [|[|[|b]]].
Qed.
(** nodes on an edge *)
Lemma dval_at' (x : seq R) f fd : dval (at_pt x) f fd = f x. Proof. by rewrite /dval big_seq1 /= mul1r. Qed.
Lemma dval_der' (x : seq R) al f fd : al != [::] -> dval (der_at x al) f fd = fd al x. Proof. by move=> H; rewrite /dval big_seq1 /= (negbTE H) mul1r. Qed.
Lemma dval_along (x n : seq R) f fd : dval (along_at 2 x n) f fd = nth 0 n 0 * fd [:: 1%N; 0%N] x + nth 0 n 1 * fd [:: 0%N; 1%N] x.
Proof. by rewrite /dval /along_at /= !big_cons big_nil addr0. Qed.
Definition located (P : seq R -> Prop) (N : dnode R) : Prop := forall t, t \in N -> P t.1.2.
Lemma argyris_edge c q nu nds e a b cf : ModelFam.is_triangle c = true -> (5 <= q)%N -> unit_normals c nu -> argyris_spec c q nu nds -> facet_is c e [:: a; b] ->
  (forall N, N \in nds -> located (in_plane 2 (vts c) [:: a; b]) N -> dval N (pval 2 q cf) (pder 2 q cf) = 0) ->
  forall x, in_plane 2 (vts c) [:: a; b] x -> pval 2 q cf x = 0 /\ grad0 q cf x.
Proof.
move=> Hc Hq Hnu [_ S1 S2 S3 _] Hf H x Hx. have [H1 H2] := Hnu e _ Hf. have Hdet := edge_det Hc Hf H1 H2.
have [a' [b' [[Ea Eb] Hab Ha Hb He]]] := edge_pair Hc Hf. subst a' b'.
have Sa := size_V Hc Ha. have Sb := size_V Hc Hb. have [t ->] := plane_on Hx.
have Pl := on_plane c _ Hab. have Pa : in_plane 2 (vts c) [:: a; b] (V c a) by have := Pl 0; rewrite on0.
have Pb : in_plane 2 (vts c) [:: a; b] (V c b) by have := Pl 1; rewrite on1.
have L1 y : in_plane 2 (vts c) [:: a; b] y -> located (in_plane 2 (vts c) [:: a; b]) (at_pt y) by move=> Hy u; rewrite inE => /eqP ->.
have L2 y al : in_plane 2 (vts c) [:: a; b] y -> located (in_plane 2 (vts c) [:: a; b]) (der_at y al) by move=> Hy u; rewrite inE => /eqP ->.
have L3 y : in_plane 2 (vts c) [:: a; b] y -> located (in_plane 2 (vts c) [:: a; b]) (along_at 2 y (nu e)) by move=> Hy u /mapP [i _ ->].
have J v : (v <= 2)%N -> in_plane 2 (vts c) [:: a; b] (V c v) -> jet0 q cf (V c v).
{ move=> Hv Pv. have [M1 M2] := S1 v Hv. have D al : al \in [:: [:: 1; 0]; [:: 0; 1]; [:: 2; 0]; [:: 1; 1]; [:: 0; 2]]%N -> pder 2 q cf al (V c v) = 0.
  { move=> Hal. have := H _ (M2 al Hal) (L2 _ _ Pv). rewrite dval_der' //. by apply/eqP => E; rewrite E in Hal. }
  split; [by have := H _ M1 (L1 _ Pv); rewrite dval_at'|by split; apply: D|by split; apply: D]. }
apply: (edge_flat R0 Sa Sb Hdet) => //; [exact: J|exact: J| |].
- move=> k Hk. have := H _ (S3 e a b k Hf Hk). rewrite dval_at' on_edgeE. apply. apply: L1. exact: Pl.
- move=> k Hk. have := H _ (S2 e a b k Hf Hk). rewrite dval_along on_edgeE. apply. apply: L3. exact: Pl.
Qed.
(** the three sides *)
Lemma side_plane c W i x : ModelFam.is_triangle c = true -> (i <= 2)%N -> perm_eq W (opp 2 i) -> size x = 2%N ->
  (if i is i'.+1 then if i' is 0 then lam1 (org R c) (scl R c) x else lam2 (org R c) (scl R c) x else lam0 (org R c) (scl R c) x) = 0 -> in_plane 2 (vts c) W x.
Proof.
move=> Hc Hi HP Sx Hl. have s0 := scl0 R0 c. split=> //. set o := org R c in Hl *. set s := scl R c in Hl s0 *.
exists (fun v => if v is v'.+1 then if v' is 0 then lam1 o s x else lam2 o s x else lam0 o s x).
have X0 : nth 0 x 0 = o + s * lam1 o s x by rewrite /lam1 mulrC divfK // addrC subrK.
have X1 : nth 0 x 1 = o + s * lam2 o s x by rewrite /lam2 mulrC divfK // addrC subrK.
have T : lam0 o s x + lam1 o s x + lam2 o s x = 1 by rewrite /lam0; fring.
move: Hl X0 X1 T. move: (lam0 o s x) (lam1 o s x) (lam2 o s x) => l0 l1 l2 Hl X0 X1 T.
split.
- rewrite (perm_big _ HP) /=. case: i Hi HP Hl => [|[|[|i]]] //= _ _ Hl; rewrite /opp /= !big_cons big_nil addr0 -T Hl ?add0r ?addr0 //.
- move=> j Hj. rewrite (perm_big _ HP) /=.
  have E v : (v <= 2)%N -> nth 0 (V c v) j = o + s * (v == j.+1)%:R by move=> Hv; exact: V_coord.
  have T' : o = o * (l0 + l1 + l2) by rewrite T mulr1.
  case: i Hi HP Hl => [|[|[|i]]] //= _ _ Hl; case: j Hj E => [|[|j]] //= _ E; rewrite /opp /= !big_cons big_nil !E //= ?X0 ?X1 [in LHS]T' Hl; rewrite !(mulr0, mulr1, addr0); fring.
Qed.
Lemma flat_side c q cf S W : (forall x, in_plane 2 (vts c) W x -> pval 2 q cf x = 0 /\ grad0 q cf x) -> (forall t, in_plane 2 (vts c) W (E S t)) -> flat_on (pval 2 q cf) S.
Proof.
move=> H HE. split=> [t|t]; first by case: (H _ (HE t)).
exists (lpoly 2 q cf (E S t) (dir S) [:: 0%N; 0%N]). split=> [r|]; first exact: (lpoly_val 2 q cf (E S t) (dir S) r).
rewrite lpoly_der horner_sum big1 // => i _. rewrite hornerZ lpoly_ev along0; last by rewrite size_mkseq.
have [_ [D1 D2]] := H _ (HE t). case: i => -[|[|i]] // Hi; by rewrite (D1, D2) mulr0.
Qed.
Lemma argyris_det c q (nu : nat -> seq R) nds cf : ModelFam.is_triangle c = true -> (5 <= q)%N -> unit_normals c nu -> argyris_spec c q nu nds ->
  (forall N, N \in nds -> dval N (pval 2 q cf) (pder 2 q cf) = 0) -> forall y, size y = 2%N -> pval 2 q cf y = 0.
Proof.
move=> Hc Hq Hnu HS H. have [Hs Hx Hd _] := tri_ok Hc. have s0 := scl0 R0 c.
have Side i : (i <= 2)%N -> exists W, perm_eq W (opp 2 i) /\ forall x, in_plane 2 (vts c) W x -> pval 2 q cf x = 0 /\ grad0 q cf x.
{ move=> Hi. have Hi' : (i <= sdim_of c)%N by rewrite Hd. have [e [W [He HW HP]]] := solid_opp Hs Hi'. rewrite Hd in HP. exists W. split=> //.
  have [a [b [EW _ _ _ _]]] := edge_pair Hc HW. subst W. apply: (argyris_edge Hc Hq Hnu HS HW) => N HN _. exact: H. }
apply: (flat_zero R0 s0 (o := org R c) (q := q)) => //; first exact: is_poly_pval.
- have [W [HP HW]] := Side 1%N isT. apply: (flat_side HW) => t. apply: (side_plane Hc _ HP) => //. rewrite E1at /lam1 /=. by rewrite subrr mul0r.
- have [W [HP HW]] := Side 2%N isT. apply: (flat_side HW) => t. apply: (side_plane Hc _ HP) => //. rewrite E2at /lam2 /=. by rewrite subrr mul0r.
- have [W [HP HW]] := Side 0%N isT. apply: (flat_side HW) => t. apply: (side_plane Hc _ HP) => //.
  have [L1 L2 L3 L4] := good0 R0 (org R c) s0. have := L2 t 0. by rewrite along0.
- move=> i j Hij. have [_ _ _ _ S4] := HS. have := H _ (S4 (q - 5 - i - j)%N i.+1 j.+1 _ isT isT _). rewrite dval_at'.
  set y := inside _ _ _ _ _ _. have -> : y = [:: org R c + scl R c * i.+1%:R / (q - 3)%:R; org R c + scl R c * j.+1%:R / (q - 3)%:R]; last by apply; lia.
  have Nq : (q - 3)%:R != 0 :> R by apply: R0; lia.
  have Eo : org R c = org R c * ((q - 5 - i - j)%:R + i.+1%:R + j.+1%:R) / (q - 3)%:R by rewrite -!natrD; have -> : (q - 5 - i - j + i.+1 + j.+1 = q - 3)%N by [lia]; rewrite mulfK.
  apply: (@eq_from_nth _ 0) => [|l]; rewrite size_mkseq // => Hl. rewrite nth_mkseq // !V_coord //.
  move: Eo. move: (org R c) (scl R c) ((q - 3)%:R^-1) ((q - 5 - i - j)%:R : R) (i.+1%:R : R) (j.+1%:R : R) => o s m' a b d Eo.
  case: l Hl => [|[|l]] //= _; rewrite !(mulr0, mulr1, addr0) [in RHS]Eo; fring.
Qed.
End C1.
