(** Tensor-product rules and exactness of the canonical scheme. *)
Set Warnings "-notation-overridden,-ambiguous-paths".
From Coq Require Import ZArith QArith String.
From mathcomp Require Import all_ssreflect all_algebra zify.
From Verif Require Base.
From Verif Require Import SpecJacobi SpecExpansion ModelQuad SpecQuad PropsQuad ModelScheme SpecScheme.
Set Implicit Arguments. Unset Strict Implicit. Unset Printing Implicit Defensive.
Import GRing.Theory.
Local Open Scope ring_scope.

Section TP.
Variable F : fieldType.
Implicit Types (q : rule F) (qs : seq (rule F)).
Lemma size_iproduct (T : Type) (ls : seq (seq T)) : size (iproduct ls) = (\prod_(l <- ls) size l)%N.
Proof. elim: ls => [|l ls IH]; first by rewrite big_nil. by rewrite big_cons /= size_allpairs IH. Qed.
Definition tp_pts qs := [seq flatten t | t <- iproduct [seq q_pts q | q <- qs]].
Definition tp_wts qs := [seq \prod_(w <- t) w | t <- iproduct [seq q_wts q | q <- qs]] : seq F.
Definition tp_rule qs := Rule (QProd [seq q_cell q | q <- qs]) (tp_pts qs) (tp_wts qs).
Lemma tp_ok qs : (forall q, List.In q qs -> balanced q) -> tp_quadrature qs = Base.Ok (tp_rule qs).
Proof.
move=> B. rewrite /tp_quadrature /quadrature_rule !size_map !size_iproduct !big_map.
suff -> : (\prod_(q <- qs) size (q_wts q) = \prod_(q <- qs) size (q_pts q))%N by rewrite eqxx.
elim: qs B => [|q qs IH] B; first by rewrite !big_nil. rewrite !big_cons IH; first by rewrite B //; left.
move=> q' H. apply: B. by right.
Qed.
Lemma tp_pts_cons q qs : tp_pts (q :: qs) = [seq x ++ y | x <- q_pts q, y <- tp_pts qs].
Proof. rewrite /tp_pts /= map_allpairs allpairs_mapr. by []. Qed.
Lemma tp_wts_cons q qs : tp_wts (q :: qs) = [seq v * w | v <- q_wts q, w <- tp_wts qs].
Proof. rewrite /tp_wts /= map_allpairs allpairs_mapr. apply: eq_allpairs => v t. by rewrite big_cons. Qed.
Lemma tp_balanced qs : (forall q, List.In q qs -> balanced q) -> balanced (tp_rule qs).
Proof.
elim: qs => [|q qs IH] B; first by []. rewrite /balanced /= tp_wts_cons tp_pts_cons !size_allpairs.
have := IH (fun q' H => B q' (or_intror H)); rewrite /balanced /= => ->. by rewrite (B q (or_introl erefl)).
Qed.
Lemma sum_pairs (p1 : seq (seq F)) (w1 : seq F) (p2 : seq (seq F)) (w2 : seq F) f : size w1 = size p1 -> size w2 = size p2 ->
  \sum_(xw <- zip [seq x ++ y | x <- p1, y <- p2] [seq v * w | v <- w1, w <- w2]) xw.2 * f xw.1 =
  \sum_(xv <- zip p1 w1) xv.2 * (\sum_(yw <- zip p2 w2) yw.2 * f (xv.1 ++ yw.1)).
Proof.
move=> S1 S2. elim: p1 w1 S1 => [|x p1 IH] [|v w1] //= S1; first by rewrite !big_nil.
rewrite zip_cat ?size_map // big_cat big_cons IH; last by case: S1. congr (_ + _). rewrite /=.
elim: (p2) (w2) S2 => [|y p IHp] [|w ws] //= S2; first by rewrite !big_nil mulr0.
by rewrite !big_cons IHp ?mulrDr ?mulrA //; case: S2.
Qed.
Lemma tp_iterated qs f : (forall q, List.In q qs -> balanced q) -> integrate (tp_rule qs) f = iterated qs f.
Proof.
elim: qs f => [|q qs IH] f B; first by rewrite /integrate /= /tp_pts /tp_wts /= big_seq1 /= big_nil mul1r.
have B' q' (H : List.In q' qs) := B q' (or_intror H).
rewrite /integrate /= tp_pts_cons tp_wts_cons sum_pairs; last exact: (tp_balanced B'); last exact: (B q (or_introl erefl)).
apply: eq_bigr => xv _. by rewrite -IH.
Qed.
Lemma integrate_sum q (T : Type) (s : seq T) (f : T -> seq F -> F) : integrate q (fun x => \sum_(i <- s) f i x) = \sum_(i <- s) integrate q (f i).
Proof. rewrite /integrate exchange_big /=. apply: eq_bigr => xw _. by rewrite mulr_sumr. Qed.
Lemma integrate_ext q f g : (forall x, x \in q_pts q -> f x = g x) -> integrate q f = integrate q g.
Proof.
rewrite /integrate => H. rewrite big_seq [RHS]big_seq. apply: eq_bigr => -[x w] Hxw /=. rewrite H //.
elim: (q_pts q) (q_wts q) Hxw => [|y p IH] [|v ws] //=. rewrite !inE => /orP [/eqP [-> _]|/IH ->]; by rewrite ?eqxx ?orbT.
Qed.
Lemma iterated_ext qs f g : (forall x, x \in tp_pts qs -> f x = g x) -> iterated qs f = iterated qs g.
Proof.
elim: qs f g => [|q qs IH] f g H /=; first by apply: H; rewrite /tp_pts /= inE.
apply: integrate_ext => x Hx. apply: IH => y Hy. apply: H. rewrite tp_pts_cons. by apply/allpairsP; exists (x, y).
Qed.
Lemma integrateZ q c f : integrate q (fun x => c * f x) = c * integrate q f.
Proof. rewrite /integrate mulr_sumr. apply: eq_bigr => x _. by rewrite mulrCA. Qed.
(** the order of summation does not matter *)
Lemma iterated_swap q qs f : integrate q (fun x => iterated qs (fun y => f (x ++ y))) = iterated qs (fun y => integrate q (fun x => f (x ++ y))).
Proof.
suff H (g : seq F -> seq F -> F) : integrate q (fun x => iterated qs (g x)) = iterated qs (fun y => integrate q (fun x => g x y)) by exact: H.
elim: qs g => [|q' qs IH] g //=. rewrite /integrate /= in IH *.
transitivity (\sum_(xw <- zip (q_pts q') (q_wts q')) xw.2 * (\sum_(yv <- zip (q_pts q) (q_wts q)) yv.2 * iterated qs (fun y => g yv.1 (xw.1 ++ y)))).
- rewrite (eq_bigr (fun yv => \sum_(xw <- zip (q_pts q') (q_wts q')) yv.2 * (xw.2 * iterated qs (fun y => g yv.1 (xw.1 ++ y))))); last by move=> yv _; rewrite mulr_sumr.
  rewrite exchange_big /=. apply: eq_bigr => xw _. rewrite mulr_sumr. apply: eq_bigr => yv _. by rewrite mulrCA.
- apply: eq_bigr => xw _. by rewrite (IH (fun x y => g x (xw.1 ++ y))).
Qed.
End TP.

(** *** The canonical scheme *)
Scheme integ_on_mind := Minimality for integ_on Sort Prop
  with integ_list_mind := Minimality for integ_list Sort Prop.

Section Canon.
Variables (F : fieldType) (gjp : nat -> nat -> nat -> seq F) (scheme : string).
Hypotheses (F0 : char_zero F) (G : forall m, (0 < m)%N -> gauss_points gjp m).
Notation create := (create_quadrature gjp).
Notation can := "canonical"%string.
Definition good (c : qcell F) (d : darg) (f : seq F -> F) (I : F) : Prop :=
  exists r, [/\ create c d can = Base.Ok r, balanced r, forall p, p \in q_pts r -> size p = cdim c & integrate r f = I].
Definition goodl (cs : seq (qcell F)) (ds : seq darg) (f : seq F -> F) (I : F) : Prop :=
  exists qs, [/\ size cs = size ds, quad_rules (fun c d => create c d can) cs ds = Base.Ok qs, forall q, List.In q qs -> balanced q,
    forall p, p \in tp_pts qs -> size p = sumn (map (@cdim F) cs) & iterated qs f = I].
Lemma can_simplex d ufc v z : Z.le 0 z -> create (QSimp d ufc v) (DInt z) can = make_quadrature gjp (QSimp d ufc v) ((Z.to_nat z + 2) %/ 2).
Proof. move=> H. rewrite /= /simplex_quadrature /=. case: Z.ltb_spec => [|_]; first lia. by rewrite /fiat_scheme -addnA. Qed.
Lemma mpos z : (0 < (z + 2) %/ 2)%N. Proof. lia. Qed.
Lemma mdeg z : (z <= ((z + 2) %/ 2).*2.-1)%N. Proof. lia. Qed.
Lemma good_prod cs d ds f I : (match d with DTuple l => l | DInt _ => nseq (size cs) d end = ds) -> goodl cs ds f I -> good (QProd cs) d f I.
Proof.
move=> E [qs [Sz Q B S J]]. exists (tp_rule qs). split=> //.
- rewrite /= /product_quadrature E Sz eqxx /= Q /=. exact: tp_ok.
- exact: tp_balanced.
- by rewrite tp_iterated.
Qed.
Lemma quad_rules_ext (c1 c2 : qcell F -> darg -> Base.result (rule F)) cs ds : (forall c d, List.In c cs -> c1 c d = c2 c d) -> quad_rules c1 cs ds = quad_rules c2 cs ds.
Proof. elim: cs ds => [|c cs IH] [|d ds] H //=. rewrite H; last by left. rewrite IH // => c' d' Hc. apply: H. by right. Qed.
Lemma quad_prod d s : create (QQuad F) d s = create (QProd [:: UFCInterval F; UFCInterval F]) d s. Proof. by []. Qed.
Lemma hex_prod d s : create (QHex F) d s = create (QProd [:: UFCInterval F; UFCInterval F; UFCInterval F]) d s. Proof. by []. Qed.

Lemma canonical_good c d f I : integ_on c d f I -> good c d f I.
Proof.
move: c d f I. apply: (@integ_on_mind F good goodl) => //.
- move=> ufc v z f0 Hz. exists (Rule (QSimp 0 ufc v) [:: [::]] [:: 1]). rewrite can_simplex // /make_quadrature.
  rewrite (negbTE (lt0n_neq0 (mpos _))). split=> //; first by move=> p; rewrite inE => /eqP ->. by rewrite /integrate /= big_seq1 mul1r.
- move=> ufc v z f0 P Hz Sv SP Hf. have m0 := mpos (Z.to_nat z). have [r [E _ Sp Sw H]] := C28_interval ufc F0 m0 (G m0) Sv.
  have E2 := line_shape ufc F0 m0 (G m0) Sv. rewrite E in E2. exists r. rewrite can_simplex // /balanced Sp Sw. split=> //.
  + case: E2 => -> /= p /mapP [x _ ->] //.
  + rewrite -H; last by apply: (leq_trans SP); have := mdeg (Z.to_nat z); lia.
    apply: integrate_ext. case: E2 => -> /= p /mapP [x _ ->] //=.
- move=> ufc v z f0 P Hz Sv SP Hf. have m0 := mpos (Z.to_nat z). have [r [E _ Sp Sw H]] := C28_triangle ufc F0 m0 (G m0) Sv.
  have E2 := tri_shape ufc F0 m0 (G m0) Sv. rewrite E in E2. exists r. rewrite can_simplex // /balanced Sp Sw. split=> //.
  + case: E2 => -> /= p /allpairsP [[x y] [_ _ ->]] //.
  + rewrite -H. * apply: integrate_ext. case: E2 => -> /= p /allpairsP [[x y] [_ _ ->]] //=.
    * by move=> i j Hij; apply: SP; exact: (leq_ltn_trans (mdeg _) Hij).
- move=> ufc v z f0 P Hz Sv SP Hf. have m0 := mpos (Z.to_nat z). have [r [E _ Sp Sw H]] := C28_tetrahedron ufc F0 m0 (G m0) Sv.
  have E2 := tet_shape ufc F0 m0 (G m0) Sv. rewrite E in E2. exists r. rewrite can_simplex // /balanced Sp Sw. split=> //.
  + case: E2 => -> /= p /flattenP [l /mapP [x _ ->] /allpairsP [[y t] [_ _ ->]]] //.
  + rewrite -H. * apply: integrate_ext. case: E2 => -> /= p /flattenP [l /mapP [x _ ->] /allpairsP [[y t] [_ _ ->]]] //=.
    * by move=> i j k Hij; apply: SP; exact: (leq_ltn_trans (mdeg _) Hij).
- move=> cs ds f0 I0 _ H. exact: (good_prod (ds := ds)).
- move=> cs z f0 I0 _ H. exact: (good_prod (ds := nseq (size cs) (DInt z))).
- move=> f0. exists [::]. split=> //. by move=> p; rewrite /tp_pts /= inE => /eqP ->.
- move=> c0 cs d0 ds f0 g I0 _ Hc _ [qs [Sz Q B S J]].
  have [r [E Br Sr _]] := Hc (nseq (sumn (map (@cdim F) cs)) 0) (size_nseq _ _).
  exists (r :: qs). split=> /=; first by rewrite Sz.
  + by rewrite E /= Q.
  + by move=> q [<-|/B].
  + move=> p. rewrite tp_pts_cons => /allpairsP [[x y] /= [Hx Hy ->]]. by rewrite size_cat (Sr _ Hx) (S _ Hy).
  + rewrite iterated_swap -J. apply: iterated_ext => y /S Hy. have [r' [E' _ _ <-]] := Hc y Hy. by move: E'; rewrite E => -[->].
Qed.
End Canon.
