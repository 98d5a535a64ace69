(** C28, hypercubes: the rules [make_quadrature] returns on the quadrilateral and
    the hexahedron. *)
Set Warnings "-notation-overridden,-ambiguous-paths".
From mathcomp Require Import all_ssreflect all_algebra zify.
From Verif Require Base.
From Verif Require Import SpecJacobi SpecExpansion ModelQuad SpecQuad PropsQuad SpecScheme ProofsScheme PropsScheme ProofsGaussReal PropsQuadPos.
Set Implicit Arguments. Unset Strict Implicit. Unset Printing Implicit Defensive.
Import GRing.Theory Num.Theory.
Local Open Scope ring_scope.

(** the quadrilateral and the hexahedron *)
Definition cube (F : fieldType) (k : nat) : qcell F := if k == 2%N then QQuad F else QHex F.
(** coefficient [t.1] times x_0^{a_0} ... x_{k-1}^{a_{k-1}} with [a = t.2] *)
Definition monomial (F : fieldType) (k : nat) (t : F * seq nat) (x : seq F) : F := t.1 * \prod_(i < k) nth 0 x i ^+ nth 0%N t.2 i.

Lemma iterated_mono (F : fieldType) (l : rule F) m k (t : F * seq nat) :
  (forall p, p \in q_pts l -> size p = 1%N) ->
  (forall P : {poly F}, (size P <= m.*2)%N -> integrate l (fun x => P.[nth 0 x 0]) = integral 0 1 P) ->
  (forall i, (i < k)%N -> nth 0%N t.2 i < m.*2)%N ->
  iterated (nseq k l) (monomial k t) = t.1 * \prod_(i < k) integral 0 1 ('X^(nth 0%N t.2 i)).
Proof.
move=> Hp Hx. case: t => c a /=. elim: k a c => [|k IH] a c Ha; first by rewrite /monomial /= !big_ord0.
pose J : F := \prod_(i < k) integral 0 1 'X^(nth 0%N (behead a) i).
have Hb i : (i < k)%N -> (nth 0%N (behead a) i < m.*2)%N by move=> Hi; rewrite nth_behead; apply: Ha.
transitivity (integrate l (fun x => c * J * ('X^(nth 0%N a 0)).[nth 0 x 0])).
- apply: integrate_ext => x /Hp Sx. rewrite hornerXn. have := IH (behead a) (c * nth 0 x 0 ^+ nth 0%N a 0) Hb. rewrite -/J mulrAC => <-.
  apply: iterated_ext => y _. rewrite /monomial /= big_ord_recl /= -[RHS]mulrA. congr (_ * (_ * _)); first by rewrite nth_cat Sx.
  apply: eq_bigr => i _. by rewrite nth_cat Sx /= subn1 nth_behead.
- rewrite integrateZ Hx ?size_polyXn ?Ha // big_ord_recl /= -mulrA [J * _]mulrC. congr (_ * (_ * _)). apply: eq_bigr => i _. by rewrite nth_behead.
Qed.
Lemma cube_pts (F : fieldType) (l : rule F) k p : (forall p, p \in q_pts l -> size p = 1%N) -> p \in tp_pts (nseq k l) -> size p = k.
Proof.
move=> Hp. elim: k p => [|k IH] p; first by rewrite /tp_pts /= inE => /eqP ->.
by rewrite /= tp_pts_cons => /allpairsP [[x y] [/= /Hp Sx /IH Sy ->]]; rewrite size_cat Sx Sy.
Qed.
Lemma integrate_sum (F : fieldType) (r : rule F) (T : Type) (L : seq T) (f : T -> seq F -> F) :
  integrate r (fun x => \sum_(t <- L) f t x) = \sum_(t <- L) integrate r (f t).
Proof. rewrite /integrate exchange_big /=. apply: eq_bigr => xw _. by rewrite mulr_sumr. Qed.

(** m points per direction integrate every polynomial of degree at most 2m-1 in
    each variable exactly; the polynomial is any list of monomials. *)
Theorem C28_cube :
  forall (F : fieldType) (gjp : nat -> nat -> nat -> seq F) (m k : nat),
    char_zero F -> (0 < m)%N -> gauss_points gjp m -> (2 <= k <= 3)%N ->
    exists r, [/\ make_quadrature gjp (cube F k) m = Base.Ok r, q_cell r = QProd (nseq k (UFCInterval F)),
                  size (q_pts r) = (m ^ k)%N /\ size (q_wts r) = (m ^ k)%N,
                  forall p, p \in q_pts r -> size p = k &
      forall L : seq (F * seq nat), (forall t i, t \in L -> (i < k)%N -> (nth 0%N t.2 i < m.*2)%N) ->
        integrate r (fun x => \sum_(t <- L) monomial k t x) = \sum_(t <- L) t.1 * \prod_(i < k) integral 0 1 ('X^(nth 0%N t.2 i))].
Proof.
move=> F gjp m k F0 m0 G Hk.
have Sv : simplex_verts 1 [:: [:: 0 : F]; [:: 1]] by split=> // v; rewrite !inE => /orP [] /eqP ->.
have [l [El Cl Pl Wl Hl]] := @C28_interval F gjp m true _ F0 m0 G Sv.
have Hp p : p \in q_pts l -> size p = 1%N by move: El; rewrite (line_shape true F0 m0 G Sv) => -[<-] /= /mapP [x _ ->].
have B q : List.In q (nseq k l) -> balanced q by move=> Hq; have -> : q = l; [elim: k Hq {Hk} => [|j IH] //= [->|/IH]|rewrite /balanced Pl Wl].
have [r [Er Cr Br Sr Hr]] := C27_iterated B.
have Pr : size (q_pts r) = (m ^ k)%N. { rewrite Sr. elim: k {Hk B Er Cr Br Sr Hr} => [|j IH]; first by rewrite big_nil. by rewrite big_cons IH Pl expnS. }
exists r. split=> //.
- rewrite /make_quadrature (negbTE (lt0n_neq0 m0)) /cube. move: El. rewrite /make_quadrature (negbTE (lt0n_neq0 m0)) => El.
  move: Hk Er {B Cr Br Sr Hr Pr} => /andP []. case: k => [|[|[|[|k]]]] //= _ _ Er; by rewrite /UFCInterval El /=.
- rewrite Cr. congr QProd. by elim: k {Hk B Er Cr Br Sr Hr Pr} => [|j IH] //=; rewrite IH Cl.
- by rewrite Br.
- move=> p. move: Er. rewrite (tp_ok B) => -[<-] /=. exact: cube_pts.
- move=> L HL. rewrite integrate_sum. apply: eq_big_seq => t Ht. rewrite Hr (iterated_mono Hp (m := m)) //; last by move=> i; apply: HL.
Qed.

(** Over an ordered field the points are inside and the weights are positive. *)
Theorem C28_cube_positive : forall (F : realFieldType) (gjp : nat -> nat -> nat -> seq F) (m k : nat) r,
  (0 < m)%N -> gauss_points gjp m -> (2 <= k <= 3)%N -> make_quadrature gjp (cube F k) m = Base.Ok r ->
  (forall p i, p \in q_pts r -> (i < k)%N -> 0 < nth 0 p i < 1) /\ (forall w, w \in q_wts r -> 0 < w).
Proof.
move=> F gjp m k r m0 G Hk E. have F0 := @num_char0 F.
have Sv : simplex_verts 1 [:: [:: 0 : F]; [:: 1]] by split=> // v; rewrite !inE => /orP [] /eqP ->.
have El := line_shape true F0 m0 G Sv. set l := Rule _ _ _ in El. have [P W] := C28_positive m0 G (isT : (0 < 1 <= 3)%N) Sv El.
have Pl p : p \in q_pts l -> exists2 t, 0 < t < 1 & p = [:: t].
{ move=> /P [c [Sc Ac S1 ->]]. case: c Sc Ac S1 => [|a [|b []]] //= _ /and3P [a0 b0 _]. rewrite !big_cons big_nil addr0 => S1. exists b.
  - by rewrite b0 -S1 -subr_gt0 addrK.
  - by rewrite /mkseq /= !big_ord_recl big_ord0 /vtx /= mulr0 mulr1 addr0 add0r. }
have Wl w : w \in q_wts l -> 0 < w.
{ move/W. rewrite /jac_det det_mx11 mxE /vtx /= subr0 sgr1 => H. by rewrite -sgr_gt0 H ltr01. }
have B q : List.In q (nseq k l) -> balanced q by move=> Hq; have -> : q = l; [elim: k Hq {Hk E} => [|j IH] //= [->|/IH]|rewrite /balanced /= !size_map].
have Er : r = tp_rule (nseq k l).
{ move: E. rewrite /make_quadrature (negbTE (lt0n_neq0 m0)) /cube. move: El. rewrite /make_quadrature (negbTE (lt0n_neq0 m0)) => El.
  move: Hk B => /andP []. case: k => [|[|[|[|k]]]] //= _ _ B; rewrite /UFCInterval El /=; rewrite tp_ok; by [move=> [<-]|exact: B]. }
rewrite Er. split=> [p i|w] /=.
- elim: k p i {Hk E B Er} => [|k IH] p i //=. rewrite tp_pts_cons => /allpairsP [[x y] [/= /Pl [t Ht ->] Hy ->]]. case: i => [|i] //= Hi. exact: IH.
- elim: k w {Hk E B Er} => [|k IH] w; first by rewrite /tp_wts /= inE big_nil => /eqP ->; exact: ltr01.
  rewrite /= tp_wts_cons => /allpairsP [[x y] [/= /Wl Hx /IH Hy ->]]. exact: mulr_gt0.
Qed.
Example C28_cube_example : forall R : rcfType, exists gjp r, [/\ make_quadrature gjp (QHex R) 2 = Base.Ok r, size (q_pts r) = 8%N & forall w, w \in q_wts r -> 0 < w].
Proof.
move=> R. have [gjp [G _]] := C28_points_exist R 2. have [r [E _ [S _] _ _]] := @C28_cube R gjp 2 3 (@num_char0 R) isT G isT.
exists gjp, r. split=> //. by have [_ W] := C28_cube_positive (m := 2) (k := 3) isT G isT E.
Qed.
