(** The Vandermonde matrix on the interior lattice of a non-degenerate simplex
    is regular. *)
Set Warnings "-notation-overridden,-ambiguous-paths".
From mathcomp Require Import all_ssreflect all_algebra zify.
From Verif Require Base ModelIndex SpecIndex ProofsIndex.
From Verif Require Import FieldTac RingTac ModelJacobi SpecJacobi ProofsJacobi ProofsOrtho ModelExpansion SpecExpansion ProofsExpIdx ProofsExpProg ProofsExpOrtho ProofsExpDeg ModelDmats ProofsDmats ProofsDmatsCell ProofsDmatsDer ProofsUnisolv PropsJacobi PropsExpansion.
Set Implicit Arguments. Unset Strict Implicit. Unset Printing Implicit Defensive.
Import GRing.Theory.
Local Open Scope ring_scope.

(** a mathcomp field seen as the field of ModelIndex *)
Definition mcF (F : fieldType) : Base.fieldT := @Base.mkField F _ _ _ _ _ _ _ _ (mc_field_theory F).
Section Bridge.
Variable F : fieldType.
Add Field FFr : (mc_field_theory F).
Lemma of_natE n : Base.of_nat (K := mcF F) n = n%:R.
Proof. elim: n => [|n IH] //=. by rewrite IH /addF /oneF mulrS addrC. Qed.
Lemma Forall2_nth (A B : Type) (R : A -> B -> Prop) l l' a : List.Forall2 R l l' -> List.In a l ->
  exists i, (i < size l')%N /\ forall d, R a (nth d l' i).
Proof.
elim=> [|x y l1 l1' HR H IH] //= [<-|/IH [i [Hi Hd]]]; first by exists 0%N.
by exists i.+1.
Qed.
Lemma lattice_pt (verts : seq (seq F)) m d dim k : size verts = d.+1 -> (0 < d)%N -> m%:R != 0 :> F ->
  (forall v, List.In v verts -> size v = dim) ->
  SpecIndex.lattice_index d m 1 k ->
  exists l, (l < size (ModelIndex.make_lattice (K := mcF F) verts m 1))%N /\
    SpecIndex.is_lattice_point (K := mcF F) verts m k (nth [::] (ModelIndex.make_lattice (K := mcF F) verts m 1) l).
Proof.
move=> Hs Hd Hm Hv Hk.
have [||| |idxs [H1 [_ H2]]] := @ProofsIndex.make_lattice_spec (mcF F) verts m 1 d dim.
- by []. - lia. - rewrite of_natE. exact/eqP. - exact: Hv.
have [l [Hl HR]] := Forall2_nth H2 (proj2 (H1 k) Hk). by exists l.
Qed.
(** matrices of evaluations are regular when evaluation determines the
    coefficients *)
Lemma unit_eval N (V : 'M[F]_N) : (forall c : 'rV[F]_N, (forall j, \sum_k c 0 k * V j k = 0) -> c = 0) -> V \in unitmx.
Proof.
move=> H. rewrite -unitmx_tr -row_free_unit. apply: inj_row_free => c Hc. apply: H => j.
move/matrixP: Hc => /(_ 0 j). rewrite !mxE => E. rewrite -[RHS]E. apply: eq_bigr => k _. by rewrite mxE.
Qed.
Lemma pmap_nth (A : Type) (x0 : A) (s : seq (option A)) k v : all isSome s -> nth None s k = Some v -> nth x0 (pmap id s) k = v.
Proof. elim: s k => [|[a|] s IH] //= [|k] //= H; [by case|exact: IH]. Qed.
End Bridge.

Lemma binom2 n : Base.binom n.+2 2 = tri_num n.
Proof.
rewrite tri_numE. elim: n => [|n IH] //. rewrite ProofsIndex.binom_SS ProofsIndex.binom_1 IH !T2S. lia.
Qed.
Lemma binom3 n : Base.binom n.+3 3 = tet_num n.
Proof.
rewrite tet_numE. elim: n => [|n IH] //. rewrite ProofsIndex.binom_SS IH binom2 tri_numE [RHS]T3S. lia.
Qed.

Section Regular.
Variable F : fieldType.
Hypothesis F0 : char_zero F.
Add Field FFq : (mc_field_theory F).
Variable sqrt : F -> F.
Hypothesis Hsq : sqrt_exact sqrt.
Lemma int_triD (P Q : {poly {poly F}}) : int_tri (P + Q) = int_tri P + int_tri Q.
Proof. by rewrite /int_tri (@integD F _ (emb1 F)) (@integD F _ [rmorphism of idfun]). Qed.
Lemma int_tri0 : int_tri (0 : {poly {poly F}}) = 0.
Proof. by rewrite /int_tri (@integ0 F _ (emb1 F)) (@integ0 F _ [rmorphism of idfun]). Qed.
Lemma int_tetD (P Q : {poly {poly {poly F}}}) : int_tet (P + Q) = int_tet P + int_tet Q.
Proof. by rewrite /int_tet (@integD F _ (emb2 F)) (@integD F _ (emb1 F)) (@integD F _ [rmorphism of idfun]). Qed.
Lemma int_tet0 : int_tet (0 : {poly {poly {poly F}}}) = 0.
Proof. by rewrite /int_tet (@integ0 F _ (emb2 F)) (@integ0 F _ (emb1 F)) (@integ0 F _ [rmorphism of idfun]). Qed.

(** equispaced abscissae *)
Definition grid (m i : nat) : F := -1 + 2%:R * (i.+1%:R / m%:R).
Lemma natr_inj (i j : nat) : i%:R = j%:R :> F -> i = j.
Proof.
have K a c : (a < c)%N -> a%:R != c%:R :> F.
{ move=> H. rewrite eq_sym -subr_eq0 -natrB ?(ltnW H) //. apply: F0. by rewrite subn_gt0. }
move=> E. case: (ltngtP i j) => // H; have := K _ _ H; by rewrite E eqxx.
Qed.
Lemma grid_inj m : (0 < m)%N -> injective (grid m).
Proof.
move=> Hm i j /addrI /(mulfI (two_neq0 F0)) /(mulIf _) H. have := H (invr_neq0 (F0 Hm)). by move/natr_inj => [].
Qed.

Section Tri.
Variables (M : nat -> nat -> F) (b : nat -> F) (v0 v1 v2 : seq F).
Hypotheses (S0 : size v0 = 2%N) (S1 : size v1 = 2%N) (S2 : size v2 = 2%N).
Let aff (i : nat) (p : seq F) := M i 0%N * nth 0 p 0 + M i 1%N * nth 0 p 1 + b i.
Hypotheses (A0 : (aff 0 v0, aff 1 v0) = (-1, -1)) (A1 : (aff 0 v1, aff 1 v1) = (1, -1)) (A2 : (aff 0 v2, aff 1 v2) = (-1, 1)).
Definition tri_lattice n : seq (F * F) :=
  [seq (nth 0 p 0, nth 0 p 1) | p <- ModelIndex.make_lattice (K := mcF F) [:: v0; v1; v2] (n + 2 + 1) 1].
Lemma tri_lattice_size n : size (tri_lattice n) = tri_num n.
Proof.
rewrite size_map. have := @ProofsIndex.make_lattice_length (mcF F) [:: v0; v1; v2] (n + 2 + 1) 1 2 erefl.
rewrite /= => H. rewrite [size _]H; last by lia. rewrite -binom2. congr Base.binom. lia.
Qed.
Lemma tri_lattice_pt n i j : (i + j <= n)%N -> exists l, (l < tri_num n)%N /\
  let p := nth (0, 0) (tri_lattice n) l in
  (M 0%N 0%N * p.1 + M 0%N 1%N * p.2 + b 0%N, M 1%N 0%N * p.1 + M 1%N 1%N * p.2 + b 1%N) = (grid (n + 2 + 1) i, grid (n + 2 + 1) j).
Proof.
move=> Hij. have Hm : (n + 2 + 1)%:R != 0 :> F by apply: F0; lia.
have [||l [Hl [w [[Ew] [Hs Hc]]]]] := @lattice_pt F [:: v0; v1; v2] (n + 2 + 1) 2 2 [:: i.+1; j.+1] erefl isT Hm.
- by move=> v /= [<-|[<-|[<-|[]]]].
- split=> //. split; [move=> x /= [<-|[<-|[]]]; lia|rewrite /Base.nsum /=; lia].
exists l. move: (Hl). rewrite -[X in (_ < X)%N](size_map (fun p => (nth 0 p 0, nth 0 p 1))) -/(tri_lattice n) tri_lattice_size => Hl'. split=> //.
move: Hc. rewrite -Ew. have -> : length v0 = 2%N by []. move=> Hc.
rewrite /tri_lattice (nth_map [::]) //. set P := nth [::] _ l in Hc *.
have ENS : Base.nsum [:: i.+1; j.+1] = (i.+1 + j.+1)%N by rewrite /Base.nsum /=; lia.
have E c : (c < 2)%N -> nth 0 P c = ((n + 2 + 1 - (i.+1 + j.+1))%:R * nth 0 v0 c + (i.+1%:R * nth 0 v1 c + (j.+1%:R * nth 0 v2 c + 0))) / (n + 2 + 1)%:R.
{ move=> Hc2. have := Hc c ltac:(lia). rewrite /SpecIndex.coord ENS -/subn. rewrite [SpecIndex.wsum _ _]/= !of_natE.
  have N x (s : seq F) : List.nth x s 0 = nth 0 s x by elim: x s => [|x IH] [|y s] //=. rewrite !N. move=> ->. by rewrite /addF /mulF /oneF /zeroF !(addrC _%:R 1) -!mulrS. }
rewrite /= !E // {E Hc P Hl Hl' Hs Ew}. 
move: A0 A1 A2. rewrite /aff => [[E00 E01] [E10 E11] [E20 E21]].
move: (nth 0 v0 0) (nth 0 v0 1) (nth 0 v1 0) (nth 0 v1 1) (nth 0 v2 0) (nth 0 v2 1) E00 E01 E10 E11 E20 E21 => a0 a1 b0 b1 c0 c1 E00 E01 E10 E11 E20 E21.
have Eb0 : b 0%N = -1 - M 0%N 0%N * a0 - M 0%N 1%N * a1 by rewrite -E00; fring.
have Eb1 : b 1%N = -1 - M 1%N 0%N * a0 - M 1%N 1%N * a1 by rewrite -E01; fring.
have Hsub : (n + 2 + 1 - (i.+1 + j.+1))%:R = (n + 2 + 1)%:R - i.+1%:R - j.+1%:R :> F.
{ rewrite natrB; last by lia. by rewrite (natrD _ i.+1) opprD addrA. }
rewrite Hsub /grid. move: (n + 2 + 1)%:R Hm (i.+1%:R : F) (j.+1%:R : F) => m Hm s t {Hsub}. congr (_, _).
- have -> : M 0%N 0%N * (((m - s - t) * a0 + (s * b0 + (t * c0 + 0))) / m) + M 0%N 1%N * (((m - s - t) * a1 + (s * b1 + (t * c1 + 0))) / m) + b 0%N
    = ((m - s - t) * (M 0%N 0%N * a0 + M 0%N 1%N * a1 + b 0%N) + s * (M 0%N 0%N * b0 + M 0%N 1%N * b1 + b 0%N) + t * (M 0%N 0%N * c0 + M 0%N 1%N * c1 + b 0%N)) / m by ffield; nz.
  rewrite E00 E10 E20. rewrite mulrS mulr1n. ffield. nz.
- have -> : M 1%N 0%N * (((m - s - t) * a0 + (s * b0 + (t * c0 + 0))) / m) + M 1%N 1%N * (((m - s - t) * a1 + (s * b1 + (t * c1 + 0))) / m) + b 1%N
    = ((m - s - t) * (M 1%N 0%N * a0 + M 1%N 1%N * a1 + b 1%N) + s * (M 1%N 0%N * b0 + M 1%N 1%N * b1 + b 1%N) + t * (M 1%N 0%N * c0 + M 1%N 1%N * c1 + b 1%N)) / m by ffield; nz.
  rewrite E01 E11 E21. rewrite mulrS mulr1n. ffield. nz.
Qed.
Lemma tri_regular n : exists dm, tri_dmats sqrt M b n (tri_lattice n) = Ok dm.
Proof.
rewrite /tri_dmats tri_table_ok // tri_dtildes_ok // /= /on_dmats. case: (posnP n) => [->|Hn] /=; first by eexists.
rewrite size_map tri_lattice_size eqxx /=.
suff -> : mx_of (tri_num n) (tri_num n) [seq [seq ev2m p.1 p.2 (tri_phi sqrt M b n k) | k <- iota 0 (tri_num n)] | p <- tri_lattice n] \in unitmx by eexists.
have [phi [H1 [H2 [_ H4]]]] := C23_triangle_orthonormal_dubiner F0 Hsq.
apply: unit_eval => c Hc.
pose Q := \sum_(k < tri_num n) (c 0 k)%:P%:P * phi (tdec n k).1 (tdec n k).2.
have Q0 : Q = 0.
{ apply: (@van2 F n.+1 Q (grid (n + 2 + 1)) (grid (n + 2 + 1))).
  - apply: grid_inj; lia. - apply: grid_inj; lia.
  - move=> i j Hij. rewrite coef_sum coef_sum big1 // => k _. rewrite coefCM coefCM H2 ?mulr0 //.
    have [Hk _] := tdec_ok (ltn_ord k). lia.
  - move=> i j Hij. have [l [Hl /= [E1 E2]]] := tri_lattice_pt (ltnSE Hij). rewrite -E1 -E2.
    have := Hc (Ordinal Hl). set p := nth (0, 0) _ l. move=> Hz. rewrite -[RHS]Hz -/(ev2 Q _ _) -ev2mE rmorph_sum.
    apply: eq_bigr => k _. rewrite rmorphM -[_%:P%:P]/(emb2 F _) ev2m_c mxE. congr (_ * _).
    rewrite (nth_map (0, 0)) ?tri_lattice_size // nth_map_iota // -/p.
    have [s [Es [Hs Hv]]] := H1 M b n [:: p.1; p.2] Hn.
    have [Hk1 Hk2] := tdec_ok (ltn_ord k). have := Hv _ _ Hk1. rewrite Hk2 /= => Hnth.
    have := @tri_run F F0 sqrt M b n F [rmorphism of idfun] (ev2m p.1 p.2) (fun c => ev2m_c _ _ c).
    rewrite ev2m_X ev2m_Y Es /= /full. case: ifP => // Hall [Hmap].
    have : nth 0 (pmap id s) k = ev2m p.1 p.2 (tri_phi sqrt M b n k) by rewrite Hmap nth_map_iota.
    move=> E'. refine (etrans _ E'). have En := pmap_nth 0 Hall Hnth.
    by rewrite En. }
apply/rowP => k. rewrite mxE.
have := int_tri0. rewrite -{1}(mul0r (phi (tdec n k).1 (tdec n k).2)) -Q0 /Q mulr_suml => H0. rewrite -[RHS]H0 {H0}.
rewrite (big_morph _ int_triD int_tri0) (bigD1 k) //= -mulrA int_triZ H4 !eqxx mulr1 big1 ?addr0 // => k' Hk'.
rewrite -mulrA int_triZ H4. case: ifP => [/andP [/eqP E1 /eqP E2]|_]; last by rewrite mulr0.
case/eqP: Hk'. apply/val_inj => /=. have [_ <-] := tdec_ok (ltn_ord k). have [_ <-] := tdec_ok (ltn_ord k'). by rewrite E1 E2.
Qed.
End Tri.
Section Tet.
Variables (M : nat -> nat -> F) (b : nat -> F) (v0 v1 v2 v3 : seq F).
Hypotheses (S0 : size v0 = 3%N) (S1 : size v1 = 3%N) (S2 : size v2 = 3%N) (S3 : size v3 = 3%N).
Let aff (i : nat) (p : seq F) := M i 0%N * nth 0 p 0 + M i 1%N * nth 0 p 1 + M i 2%N * nth 0 p 2 + b i.
Hypotheses (A0 : (aff 0 v0, aff 1 v0, aff 2 v0) = (-1, -1, -1)) (A1 : (aff 0 v1, aff 1 v1, aff 2 v1) = (1, -1, -1))
  (A2 : (aff 0 v2, aff 1 v2, aff 2 v2) = (-1, 1, -1)) (A3 : (aff 0 v3, aff 1 v3, aff 2 v3) = (-1, -1, 1)).
Definition tet_lattice n : seq (F * F * F) :=
  [seq (nth 0 p 0, nth 0 p 1, nth 0 p 2) | p <- ModelIndex.make_lattice (K := mcF F) [:: v0; v1; v2; v3] (n + 3 + 1) 1].
Lemma tet_lattice_size n : size (tet_lattice n) = tet_num n.
Proof.
rewrite size_map. have := @ProofsIndex.make_lattice_length (mcF F) [:: v0; v1; v2; v3] (n + 3 + 1) 1 3 erefl.
rewrite /= => H. rewrite [size _]H; last by lia. rewrite -binom3. congr Base.binom. lia.
Qed.
Lemma aff_comb3 (m s t u M0 M1 M2 c a0 a1 a2 b0 b1 b2 c0 c1 c2 d0 d1 d2 : F) : m != 0 ->
  M0 * (((m - s - t - u) * a0 + (s * b0 + (t * c0 + (u * d0 + 0)))) / m) + M1 * (((m - s - t - u) * a1 + (s * b1 + (t * c1 + (u * d1 + 0)))) / m)
   + M2 * (((m - s - t - u) * a2 + (s * b2 + (t * c2 + (u * d2 + 0)))) / m) + c =
  ((m - s - t - u) * (M0 * a0 + M1 * a1 + M2 * a2 + c) + s * (M0 * b0 + M1 * b1 + M2 * b2 + c) + t * (M0 * c0 + M1 * c1 + M2 * c2 + c)
   + u * (M0 * d0 + M1 * d1 + M2 * d2 + c)) / m.
Proof. move=> Hm. ffield. nz. Qed.
Lemma tet_lattice_pt n i j k : (i + j + k <= n)%N -> exists l, (l < tet_num n)%N /\
  let p := nth (0, 0, 0) (tet_lattice n) l in
  [/\ M 0%N 0%N * p.1.1 + M 0%N 1%N * p.1.2 + M 0%N 2%N * p.2 + b 0%N = grid (n + 3 + 1) i,
      M 1%N 0%N * p.1.1 + M 1%N 1%N * p.1.2 + M 1%N 2%N * p.2 + b 1%N = grid (n + 3 + 1) j &
      M 2%N 0%N * p.1.1 + M 2%N 1%N * p.1.2 + M 2%N 2%N * p.2 + b 2%N = grid (n + 3 + 1) k].
Proof.
move=> Hij. have Hm : (n + 3 + 1)%:R != 0 :> F by apply: F0; lia.
have [||l [Hl [w [[Ew] [Hs Hc]]]]] := @lattice_pt F [:: v0; v1; v2; v3] (n + 3 + 1) 3 3 [:: i.+1; j.+1; k.+1] erefl isT Hm.
- by move=> v /= [<-|[<-|[<-|[<-|[]]]]].
- split=> //. split; [move=> x /= [<-|[<-|[<-|[]]]]; lia|rewrite /Base.nsum /=; lia].
exists l. move: (Hl). rewrite -[X in (_ < X)%N](size_map (fun p => (nth 0 p 0, nth 0 p 1, nth 0 p 2))) -/(tet_lattice n) tet_lattice_size => Hl'. split=> //.
move: Hc. rewrite -Ew. have -> : length v0 = 3%N by []. move=> Hc.
rewrite /tet_lattice (nth_map [::]) //. set P := nth [::] _ l in Hc *.
have ENS : Base.nsum [:: i.+1; j.+1; k.+1] = (i.+1 + j.+1 + k.+1)%N by rewrite /Base.nsum /=; lia.
have E c : (c < 3)%N -> nth 0 P c = ((n + 3 + 1 - (i.+1 + j.+1 + k.+1))%:R * nth 0 v0 c + (i.+1%:R * nth 0 v1 c + (j.+1%:R * nth 0 v2 c + (k.+1%:R * nth 0 v3 c + 0)))) / (n + 3 + 1)%:R.
{ move=> Hc2. have := Hc c ltac:(lia). rewrite /SpecIndex.coord ENS -/subn. rewrite [SpecIndex.wsum _ _]/= !of_natE.
  have N x (s : seq F) : List.nth x s 0 = nth 0 s x by elim: x s => [|x IH] [|y s] //=. rewrite !N. move=> ->.
  by rewrite /addF /mulF /oneF /zeroF !(addrC _%:R 1) -!mulrS. }
have {E} [-> -> ->] : [/\ _, _ & _] := And3 (E 0%N isT) (E 1%N isT) (E 2%N isT). rewrite {Hc P Hl Hl' Hs Ew}.
move: A0 A1 A2 A3. rewrite /aff => [[E00 E01 E02] [E10 E11 E12] [E20 E21 E22] [E30 E31 E32]].
have Hsub : (n + 3 + 1 - (i.+1 + j.+1 + k.+1))%:R = (n + 3 + 1)%:R - i.+1%:R - j.+1%:R - k.+1%:R :> F.
{ rewrite natrB; last by lia. by rewrite (natrD _ (i.+1 + j.+1)) (natrD _ i.+1) !opprD !addrA. }
rewrite Hsub /grid. move: (n + 3 + 1)%:R Hm (i.+1%:R : F) (j.+1%:R : F) (k.+1%:R : F) => m Hm s t u {Hsub}.
split; rewrite aff_comb3 // ?(E00, E01, E02) ?(E10, E11, E12) ?(E20, E21, E22) ?(E30, E31, E32) mulrS mulr1n; ffield; nz.
Qed.
Lemma tet_regular n : exists dm, tet_dmats sqrt M b n (tet_lattice n) = Ok dm.
Proof.
rewrite /tet_dmats tet_table_ok // tet_dtildes_ok // /= /on_dmats. case: (posnP n) => [->|Hn] /=; first by eexists.
rewrite size_map tet_lattice_size eqxx /=.
suff -> : mx_of (tet_num n) (tet_num n) [seq [seq ev3m p.1.1 p.1.2 p.2 (tet_phi sqrt M b n k) | k <- iota 0 (tet_num n)] | p <- tet_lattice n] \in unitmx by eexists.
have [phi [H1 [H2 [_ H4]]]] := C23_tetrahedron_orthonormal_dubiner F0 Hsq.
apply: unit_eval => c Hc.
pose psi k := phi (sdec n k).1.1 (sdec n k).1.2 (sdec n k).2.
pose Q := \sum_(k < tet_num n) (c 0 k)%:P%:P%:P * psi k.
have Q0 : Q = 0.
{ apply: (@van3 F n.+1 Q (grid (n + 3 + 1)) (grid (n + 3 + 1)) (grid (n + 3 + 1))).
  - apply: grid_inj; lia. - apply: grid_inj; lia. - apply: grid_inj; lia.
  - move=> i j l Hij. rewrite coef_sum coef_sum coef_sum big1 // => k _. rewrite coefCM coefCM coefCM H2 ?mulr0 //.
    have [Hk _] := sdec_ok (ltn_ord k). lia.
  - move=> i j r Hij. have [l [Hl [E1 E2 E3]]] := tet_lattice_pt (ltnSE Hij). rewrite -E1 -E2 -E3.
    have := Hc (Ordinal Hl). set p := nth (0, 0, 0) _ l. move=> Hz. rewrite -[RHS]Hz -/(ev3 Q _ _ _) -ev3mE rmorph_sum.
    apply: eq_bigr => k _. rewrite rmorphM -[_%:P%:P%:P]/(emb3 F _) ev3m_c mxE. congr (_ * _).
    rewrite (nth_map (0, 0, 0)) ?tet_lattice_size // nth_map_iota // -/p.
    have [s [Es [Hs Hv]]] := H1 M b n [:: p.1.1; p.1.2; p.2] Hn.
    have [Hk1 Hk2] := sdec_ok (ltn_ord k). have := Hv _ _ _ Hk1. rewrite Hk2 [nth 0 _ 0]/= [nth 0 _ 1]/= [nth 0 _ 2]/= => Hnth.
    have := @tet_run F F0 sqrt M b n F [rmorphism of idfun] (ev3m p.1.1 p.1.2 p.2) (fun c => ev3m_c _ _ _ c).
    rewrite ev3m_X ev3m_Y ev3m_Z Es /= /full. case: ifP => // Hall [Hmap].
    have : nth 0 (pmap id s) k = ev3m p.1.1 p.1.2 p.2 (tet_phi sqrt M b n k) by rewrite Hmap nth_map_iota.
    move=> E'. refine (etrans _ E'). have En := pmap_nth 0 Hall Hnth.
    by rewrite En. }
apply/rowP => k. rewrite mxE.
have := int_tet0. rewrite -{1}(mul0r (psi k)) -Q0 /Q mulr_suml => H0. rewrite -[RHS]H0 {H0}.
rewrite (big_morph _ int_tetD int_tet0) (bigD1 k) //= -mulrA int_tetZ H4 !eqxx mulr1 big1 ?addr0 // => k' Hk'.
rewrite -mulrA int_tetZ H4. case: ifP => [/and3P [/eqP E1 /eqP E2 /eqP E3]|_]; last by rewrite mulr0.
case/eqP: Hk'. apply/val_inj => /=. have [_ <-] := sdec_ok (ltn_ord k). have [_ <-] := sdec_ok (ltn_ord k'). by rewrite E1 E2 E3.
Qed.
End Tet.
End Regular.
