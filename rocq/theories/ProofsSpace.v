(** The expansion functions of degree n span exactly the polynomials of degree
    at most n. *)
Set Warnings "-notation-overridden,-ambiguous-paths".
From mathcomp Require Import all_ssreflect all_algebra zify.
From Verif Require Base ModelIndex SpecIndex ProofsIndex ModelCell SpecFam ModelFam ProofsFam.
From Verif Require Import FieldTac RingTac ModelJacobi SpecJacobi ProofsJacobi ProofsOrtho ModelExpansion SpecExpansion ProofsExpIdx ProofsExpProg ProofsExpOrtho ProofsExpDeg ModelDmats ProofsDmats ProofsDmatsCell ProofsDmatsDer ProofsUnisolv PropsJacobi PropsExpansion ProofsDmatsReg ProofsDmatsLine.
From Verif Require Import ModelAffine SpecAffine PropsAffine ModelDual SpecDual SpecPoly ModelSpace ProofsLagLat.
Set Implicit Arguments. Unset Strict Implicit. Unset Printing Implicit Defensive.
Import GRing.Theory.
Local Open Scope ring_scope.

Lemma expsS sd k : exps sd.+1 k = flatten [seq [seq i :: a | a <- exps sd (k - i)] | i <- iota 0 k.+1].
Proof. by []. Qed.
Lemma exps_mem sd k a : (a \in exps sd k) = (size a == sd) && (sumn a <= k)%N.
Proof.
elim: sd k a => [|sd IH] k a; first by rewrite inE; case: a.
rewrite expsS. apply/flattenP/idP => [[l /mapP [i Hi ->] /mapP [b Hb ->]]|].
- rewrite mem_iota in Hi. rewrite IH in Hb. case/andP: Hb => /eqP <- Hb /=. rewrite eqSS eqxx /=. lia.
- case: a => [|i b] // /andP [/eqP [Hs] Hb]. rewrite [sumn _]/= in Hb. exists [seq i :: b | b <- exps sd (k - i)].
  + apply/mapP. exists i => //. rewrite mem_iota. lia.
  + apply/mapP. exists b => //. rewrite IH Hs eqxx /=. lia.
Qed.
Lemma flatten_uniq_blocks (sd : nat) (f : nat -> seq (seq nat)) m s : (forall i, uniq (f i)) ->
  uniq (flatten [seq [seq i :: a | a <- f i] | i <- iota m s]).
Proof.
move=> Hf. elim: s m => [|s IH] m //=. rewrite cat_uniq IH andbT map_inj_uniq ?Hf //=; last by move=> x y [].
apply/hasPn => x /flattenP [l /mapP [i Hi ->] /mapP [b _ ->]]. apply/negP => /mapP [b' _ [E _]].
rewrite mem_iota E in Hi. lia.
Qed.
Lemma exps_uniq sd k : uniq (exps sd k).
Proof. elim: sd k => [|sd IH] k //. rewrite expsS. exact: (flatten_uniq_blocks sd). Qed.

Lemma exps1 k : exps 1 k = [seq [:: i] | i <- iota 0 k.+1].
Proof. rewrite expsS. elim: (iota 0 k.+1) => [|i l IH] //=. by rewrite IH. Qed.
Lemma exps2_perm k : perm_eq (exps 2 k) [seq [:: (tdec k m).1; (tdec k m).2] | m <- iota 0 (tri_num k)].
Proof.
apply: uniq_perm; first exact: exps_uniq.
- rewrite map_inj_in_uniq ?iota_uniq // => x y. rewrite !mem_iota /= => Hx Hy [E1 E2].
  have [_ <-] := tdec_ok Hx. have [_ <-] := tdec_ok Hy. by rewrite E1 E2.
- move=> a. rewrite exps_mem. apply/idP/mapP => [/andP [/eqP Hs Ha]|[m Hm ->]].
  + case: a Hs Ha => [|i [|j []]] //= _ Hij. have Hij' : (i + j <= k)%N by lia.
    exists (tri_idx i j); last by rewrite tdec_idx. rewrite mem_iota /=. exact: tri_idx_lt.
  + rewrite mem_iota /= in Hm. have [H _] := tdec_ok Hm. rewrite /=. lia.
Qed.
Lemma exps3_perm k : perm_eq (exps 3 k) [seq [:: (sdec k m).1.1; (sdec k m).1.2; (sdec k m).2] | m <- iota 0 (tet_num k)].
Proof.
apply: uniq_perm; first exact: exps_uniq.
- rewrite map_inj_in_uniq ?iota_uniq // => x y. rewrite !mem_iota /= => Hx Hy [E1 E2 E3].
  have [_ <-] := sdec_ok Hx. have [_ <-] := sdec_ok Hy. by rewrite E1 E2 E3.
- move=> a. rewrite exps_mem. apply/idP/mapP => [/andP [/eqP Hs Ha]|[m Hm ->]].
  + case: a Hs Ha => [|i [|j [|l []]]] //= _ Hij. have Hij' : (i + j + l <= k)%N by lia.
    exists (tet_idx i j l); last by rewrite sdec_idx. rewrite mem_iota /=. exact: tet_idx_lt.
  + rewrite mem_iota /= in Hm. have [H _] := sdec_ok Hm. rewrite /=. lia.
Qed.
Lemma exps_size sd k : (1 <= sd <= 3)%N -> size (exps sd k) = Base.binom (k + sd) sd.
Proof.
case: sd => [|[|[|[|sd]]]] // _.
- by rewrite exps1 size_map size_iota ProofsIndex.binom_1; lia.
- rewrite (perm_size (exps2_perm k)) size_map size_iota -binom2. congr Base.binom. lia.
- rewrite (perm_size (exps3_perm k)) size_map size_iota -binom3. congr Base.binom. lia.
Qed.

Section Conv.
Variable F : fieldType.
Notation poly2 := {poly {poly F}}.
Notation poly3 := {poly {poly {poly F}}}.
Lemma mono1 i (x : seq F) : mono [:: i] x = nth 0 x 0 ^+ i.
Proof. by rewrite /mono big_ord_recl big_ord0 mulr1. Qed.
Lemma mono2E i j (x : seq F) : mono [:: i; j] x = nth 0 x 0 ^+ i * nth 0 x 1 ^+ j.
Proof. by rewrite /mono !big_ord_recl big_ord0 mulr1. Qed.
Lemma mono3E i j l (x : seq F) : mono [:: i; j; l] x = nth 0 x 0 ^+ i * (nth 0 x 1 ^+ j * nth 0 x 2 ^+ l).
Proof. by rewrite /mono !big_ord_recl big_ord0 mulr1. Qed.
Definition cf1 (P : {poly F}) (a : seq nat) : F := P`_(nth 0%N a 0).
Definition cf2 (P : poly2) (a : seq nat) : F := P`_(nth 0%N a 0)`_(nth 0%N a 1).
Definition cf3 (P : poly3) (a : seq nat) : F := P`_(nth 0%N a 0)`_(nth 0%N a 1)`_(nth 0%N a 2).
Lemma pval1 k (P : {poly F}) x : (size P <= k.+1)%N -> pval 1 k (cf1 P) x = P.[nth 0 x 0].
Proof.
move=> H. rewrite /pval exps1 big_map (horner_coef_wide _ H) -(big_mkord xpredT (fun i => P`_i * nth 0 x 0 ^+ i)) /index_iota subn0.
apply: eq_bigr => i _. by rewrite mono1.
Qed.
Lemma pval2 k (P : poly2) x : deg2_le k P -> pval 2 k (cf2 P) x = ev2 P (nth 0 x 0) (nth 0 x 1).
Proof.
move=> H. rewrite /pval (perm_big _ (exps2_perm k)) /= big_map -ev2mE {2}(decomp2 H) rmorph_sum.
rewrite -(big_mkord xpredT (fun m => ev2m (nth 0 x 0) (nth 0 x 1) (emb2 F P`_(tdec k m).1`_(tdec k m).2 * ('X ^+ (tdec k m).1 * 'X%:P ^+ (tdec k m).2)))).
rewrite /index_iota subn0. apply: eq_bigr => m _. by rewrite mono2E !rmorphM !rmorphX ev2m_c ev2m_X ev2m_Y.
Qed.
Lemma pval3 k (P : poly3) x : deg3_le k P -> pval 3 k (cf3 P) x = ev3 P (nth 0 x 0) (nth 0 x 1) (nth 0 x 2).
Proof.
move=> H. rewrite /pval (perm_big _ (exps3_perm k)) /= big_map -ev3mE {2}(decomp3 H) rmorph_sum.
rewrite -(big_mkord xpredT (fun m => ev3m (nth 0 x 0) (nth 0 x 1) (nth 0 x 2) (emb3 F P`_(sdec k m).1.1`_(sdec k m).1.2`_(sdec k m).2 * ('X ^+ (sdec k m).1.1 * 'X%:P ^+ (sdec k m).1.2 * 'X%:P%:P ^+ (sdec k m).2)))).
rewrite /index_iota subn0. apply: eq_bigr => m _. by rewrite mono3E !rmorphM !rmorphX ev3m_c ev3m_X ev3m_Y ev3m_Z -!mulrA.
Qed.
(** ... and back *)
Definition p1 k (cf : seq nat -> F) : {poly F} := \poly_(i < k.+1) cf [:: i].
Definition p2 k (cf : seq nat -> F) : poly2 := \poly_(i < k.+1) \poly_(j < (k - i).+1) cf [:: i; j].
Definition p3 k (cf : seq nat -> F) : poly3 := \poly_(i < k.+1) \poly_(j < (k - i).+1) \poly_(l < (k - i - j).+1) cf [:: i; j; l].
Lemma p1K k cf a : a \in exps 1 k -> cf1 (p1 k cf) a = cf a.
Proof. rewrite exps_mem. case: a => [|i []] //= Hi. rewrite /cf1 /p1 coef_poly /=. case: ltnP => //. lia. Qed.
Lemma p2K k cf a : a \in exps 2 k -> cf2 (p2 k cf) a = cf a.
Proof.
rewrite exps_mem. case: a => [|i [|j []]] //= Hi. rewrite /cf2 /p2 coef_poly /=. case: ltnP => [_|Hlt]; last by lia.
rewrite coef_poly. case: ltnP => //. lia.
Qed.
Lemma p3K k cf a : a \in exps 3 k -> cf3 (p3 k cf) a = cf a.
Proof.
rewrite exps_mem. case: a => [|i [|j [|l []]]] //= Hi. rewrite /cf3 /p3 coef_poly /=. case: ltnP => [_|Hlt]; last by lia.
rewrite coef_poly. case: ltnP => [_|Hlt]; last by lia. rewrite coef_poly. case: ltnP => //. lia.
Qed.
Lemma p1_deg k cf j : (k.+1 <= j)%N -> (p1 k cf)`_j = 0.
Proof. move=> H. rewrite coef_poly. case: ltnP => //. lia. Qed.
Lemma p2_deg k cf : deg2_le k (p2 k cf).
Proof.
move=> i j H. rewrite coef_poly. case: ltnP => Hi; last by rewrite coef0. rewrite coef_poly. case: ltnP => //. lia.
Qed.
Lemma p3_deg k cf : deg3_le k (p3 k cf).
Proof.
move=> i j l H. rewrite coef_poly. case: ltnP => Hi; last by rewrite !coef0. rewrite coef_poly. case: ltnP => Hj; last by rewrite coef0.
rewrite coef_poly. case: ltnP => //. lia.
Qed.
Lemma pval_ext sd k (cf cf' : seq nat -> F) x : {in exps sd k, cf =1 cf'} -> pval sd k cf x = pval sd k cf' x.
Proof. move=> H. rewrite /pval !big_seq. apply: eq_bigr => a Ha. by rewrite H. Qed.
(** A polynomial of degree at most [k] that vanishes on a simplicial grid of
    [k+1] points per side is zero. *)
Lemma grid_zero sd k cf (g : nat -> F) : (1 <= sd <= 3)%N -> injective g ->
  (forall idx, size idx = sd -> (sumn idx <= k)%N -> pval sd k cf [seq g i | i <- idx] = 0) ->
  {in exps sd k, forall a, cf a = 0}.
Proof.
case: sd => [|[|[|[|sd]]]] // _ Hg H a Ha.
- rewrite -(p1K _ Ha) /cf1. have -> : p1 k cf = 0; last by rewrite coef0.
  apply: (@van1 F k.+1 _ g Hg) => [j|j Hj]; first exact: p1_deg.
  have := H [:: j] erefl. rewrite -(pval_ext _ (@p1K k cf)) pval1 /=; last by apply/leq_sizeP => i; exact: p1_deg.
  apply. lia.
- rewrite -(p2K _ Ha) /cf2. have -> : p2 k cf = 0; last by rewrite !coef0.
  apply: (@van2 F k.+1 _ g g Hg Hg) => [i j Hij|i j Hij]; first exact: p2_deg.
  have := H [:: i; j] erefl. rewrite -(pval_ext _ (@p2K k cf)) pval2 /=; last exact: p2_deg.
  apply. lia.
- rewrite -(p3K _ Ha) /cf3. have -> : p3 k cf = 0; last by rewrite !coef0.
  apply: (@van3 F k.+1 _ g g g Hg Hg Hg) => [i j l Hij|i j l Hij]; first exact: p3_deg.
  have := H [:: i; j; l] erefl. rewrite -(pval_ext _ (@p3K k cf)) pval3 /=; last exact: p3_deg.
  apply. lia.
Qed.
End Conv.
