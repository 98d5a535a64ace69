(** A polynomial in two variables whose second-order jets at the ends of an edge,
    and whose values and normal derivatives at enough points of the edge, vanish:
    it vanishes on the line of the edge together with its gradient. *)
Set Warnings "-notation-overridden,-ambiguous-paths".
From mathcomp Require Import all_ssreflect all_algebra zify.
From Verif Require Import FieldTac SpecJacobi ModelDual SpecDual ProofsDmatsReg SpecPoly ProofsJacobi ProofsSpace ProofsPolyClo ProofsLagLat ProofsRestr ProofsC1Uni.
Set Implicit Arguments. Unset Strict Implicit. Unset Printing Implicit Defensive.
Import GRing.Theory.
Local Open Scope ring_scope.

Section Edge.
Variable F : fieldType.
Hypothesis F0 : char_zero F.
Add Field FFc1e : (mc_field_theory F).
Variables (q : nat) (cf : seq nat -> F) (x z n : seq F).
Hypothesis Sx : size x = 2%N.
Hypothesis Sz : size z = 2%N.
Definition ed : seq F := [:: nth 0 z 0 - nth 0 x 0; nth 0 z 1 - nth 0 x 1].
Notation on t := (along 2 x ed t).
Notation D al y := (pder 2 q cf al y).
Definition grad0 (y : seq F) : Prop := D [:: 1%N; 0%N] y = 0 /\ D [:: 0%N; 1%N] y = 0.
Definition jet0 (y : seq F) : Prop := [/\ pval 2 q cf y = 0, grad0 y & [/\ D [:: 2%N; 0%N] y = 0, D [:: 1%N; 1%N] y = 0 & D [:: 0%N; 2%N] y = 0]].
Lemma on0 : on 0 = x. Proof. exact: along0. Qed.
Lemma on1 : on 1 = z.
Proof. apply: (@eq_from_nth _ 0) => [|i]; rewrite size_mkseq // => Hi. rewrite nth_mkseq // mul1r. case: i Hi => [|[|i]] //= _; by rewrite addrC subrK. Qed.
Lemma ev al t : (lpoly 2 q cf x ed al).[t] = D al (on t). Proof. exact: lpoly_ev. Qed.
Lemma der2 al : (lpoly 2 q cf x ed al)^`() = nth 0 ed 0 *: lpoly 2 q cf x ed (inc 2 al 0) + nth 0 ed 1 *: lpoly 2 q cf x ed (inc 2 al 1).
Proof. by rewrite lpoly_der !big_ord_recl big_ord0 addr0. Qed.
Definition P0 := lpoly 2 q cf x ed [:: 0%N; 0%N].
Lemma P0ev t : P0.[t] = pval 2 q cf (on t). Proof. exact: lpoly_val. Qed.
Lemma P0d t : grad0 (on t) -> P0^`().[t] = 0.
Proof. move=> [H1 H2]. by rewrite der2 hornerD !hornerZ !ev H1 H2 !mulr0 addr0. Qed.
Lemma P0dd t : jet0 (on t) -> P0^`()^`().[t] = 0.
Proof. move=> [_ _ [H1 H2 H3]]. by rewrite der2 derivD !derivZ !der2 !(hornerD, hornerZ) !ev H1 H2 H3 !(mulr0, addr0). Qed.
(** equispaced points *)
Definition fr (m k : nat) : F := k%:R / m%:R.
Lemma frs_uniq m : (0 < m)%N -> uniq (0 :: 1 :: [seq fr m k | k <- iota 1 m.-1]).
Proof.
move=> Hm. have Nm : m%:R != 0 :> F by exact: F0.
have -> : 0 :: 1 :: [seq fr m k | k <- iota 1 m.-1] = [seq fr m k | k <- 0%N :: m :: iota 1 m.-1] by rewrite /= /fr mul0r divff.
rewrite map_inj_uniq.
- rewrite /= iota_uniq inE !mem_iota andbT. apply/andP; split; lia.
- by move=> i j /(congr1 ( *%R^~ m%:R)); rewrite /fr !divfK // => /(natr_inj F0).
Qed.
Definition zs (r m : nat) : seq (F * nat) := (0, r) :: (1, r) :: [seq (fr m k, 1%N) | k <- iota 1 m.-1].
Lemma zs_uniq r m : (0 < m)%N -> uniq [seq p.1 | p <- zs r m].
Proof. move=> Hm. have := frs_uniq Hm. rewrite /zs /= -map_comp. by []. Qed.
Lemma zs_sum r m : (\sum_(p <- zs r m) p.2 = r + r + m.-1)%N.
Proof. rewrite /zs !big_cons /= big_map /= sum1_size size_iota. by rewrite addnA. Qed.
Lemma zs_in r m (P : {poly F}) : 'X ^+ r %| P -> ('X - 1%:P) ^+ r %| P -> (forall k, (0 < k < m)%N -> P.[fr m k] = 0) -> {in zs r m, forall p, ('X - p.1%:P) ^+ p.2 %| P}.
Proof.
move=> H0 H1 H p. rewrite /zs !inE => /orP [/eqP ->|/orP [/eqP ->|/mapP [k]]] //=; first by rewrite subr0.
rewrite mem_iota => Hk -> /=. rewrite expr1 dvdp_XsubCl. apply/rootP. apply: H. lia.
Qed.
Lemma edge_val : (5 <= q)%N -> jet0 x -> jet0 z -> (forall k, (0 < k < q - 4)%N -> pval 2 q cf (on (fr (q - 4) k)) = 0) -> P0 = 0.
Proof.
move=> Hq Jx Jz HV. have J0 : jet0 (on 0) by rewrite on0. have J1 : jet0 (on 1) by rewrite on1.
have T3 t : jet0 (on t) -> ('X - t%:P) ^+ 3 %| P0.
{ move=> J. apply: dvd_triple => //; [by rewrite P0ev; case: J|by apply: P0d; case: J|exact: P0dd]. }
apply: (@zeros_count _ _ (zs 3 (q - 4))); first by apply: zs_uniq; lia.
- apply: zs_in; [by have := T3 0 J0; rewrite subr0|exact: T3|by move=> k Hk; rewrite P0ev HV].
- rewrite zs_sum. apply: (leq_trans (lpoly_size _ _ _ _ _ _)). rewrite !big_ord_recl big_ord0 /=. lia.
Qed.
Definition N0 := nth 0 n 0 *: lpoly 2 q cf x ed [:: 1%N; 0%N] + nth 0 n 1 *: lpoly 2 q cf x ed [:: 0%N; 1%N].
Lemma N0ev t : N0.[t] = nth 0 n 0 * D [:: 1%N; 0%N] (on t) + nth 0 n 1 * D [:: 0%N; 1%N] (on t).
Proof. by rewrite /N0 hornerD !hornerZ !ev. Qed.
Lemma edge_nrm : (5 <= q)%N -> jet0 x -> jet0 z ->
  (forall k, (0 < k < q - 3)%N -> nth 0 n 0 * D [:: 1%N; 0%N] (on (fr (q - 3) k)) + nth 0 n 1 * D [:: 0%N; 1%N] (on (fr (q - 3) k)) = 0) -> N0 = 0.
Proof.
move=> Hq Jx Jz HV. have J0 : jet0 (on 0) by rewrite on0. have J1 : jet0 (on 1) by rewrite on1.
have T2 t : jet0 (on t) -> ('X - t%:P) ^+ 2 %| N0.
{ move=> [_ [H1 H2] [H3 H4 H5]]. apply: dvd_double; first by rewrite N0ev H1 H2 !mulr0 addr0.
  by rewrite /N0 derivD !derivZ !der2 !(hornerD, hornerZ) !ev H3 H4 H5 !(mulr0, addr0). }
apply: (@zeros_count _ _ (zs 2 (q - 3))); first by apply: zs_uniq; lia.
- apply: zs_in; [by have := T2 0 J0; rewrite subr0|exact: T2|by move=> k Hk; rewrite N0ev HV].
- rewrite zs_sum /N0. apply: (leq_trans (size_add _ _)). rewrite geq_max. apply/andP; split; apply: (leq_trans (size_scale_leq _ _)); apply: (leq_trans (lpoly_size _ _ _ _ _ _)); rewrite !big_ord_recl big_ord0 /=; lia.
Qed.
(** tangential and normal derivatives give the gradient *)
Hypothesis Hdet : nth 0 n 0 * nth 0 ed 1 - nth 0 n 1 * nth 0 ed 0 != 0.
Lemma solve2 (a b : F) : nth 0 ed 0 * a + nth 0 ed 1 * b = 0 -> nth 0 n 0 * a + nth 0 n 1 * b = 0 -> a = 0 /\ b = 0.
Proof.
move: (nth 0 ed 0) (nth 0 ed 1) (nth 0 n 0) (nth 0 n 1) Hdet => d0 d1 n0 n1 H E1 E2.
have A : (n0 * d1 - n1 * d0) * a = 0.
{ have -> : (n0 * d1 - n1 * d0) * a = d1 * (n0 * a + n1 * b) - n1 * (d0 * a + d1 * b) by fring. by rewrite E1 E2 !mulr0 subrr. }
have B : (n0 * d1 - n1 * d0) * b = 0.
{ have -> : (n0 * d1 - n1 * d0) * b = n0 * (d0 * a + d1 * b) - d0 * (n0 * a + n1 * b) by fring. by rewrite E1 E2 !mulr0 subrr. }
by split; apply/eqP; [move/eqP: A|move/eqP: B]; rewrite mulf_eq0 (negbTE H).
Qed.
Lemma edge_flat : (5 <= q)%N -> jet0 x -> jet0 z -> (forall k, (0 < k < q - 4)%N -> pval 2 q cf (on (fr (q - 4) k)) = 0) ->
  (forall k, (0 < k < q - 3)%N -> nth 0 n 0 * D [:: 1%N; 0%N] (on (fr (q - 3) k)) + nth 0 n 1 * D [:: 0%N; 1%N] (on (fr (q - 3) k)) = 0) ->
  forall t, pval 2 q cf (on t) = 0 /\ grad0 (on t).
Proof.
move=> Hq Jx Jz HV HN t. have EP := edge_val Hq Jx Jz HV. have EN := edge_nrm Hq Jx Jz HN. split; first by rewrite -P0ev EP horner0.
apply: solve2; last by rewrite -N0ev EN horner0.
have : P0^`().[t] = 0 by rewrite EP derivC horner0. by rewrite der2 hornerD !hornerZ !ev.
Qed.
End Edge.
