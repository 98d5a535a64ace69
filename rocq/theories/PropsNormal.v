(** C20: facet normals. *)
Set Warnings "-notation-overridden,-ambiguous-paths".
From mathcomp Require Import all_ssreflect all_algebra.
From Verif Require Base ModelCell.
From Verif Require Import SpecNormal ModelAffine ProofsSerPlace ModelNormal ProofsNormal.
Set Implicit Arguments. Unset Strict Implicit. Unset Printing Implicit Defensive.
Import Order.TTheory GRing.Theory Num.Theory.
Local Open Scope ring_scope.

Section C20.
Variable R : rcfType.
Notation arr := (seq (seq R)).

Lemma vdot_inner d (a b : seq R) : size a = d -> size b = d -> vdot a b = inner d a b.
Proof.
move=> Ha Hb. rewrite /vdot /inner (big_nth (0, 0)) big_mkord size_zip Ha Hb minnn.
apply: eq_bigr => j _. by rewrite nth_zip ?Ha ?Hb.
Qed.
Lemma vminus_diff d (a b : seq R) : size a = d -> size b = d -> vminus a b = diff d a b.
Proof.
move=> Ha Hb. apply: (@eq_from_nth _ 0); rewrite size_map size_zip Ha Hb minnn ?size_mkseq // => j Hj.
rewrite (nth_map (0, 0)) ?size_zip ?Ha ?Hb ?minnn // nth_zip ?Ha ?Hb //= nth_mkseq //.
Qed.
Lemma inner_diff d (n a b : seq R) : inner d n (diff d a b) = inner d n a - inner d n b.
Proof. rewrite /inner -sumrB. apply: eq_bigr => j _. by rewrite nth_mkseq // mulrBr. Qed.
Lemma inner_scale d t (n a : seq R) : inner d [seq t * x | x <- n] a = t * inner d n a.
Proof.
rewrite /inner mulr_sumr. apply: eq_bigr => j _. rewrite mulrA. congr (_ * _).
case: (ltnP j (size n)) => H; first by rewrite (nth_map 0).
by rewrite !nth_default ?size_map // mulr0.
Qed.
Lemma inner_sym d (a b : seq R) : inner d a b = inner d b a.
Proof. by apply: eq_bigr => j _; rewrite mulrC. Qed.

(** ** Specification of the inputs *)
(** the rows v_1 - v_0, v_2 - v_0, ... *)
Definition edges_from_first (d : nat) (vs : arr) : arr := [seq diff d v (head [::] vs) | v <- behead vs].
(** [S] is a simplex with d+1 vertices in d-space, d >= 2, whose facet number [i]
    has the d distinct vertices [facet] *)
Definition has_facet (S : simplex R) (i : nat) (facet : seq nat) : Prop :=
  let d := s_dim S in
  [/\ s_line S = false, (2 <= d)%N, has_shape d.+1 d (s_verts S), entity S (d - 1) i = Ok facet &
   exists cell, entity S d 0 = Ok cell /\ perm_eq cell (iota 0 d.+1)] /\
  [/\ uniq facet, size facet = d & all (fun v => v < d.+1)%N facet].

Lemma undup_diff d (cell facet : seq nat) : perm_eq cell (iota 0 d.+1) -> uniq facet -> size facet = d -> all (fun v => v < d.+1)%N facet ->
  exists off, undup [seq v <- cell | v \notin facet] = [:: off] /\ forall v, (v < d.+1)%N -> (v \in facet) || (v == off).
Proof.
move=> Hp Hu Hs Ha.
have Hc : uniq cell by rewrite (perm_uniq Hp) iota_uniq.
have Hn : size [seq v <- cell | v \notin facet] = 1%N.
{ have := count_predC (mem facet) cell. rewrite (perm_size Hp) size_iota.
  have -> : count (mem facet) cell = d.
  { rewrite -size_filter -Hs. apply: perm_size. apply: uniq_perm; rewrite ?filter_uniq // => v.
    rewrite mem_filter /= (perm_mem Hp) mem_iota. case Hv: (v \in facet) => //=. exact: (allP Ha v Hv). }
  rewrite size_filter -(addn1 d). by move/addnI. }
rewrite undup_id ?filter_uniq //. move: Hn. case E: [seq v <- cell | v \notin facet] => [|off [|//]] // _. exists off. split=> // v Hv.
case Hf: (v \in facet) => //=. have : v \in [:: off] by rewrite -E mem_filter Hf /= (perm_mem Hp) mem_iota.
by rewrite inE.
Qed.

Lemma conditioned_unit d (M : arr) : well_conditioned d d M -> mx d d M \in unitmx.
Proof.
move=> Hw. rewrite -row_free_unit -kermx_eq0. apply/eqP/row_matrixP => i. rewrite row0. set x := row i _.
have Hx : x *m mx d d M = 0 by rewrite /x -row_mul mulmx_ker row0.
apply/eqP; apply: contraT => Hn. pose t := (x *m x^T) 0 0.
have Et : t = \sum_(k < d) x 0 k ^+ 2.
{ rewrite /t mxE. apply: eq_bigr => k _. by rewrite [X in _ * X]mxE expr2. }
have Ht : 0 < t.
{ rewrite Et lt_neqAle. apply/andP; split.
  - apply: contra Hn => /eqP/esym Hs. apply/eqP/rowP => j. rewrite [RHS]mxE. apply/eqP. rewrite -sqrf_eq0. apply/eqP.
    by apply: (psumr_eq0P (F := fun k => x 0 k ^+ 2)) Hs j isT => k _; apply: sqr_ge0.
  - apply: sumr_ge0 => k _. exact: sqr_ge0. }
have := Hw ((Num.sqrt t)^-1 *: x). rewrite linearZ /= -!scalemxAl -scalemxAr scalerA Hx !scaler0 mul0mx mxE (mxE _ _ 0 0) => H.
have : (10 ^+ 10) ^- 2 < 0 :> R.
{ rewrite -[X in _ < X](_ : (Num.sqrt t)^-1 * (0 : R) = 0); last exact: mulr0. apply: H. apply: mx11. rewrite mxE -/t [RHS]mxE eqxx -invfM -expr2 sqr_sqrtr ?ltW // mulVf // gt_eqF //. }
by rewrite ltNge invr_ge0 !exprn_ge0 // ler0n.
Qed.

Variables (svd : arr -> arr * seq R * arr) (qr : arr -> arr * arr) (pop : seq nat -> nat).
Hypotheses (Hsvd : svd_correct svd) (Hqr : qr_correct qr) (Hpop : pop_correct pop).

(** [Simplex.compute_normal]: on a simplex that is not too flat the result is a
    unit vector, orthogonal to the facet, pointing out of the simplex. *)
Theorem C20_simplex_normal (S : simplex R) (i : nat) (facet : seq nat) : has_facet S i facet ->
  let d := s_dim S in let vs := s_verts S in
  well_conditioned d d (edges_from_first d vs) ->
  well_conditioned (d - 1) d (edges_from_first d [seq nth [::] vs v | v <- facet]) ->
  exists n, [/\ compute_normal svd qr pop S i = Ok n, orthogonal_to d vs facet n, inner d n n = 1 & points_outward d vs facet n].
Proof.
move=> [[Hl Hd Hv Hent [cell [Hcell Hperm]]] [Hu Hs Ha]] d vs W1 W2. rewrite -/d -/vs in Hd Hv Hent Hcell Hperm Hs Ha *.
have [off [Hoff Hcov]] := undup_diff Hperm Hu Hs Ha.
have d0 : (0 < d)%N by apply: leq_trans Hd.
have Hsz : forall v, (v < d.+1)%N -> size (nth [::] vs v) = d by move=> v Hvv; apply: (shape_row Hv).
rewrite /compute_normal Hl -/d -/vs.
set foo := [seq vminus v (head [::] vs) | v <- behead vs].
have Hh : head [::] vs = nth [::] vs 0 by rewrite nth0.
have Efoo : foo = edges_from_first d vs.
{ apply/eq_in_map => v Hvv. apply: vminus_diff; last by rewrite Hh Hsz. apply: (proj2 Hv). exact: mem_behead. }
have Sfoo : has_shape d d foo.
{ split; first by rewrite size_map size_behead (proj1 Hv). rewrite Efoo => r /mapP [v _ ->]. by rewrite size_mkseq. }
move: (Hsvd d0 d0 Sfoo). case: (svd foo) => [[u s] vt] K1.
rewrite (svd_large K1 (leqnn d)) ?Efoo //. have [[Su _ _ _] _] := K1.
have -> : [seq take d r | r <- u] = u. { rewrite -[RHS]map_id. apply/eq_in_map => r Hr. by rewrite take_oversize // (proj2 Su). }
rewrite Hent /= /subcomplex -/vs (proj1 Hv) Ha /=.
set vcf := [seq nth [::] vs v | v <- facet].
have Svcf : forall r, r \in vcf -> size r = d. { move=> r /mapP [v Hvv ->]. apply: Hsz. exact: (allP Ha). }
set span := [seq vminus v (head [::] vcf) | v <- behead vcf].
have Hf0 : facet != [::] by rewrite -size_eq0 Hs -lt0n.
have Hhc : head [::] vcf \in vcf by rewrite /vcf; case: (facet) Hf0 => // a l _; rewrite /= mem_head.
have Espan : span = edges_from_first d vcf.
{ apply/eq_in_map => v Hvv. apply: vminus_diff; apply: Svcf => //. exact: mem_behead. }
have Sspan : has_shape (d - 1) d span.
{ split; first by rewrite size_map size_behead size_map Hs subn1. rewrite Espan => r /mapP [v _ ->]. by rewrite size_mkseq. }
have dk : d = (d - 1).+1 by rewrite subn1 prednK.
have d1 : (0 < d - 1)%N by rewrite subn_gt0.
move: (Hsvd d1 d0 Sspan). case: (svd span) => [[uf sf] vft] K2.
rewrite (svd_large K2 (leq_subr 1 d)) ?Espan //.
have K2' : is_svd (d - 1) (d - 1).+1 span (uf, sf, vft) by rewrite -dk.
have [Hw1 Hw2 Hw3] := svd_null K2'. set w := nth [::] vft (d - 1) in Hw1 Hw2 Hw3.
have Svft : size vft = d by have [[_ [] ]] := K2.
have -> : drop (d - 1) vft = [:: w].
{ rewrite (drop_nth [::]) ?Svft ?subn1 ?prednK //. by rewrite drop_oversize ?Svft // /w subn1. }
have -> : transpose d [:: w] = [seq [:: x] | x <- w].
{ apply: (@eq_from_nth _ [::]); rewrite !size_map size_iota; first by rewrite Hw1.
  move=> j Hj. rewrite (nth_map 0%N) ?size_iota // nth_iota //= (nth_map 0) // Hw1 -dk //. }
rewrite -dk in Hw1 Hw2.
have [t [Ht ->]] := intersection_line d0 Hsvd Hqr Hw1 Hw2 Su. rewrite /=.
have Hw0 : w != [::] by rewrite -size_eq0 Hw1 -lt0n.
have -> : ncols [seq [:: t * x] | x <- w] = 1%N by case: (w) Hw0. rewrite /= Hcell /= Hoff -map_comp.
set nf := [seq _ | x <- w].
have Enf : nf = [seq t * x | x <- w] by [].
have Snf : size nf = d by rewrite size_map.
have Nnf : inner d nf nf = 1. { by rewrite Enf inner_scale inner_sym inner_scale mulrA Ht mul1r. }
have Hflat : forall a, a \in facet -> inner d nf (nth [::] vs a) = inner d nf (head [::] vcf).
{ move=> a Haf. apply/eqP. rewrite -subr_eq0 -inner_diff. apply/eqP. rewrite Enf inner_scale.
  have [->|] : nth [::] vs a = head [::] vcf \/ nth [::] vs a \in behead vcf.
  { have : nth [::] vs a \in vcf by apply: map_f. rewrite /vcf. case: (facet) => // b l /=. rewrite inE => /orP [/eqP ->|]; [by left|by right]. }
  - rewrite inner_diff subrr mulr0 //.
  - case/(nthP [::]) => k Hk <-. rewrite size_behead size_map Hs -subn1 in Hk. rewrite inner_sym.
    have := Hw3 k Hk. rewrite -/(inner _ _ _) Espan /edges_from_first (nth_map [::]) ?size_behead ?size_map ?Hs -?subn1 // -dk => ->. by rewrite mulr0. }
have Hdot : vdot (vminus (nth [::] vs (pop facet)) (nth [::] vs off)) nf = inner d nf (nth [::] vs (pop facet)) - inner d nf (nth [::] vs off).
{ have Hoffin : (off < d.+1)%N.
  { have : off \in undup [seq v <- cell | v \notin facet] by rewrite Hoff mem_head. rewrite mem_undup mem_filter (perm_mem Hperm) mem_iota. by case/andP. }
  have Hon : (pop facet < d.+1)%N by apply: (allP Ha); apply: Hpop.
  rewrite (vminus_diff (Hsz _ Hon) (Hsz _ Hoffin)) (@vdot_inner d) ?size_mkseq // inner_sym inner_diff //. }
have Hoffv : forall b, b \notin facet -> (b < size vs)%N -> b = off.
{ move=> b Hb. rewrite (proj1 Hv) => Hb'. have := Hcov b Hb'. by rewrite (negbTE Hb) /= => /eqP. }
have Hne : inner d nf (head [::] vcf) - inner d nf (nth [::] vs off) != 0.
{ apply/negP => /eqP H0. have Hall : forall v, (v < d.+1)%N -> inner d nf (nth [::] vs v) = inner d nf (head [::] vcf).
  { move=> v Hvv. case/orP: (Hcov v Hvv) => [|/eqP ->]; first exact: Hflat. apply/eqP. by rewrite eq_sym -subr_eq0 H0. }
  have HM : mx d d foo *m \col_j nth 0 nf j = 0.
  { apply/colP => a. rewrite mxE [RHS]mxE. have Hin : inner d nf (nth [::] foo a) = 0.
    { rewrite Efoo /edges_from_first (nth_map [::]) ?size_behead ?(proj1 Hv) //= inner_diff nth_behead Hh !Hall ?subrr //. by rewrite ltnS. }
    rewrite -[RHS]Hin. apply: eq_bigr => j _. by rewrite !mxE mulrC. }
  have HU : mx d d foo \in unitmx by apply: conditioned_unit; rewrite Efoo.
  have Hz : \col_(j < d) nth 0 nf j = 0 by rewrite -[LHS](mulKmx HU) HM mulmx0.
  have : inner d nf nf = 0. { rewrite /inner big1 // => j _. have := congr1 (fun X : 'cV_d => X j 0) Hz. rewrite !mxE => ->. by rewrite mul0r. }
  rewrite Nnf => /eqP. by rewrite oner_eq0. }
have Hpf : inner d nf (nth [::] vs (pop facet)) = inner d nf (head [::] vcf) by apply: Hflat; apply: Hpop.
rewrite Hdot Hpf. case: ifP => Hsign; eexists; split; try reflexivity.
- split=> // a b Haf Hbf. by rewrite inner_diff !Hflat // subrr.
- by [].
- move=> a b Haf Hbf Hbs. by rewrite (Hoffv b Hbf Hbs) inner_diff Hflat.
- split; first by rewrite size_map. move=> a b Haf Hbf. by rewrite inner_scale inner_diff !Hflat // subrr mulr0.
- by rewrite inner_scale inner_sym inner_scale Nnf mulr1 mulrNN mulr1.
- move=> a b Haf Hbf Hbs. rewrite (Hoffv b Hbf Hbs) inner_scale inner_diff Hflat // mulN1r oppr_gt0 lt_neqAle Hne /=.
  by rewrite leNgt Hsign.
Qed.
End C20.
