(** C38: QuadratureElement. *)
Set Warnings "-notation-overridden,-ambiguous-paths".
From mathcomp Require Import all_ssreflect all_algebra.
From Verif Require Base ModelCell SpecCell SpecConcat ProofsTop ProofsCell.
From Verif Require Import ModelDual SpecDual ModelFunctional ModelQuadEl PropsFunctional.
Set Implicit Arguments. Unset Strict Implicit. Unset Printing Implicit Defensive.
Import Order.TTheory GRing.Theory Num.Theory.
Local Open Scope ring_scope.

Section Main.
Variable R : realFieldType.

(** The dual: one point evaluation per point, in order, all on the cell. *)
Theorem C38_dual : forall (c : ModelCell.cell) (points : seq (seq R)),
  let E := QuadratureElement c points in
  size (qe_nodes E) = size points /\
  (forall i l u, (i < size points)%N -> nth l (qe_nodes E) i = PointEvaluation (nth [::] points i) /\
     apply (nth l (qe_nodes E) i) u = fval u [::] (nth [::] points i)) /\
  SpecConcat.partitions (qe_ids E) (size points) /\
  SpecConcat.same_entities (qe_ids E) (ModelCell.topology c) /\
  SpecCell.dofs_on (qe_ids E) (ModelCell.get_dimension c, 0%N) = iota 0 (size points).
Proof.
move=> c points E. split; first by rewrite size_map. split.
{ move=> i l u Hi. rewrite (nth_map [::]) //. split=> //. have [-> _] := C26_point_evaluation (nth [::] points i) u (fun _ => 0). by []. }
split; first exact: ProofsTop.qe_partition. split; first exact: ProofsTop.qe_same.
by rewrite ProofsTop.qe_on /= ProofsTop.deqb_refl /= seqE. Qed.

Lemma tol_ge0 : 0 <= (10 ^+ 12)^-1 :> R.
Proof. by rewrite invr_ge0 exprn_ge0 // ler0n. Qed.
(** [points] agrees with the element's points up to 1e-12 in every coordinate *)
Definition close_points (ps qs : seq (seq R)) : Prop :=
  size ps = size qs /\ forall k i, `|(nth [::] ps k)`_i - (nth [::] qs k)`_i| <= (10 ^+ 12)^-1.
(** an array of points with [d] coordinates *)
Definition of_width (d : nat) (ps : seq (seq R)) : Prop := forall k, (k < size ps)%N -> size (nth [::] ps k) = d.

Lemma diffs_ok d ps qs : of_width d ps -> of_width d qs -> size ps = size qs ->
  exists ds, diffs ps qs = Base.Ok ds /\ (size ds = size qs * d)%N /\
    (forall x, x \in ds -> exists k i, [/\ (k < size qs)%N, (i < d)%N & x = (nth [::] ps k)`_i - (nth [::] qs k)`_i]) /\
    (forall k i, (k < size qs)%N -> (i < d)%N -> (nth [::] ps k)`_i - (nth [::] qs k)`_i \in ds).
Proof.
elim: ps qs => [|p ps IH] [|q qs] // Hp Hq /=; first by move=> _; exists [::]; split.
move=> [Es]. have [||ds [-> [S [H1 H2]]]] := IH qs _ _ Es; [by move=> k; apply: (Hp k.+1) | by move=> k; apply: (Hq k.+1)|].
have Sp : size p = d by apply: (Hp 0%N). have Sq : size q = d by apply: (Hq 0%N).
rewrite /row_diff Sp Sq eqxx. eexists; split; first by []. split; first by rewrite size_cat S size_map size_zip Sp Sq minnn mulSn.
split.
- move=> x. rewrite mem_cat => /orP [/mapP [[a b] Hab ->]|/H1 [k [i [? ? ->]]]]; last by exists k.+1, i.
  have [i Hi E] := nthP (0, 0) Hab. rewrite size_zip Sp Sq minnn in Hi. exists 0%N, i. split=> //=. rewrite nth_zip ?Sp // in E. by case: E => -> ->.
- move=> [|k] i Hk Hi /=; rewrite mem_cat; last by rewrite H2 ?orbT.
  apply/orP; left. apply/mapP. exists (p`_i, q`_i) => //. apply/(nthP (0, 0)). exists i; first by rewrite size_zip Sp Sq minnn. by rewrite nth_zip ?Sp. Qed.

(** Tabulating at the element's points (up to 1e-12) gives the identity matrix
    under the key (0, ..., 0); everything else is refused. *)
Theorem C38_tabulate : forall (c : ModelCell.cell) (points : seq (seq R)) order pts entity,
  let sd := ModelCell.spatial_dimension c in
  points <> [::] -> (0 < sd)%N -> of_width sd points -> of_width sd pts ->
  let E := QuadratureElement c points in
  let r := qe_tabulate E order pts entity in
  let accepted := order = 0%N /\ (entity = None \/ entity = Some (ModelCell.get_dimension c, 0%N)) /\ close_points pts points in
  (accepted -> exists T, r = Base.Ok [:: (nseq sd 0%N, T)] /\ size T = size points /\
     forall i j, (i < size points)%N -> (j < size points)%N -> size (nth [::] T i) = size points /\ (nth [::] T i)`_j = (i == j)%:R) /\
  (~ accepted -> r = Base.Err Base.ValueError \/ r = Base.Err Base.AssertionError) /\
  (order <> 0%N \/ (entity <> None /\ entity <> Some (ModelCell.get_dimension c, 0%N)) -> r = Base.Err Base.ValueError).
Proof.
move=> c points order pts entity sd Hne Hsd W1 W2 E r accepted.
pose bad := match entity with None => false | Some (d, e) => ~~ (ModelCell.deqb d (ModelCell.get_dimension c) && (e == 0%N)) end.
have Hbad : reflect (entity = None \/ entity = Some (ModelCell.get_dimension c, 0%N)) (~~ bad).
{ rewrite /bad. case: entity {r accepted bad} => [[d e]|]; last by constructor; left.
  rewrite negbK. apply: (iffP idP) => [/andP [/ProofsCell.deqb_eq -> /eqP ->]|]; first by right.
  case=> // -[-> ->]. by rewrite ProofsTop.deqb_refl. }
have Er : r = qe_tabulate E order pts entity by []. rewrite /qe_tabulate /= -/bad in Er.
split; [|split].
- case=> Ho [He [Hs Hc]]. have [ds [Ed [Sd [Hd _]]]] := diffs_ok W2 W1 Hs.
  move: Er. rewrite (negbTE (introT Hbad He)) Ho eqxx Hs eqxx /= /mismatch Ed.
  have -> : has (fun d => (10 ^+ 12)^-1 < `|d|) ds = false.
  { apply/negbTE/hasPn => x /Hd [k [i [_ _ ->]]]. by rewrite -leNgt Hc. }
  case: ds Sd Ed Hd => [S|d0 ds _ _ _ ->].
  { by exfalso; move: S => /eqP; rewrite /= eq_sym muln_eq0 => /orP [|]; [case: (points) Hne | rewrite -[_ == _]negbK -lt0n Hsd]. }
  eexists; split; first by []. split; first by rewrite size_map size_iota.
  move=> i j Hi Hj. rewrite (nth_map 0%N) ?size_iota // nth_iota // add0n size_map size_iota (nth_map 0%N) ?size_iota // nth_iota //.
- move=> Hna. rewrite Er. case: ifP => [_|/negbT/Hbad He]; first by left. case: eqP => [Ho|]; last by left. rewrite /=. case: eqP => [Hs|]; last by right.
  have [ds [Ed [Sd [Hd Hin]]]] := diffs_ok W2 W1 Hs. rewrite /= /mismatch Ed.
  case: ds Sd Ed Hd Hin => [|d0 ds] _ Ed Hd Hin; first by left. case: hasP => [_|Hh]; first by right.
  exfalso. apply: Hna. split=> //. split=> //. split=> // k i. rewrite leNgt. apply/negP => Hlt.
  case: (ltnP k (size points)) => Hk; last by move: Hlt; rewrite (nth_default [::] Hk) (@nth_default _ [::] pts) ?Hs // subrr normr0 ltNge tol_ge0.
  case: (ltnP i sd) => Hi; last by move: Hlt; rewrite [_`_i]nth_default ?W2 ?Hs // [_`_i]nth_default ?W1 // subrr normr0 ltNge tol_ge0.
  apply: Hh. eexists; [exact: (Hin k i)|exact: Hlt].
- rewrite Er. case=> [Ho|He]; first by case: ifP => // _; move/eqP: Ho => ->.
  case: ifP => // /negbT/Hbad. by case: He => H1 H2 []. Qed.

(** On a zero-dimensional cell, or without points, even the element's own points
    are refused (the maximum of an empty array). *)
Theorem C38_point_cell_refuted : forall (points : seq (seq R)),
  (forall k, nth [::] points k = [::]) -> qe_tabulate (QuadratureElement ModelCell.Point points) 0 points None = Base.Err Base.ValueError.
Proof.
move=> points H. rewrite /qe_tabulate /= eqxx /= /mismatch. have -> // : diffs points points = Base.Ok [::].
elim: points H => //= p points IH H. have /= -> := H 0%N. rewrite /row_diff eqxx IH // => k. exact: (H k.+1). Qed.

(** Points with one coordinate are broadcast against the element's: the single
    value [a] is accepted where the element's point is (a, a). *)
Theorem C38_broadcast_refuted : forall (a : R) c, exists T,
  qe_tabulate (QuadratureElement c [:: [:: a; a]]) 0 [:: [:: a]] None = Base.Ok T.
move=> a c. have E : mismatch [:: [:: a]] [:: [:: a; a]] = Base.Ok false.
{ rewrite /mismatch. have -> : diffs [:: [:: a]] [:: [:: a; a]] = Base.Ok [:: 0; 0] by rewrite /= /row_diff /= !subrr.
  congr Base.Ok. apply/hasPn => x. rewrite !inE => /orP [] /eqP ->; by rewrite normr0 -leNgt tol_ge0. }
rewrite /qe_tabulate /QuadratureElement. cbn -[mismatch]. rewrite E. eexists. reflexivity. Qed.
End Main.

Example C38_nonvacuous : let pts := [:: [:: 0; 0]; [:: 1; 0]] : seq (seq rat) in
  of_width 2 pts /\ close_points pts pts /\ ModelCell.spatial_dimension ModelCell.UFCTriangle = 2%N.
Proof. split; first by case=> [|[|]]. split; last by []. split; first by []. move=> k i. rewrite subrr normr0. exact: tol_ge0. Qed.
