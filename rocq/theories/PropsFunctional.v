(** C26: what the functional classes do to a function. *)
Set Warnings "-notation-overridden,-ambiguous-paths".
From mathcomp Require Import all_ssreflect all_algebra.
From Verif Require Base ModelIndex.
From Verif Require Import FieldTac ModelDual SpecDual ModelFunctional SpecFunctional.
Set Implicit Arguments. Unset Strict Implicit. Unset Printing Implicit Defensive.
Import GRing.Theory.
Local Open Scope ring_scope.

Lemma seqE a n : List.seq a n = iota a n. Proof. by elim: n a => //= n IH a; rewrite IH. Qed.
Lemma mapE A B (f : A -> B) l : List.map f l = map f l. Proof. by elim: l => //= x l ->. Qed.
Lemma flat_mapE A B (f : A -> seq B) l : List.flat_map f l = flatten [seq f x | x <- l]. Proof. by elim: l => //= x l ->. Qed.

Section Build.
Variables (F : fieldType) (V : Type).
Implicit Types (items d : seq (seq F * V)).
Lemma dset_new k v d : k \notin [seq kv.1 | kv <- d] -> dset k v d = rcons d (k, v).
Proof.
elim: d => //= -[k' v'] d IH. rewrite inE negb_or => /andP [/negbTE H1 H2]. by rewrite H1 IH. Qed.
Lemma build_acc items d : uniq [seq kv.1 | kv <- d ++ items] -> foldl (fun d kv => dset kv.1 kv.2 d) d items = d ++ items.
Proof.
elim: items d => [|[k v] items IH] d /=; first by rewrite cats0.
rewrite map_cat cat_uniq /= negb_or => /and4P [H1 /andP[H2 H3] H4 H5]. rewrite dset_new //. rewrite IH ?cat_rcons //.
by rewrite map_cat cat_uniq /= negb_or H1 H2 H3 H4 H5. Qed.
Lemma build_uniq items : uniq [seq kv.1 | kv <- items] -> build items = items.
Proof. by move=> H; rewrite /build (build_acc (d := [::])). Qed.
End Build.

Section Main.
Variable F : fieldType.
Add Field FF_functional : (mc_field_theory F).
Notation func := (func F [eqType of seq F]).
Implicit Types (u : func) (Q : rule F) (g : geometry F).

Lemma sum_iota n (G : nat -> F) : \sum_(i <- iota 0 n) G i = \sum_(i < n) G i.
Proof. by rewrite -[in iota _ _](subn0 n) -/(index_iota 0 n) big_mkord. Qed.
Lemma apply_pt shp d u : apply (mkFunctional shp d [::]) u = \sum_(pw <- d) \sum_(wc <- pw.2) wc.1 * fval u wc.2 pw.1.
Proof. by rewrite /apply /= big_nil addr0. Qed.
Lemma apply_der shp d u : apply (mkFunctional shp [::] d) u = \sum_(pw <- d) \sum_(wac <- pw.2) wac.1.1 * fder u wac.2 wac.1.2 pw.1.
Proof. by rewrite /apply /= big_nil add0r. Qed.

(** dictionaries filled by a loop over the points *)
Lemma build_points V Q (m : seq F -> seq F) (G : nat -> V) : good_rule Q m ->
  build [seq (m (nth [::] (qpts Q) k), G k) | k <- iota 0 (size (qpts Q))] =
  [seq (m (nth [::] (qpts Q) k), G k) | k <- iota 0 (size (qpts Q))].
Proof.
case=> _ Hu. apply: build_uniq. rewrite -map_comp.
rewrite (_ : map _ _ = map m (qpts Q)) //. rewrite -[in RHS](mkseq_nth [::] (qpts Q)) /mkseq -map_comp. exact: eq_map. Qed.
Lemma moment_dictE V W (w0 : W) Q m (f : seq F -> W) (entry : F -> W -> V) : good_rule Q m ->
  moment_dict m Q [seq f x | x <- qpts Q] entry =
  [seq (m (nth [::] (qpts Q) k), entry (qwts Q)`_k (f (nth [::] (qpts Q) k))) | k <- iota 0 (size (qpts Q))].
Proof.
move=> HQ. case: (HQ) => Hs Hu. rewrite /moment_dict -(build_points _ HQ). congr build.
set xs := qpts Q in Hs *. set ws := qwts Q in Hs *.
have S1 : size (zip (map m xs) ws) = size xs by rewrite size_zip size_map Hs minnn.
apply: (@eq_from_nth _ ([::], entry 0 w0)); first by rewrite !size_map size_zip S1 size_map minnn size_iota.
move=> k. rewrite size_map size_zip S1 size_map minnn => Hk.
rewrite (nth_map ([::], 0, w0)); last by rewrite size_zip S1 size_map minnn.
rewrite (nth_map 0%N) ?size_iota // nth_iota // add0n.
by rewrite nth_zip ?S1 ?size_map // nth_zip ?size_map ?Hs //= !(nth_map [::]). Qed.
Lemma sum_points Q (G : nat -> F) (h : seq F -> F) : (forall k, (k < size (qpts Q))%N -> G k = (qwts Q)`_k * h (nth [::] (qpts Q) k)) ->
  \sum_(i <- iota 0 (size (qpts Q))) G i = quad Q h.
Proof. by move=> H; rewrite sum_iota /quad; apply: eq_bigr => k _; apply: H. Qed.
Lemma index2 n (G : seq nat -> F) : \sum_(ij <- ModelIndex.index_iterator [:: n; n]) G ij = \sum_(i < n) \sum_(j < n) G [:: val i; val j].
Proof.
rewrite /ModelIndex.index_iterator flat_mapE /Base.range !seqE !PeanoNat.Nat.sub_0_r big_flatten /= big_map sum_iota.
apply: eq_bigr => i _. by rewrite !mapE -map_comp big_map sum_iota. Qed.

(** *** Point functionals *)
Theorem C26_point_evaluation : forall (x : seq F) u (fn : seq F -> F),
  apply (PointEvaluation x) u = fval u [::] x /\ call_PointEvaluation (PointEvaluation x) fn = Some (fn x).
Proof. move=> x u fn. split=> //. by rewrite apply_pt !big_seq1 mul1r. Qed.

Theorem C26_component_point_evaluation : forall (c : int) (shp : seq nat) (x : seq F) u,
  match ComponentPointEvaluation c shp x with
  | Base.Ok l => exists n i, [/\ shp = [:: n], c = Posz i, (i < n)%N & apply l u = fval u [:: i] x]
  | Base.Err e => e = Base.PlainException /\ ~ exists n i, [/\ shp = [:: n], c = Posz i & (i < n)%N]
  end.
Proof.
move=> c shp x u. rewrite /ComponentPointEvaluation. case: ifP => [/negP H|/negbFE H].
{ split=> //. case=> n [i [E _ _]]. by rewrite E in H. }
case: shp H => [|n [|]] //= _. case: ifP => [/orP H|/negbT].
{ split=> //. case=> n' [i [[<-] E Hi]]. rewrite E in H. case: H; first by []. by rewrite lez_nat leqNgt Hi. }
rewrite negb_or -Order.TotalTheory.leNgt -Order.TotalTheory.ltNge => /andP [H1 H2]. case: c H1 H2 => // i _ Hi. exists n, i. split=> //.
by rewrite apply_pt !big_seq1 mul1r. Qed.

Theorem C26_point_derivative : forall (x : seq F) (a : seq nat) u, apply (PointDerivative x a) u = fder u [::] a x.
Proof. by move=> x a u; rewrite apply_der !big_seq1 mul1r. Qed.

Theorem C26_point_normal_derivative : forall g facet (x : seq F) u,
  apply (PointNormalDerivative g facet x) u = along (sd g) (normal g facet) u x.
Proof. by move=> g f x u; rewrite apply_der big_seq1 big_map sum_iota. Qed.

(** normal, edge tangent, face tangent and scaled normal components at a point *)
Theorem C26_point_components : forall g k t (x : seq F) u,
  apply (PointNormalEvaluation g k x) u = component_along (sd g) (normal g k) u x /\
  apply (PointScaledNormalEvaluation g k x) u = component_along (sd g) (scaled_normal g k) u x /\
  apply (PointEdgeTangentEvaluation g k x) u = component_along (sd g) (edge_tangent g k) u x /\
  apply (PointFaceTangentEvaluation g k t x) u = component_along (sd g) (face_tangents g k t) u x.
Proof. move=> g k t x u. rewrite !apply_pt !big_seq1 /against /= !big_map !sum_iota. by []. Qed.

(** The weights are those of [w v^T], so in general the value is w^T u v; on the
    symmetric fields the class is documented for, that is v^T u w. *)
Theorem C26_pointwise_inner_product : forall g (v w p : seq F) u,
  apply (PointwiseInnerProductEvaluation g v w p) u = bilinear (sd g) w v u p /\
  ((forall i j, fval u [:: i; j] p = fval u [:: j; i] p) ->
   apply (PointwiseInnerProductEvaluation g v w p) u = bilinear (sd g) v w u p).
Proof.
move=> g v w p u. have E : apply (PointwiseInnerProductEvaluation g v w p) u = bilinear (sd g) w v u p.
{ rewrite apply_pt big_seq1 big_map index2. apply: eq_bigr => i _. apply: eq_bigr => j _ /=. by rewrite mulrAC. }
split=> // H. rewrite E /bilinear exchange_big /=. apply: eq_bigr => j _. apply: eq_bigr => i _. rewrite (H (val i) (val j)). move: (fval _ _ _) => ?. fring. Qed.

(** *** Integral moments against tabulated functions *)
Theorem C26_integral_moment : forall Q (f : seq F -> F) c shp u, good_rule Q id ->
  exists l, IntegralMoment Q [seq f x | x <- qpts Q] c shp = Base.Ok l /\ target_shape l = shp /\
    apply l u = quad Q (fun x => f x * fval u c x).
Proof.
move=> Q f c shp u HQ. case: (HQ) => Hs _. rewrite /IntegralMoment size_map Hs !ltnn /=. eexists; split; first by []. split=> //.
rewrite apply_pt (build_points (m := id) _ HQ) big_map. apply: sum_points => k Hk. by rewrite big_seq1 /= (nth_map [::]) // mulrA. Qed.

(** calling the moment of a scalar function gives the same value *)
Theorem C26_integral_moment_call : forall Q (f fn : seq F -> F) shp, good_rule Q id ->
  exists l, IntegralMoment Q [seq f x | x <- qpts Q] [::] shp = Base.Ok l /\
    call_IntegralMoment_scalar l fn = quad Q (fun x => f x * fn x).
Proof.
move=> Q f fn shp HQ. case: (HQ) => Hs _. rewrite /IntegralMoment size_map Hs !ltnn /=. eexists; split; first by [].
rewrite /call_IntegralMoment_scalar /moment_weights /= (build_points (m := id) _ HQ) -!map_comp /dot zip_map big_map. apply: sum_points => k Hk.
by rewrite /= (nth_map [::]) // mulrC mulrA. Qed.

Theorem C26_normal_derivative_moment : forall g facet Q (f : seq F -> F) u, good_rule Q (transform g (sd g).-1 facet) ->
  apply (IntegralMomentOfNormalDerivative g facet Q [seq f x | x <- qpts Q]) u =
  quad Q (fun x => f x * along (sd g) (normal g facet) u (transform g (sd g).-1 facet x)).
Proof.
move=> g facet Q f u HQ. rewrite apply_der (build_points _ HQ) big_map. apply: sum_points => k Hk.
rewrite big_map /= (nth_map [::]) // sum_iota /along !mulr_sumr. apply: eq_bigr => i _. rewrite /d1 /e_. move: (fder _ _ _ _) (f _) => ? ?. do 2 move: (nth 0 _ _) => ?. fring. Qed.

Theorem C26_divergence_moment : forall g Q (f : seq F -> F) u, good_rule Q id ->
  apply (IntegralMomentOfDivergence g Q [seq f x | x <- qpts Q]) u = quad Q (fun x => f x * divergence (sd g) u x).
Proof.
move=> g Q f u HQ. rewrite apply_der (build_points (m := id) _ HQ) big_map. apply: sum_points => k Hk.
rewrite big_map /= (nth_map [::]) // sum_iota /divergence !mulr_sumr. apply: eq_bigr => i _. by rewrite mulrA. Qed.

(** in two dimensions: the divergence is taken row by row *)
Theorem C26_tensor_divergence_moment : forall g Q (f0 f1 : seq F -> F) u, good_rule Q id -> sd g = 2%N ->
  exists l, IntegralMomentOfTensorDivergence g Q [:: [seq f0 x | x <- qpts Q]; [seq f1 x | x <- qpts Q]] = Base.Ok l /\
    apply l u = quad Q (fun x => f0 x * (d1 2 [:: 0; 0]%N 0 u x + d1 2 [:: 0; 1]%N 1 u x) +
                                 f1 x * (d1 2 [:: 1; 0]%N 0 u x + d1 2 [:: 1; 1]%N 1 u x)).
Proof.
move=> g Q f0 f1 u HQ Hg. rewrite /IntegralMomentOfTensorDivergence /= !size_map !eqxx /= Hg /=. eexists; split; first by [].
rewrite apply_der (build_points (m := id) _ HQ) big_map. apply: sum_points => k Hk.
rewrite !big_cons big_nil /= !(nth_map [::]) // /d1 /e_ /=. do 4 move: (fder _ _ _ _) => ?. fring. Qed.

Theorem C26_frobenius_moment : forall Q n (f : seq nat -> seq F -> F) u, good_rule Q id ->
  (exists l, FrobeniusIntegralMoment Q [:: n] (size (qpts Q)) (fun c => [seq f c x | x <- qpts Q]) = Base.Ok l /\
    target_shape l = [:: n] /\
    apply l u = quad Q (fun x => \sum_(i < n) f [:: val i] x * fval u [:: val i] x)) /\
  (exists l, FrobeniusIntegralMoment Q [:: n; n] (size (qpts Q)) (fun c => [seq f c x | x <- qpts Q]) = Base.Ok l /\
    target_shape l = [:: n; n] /\
    apply l u = quad Q (fun x => \sum_(i < n) \sum_(j < n) f [:: val i; val j] x * fval u [:: val i; val j] x)) /\
  (forall nq shp v, nq <> size (qpts Q) -> FrobeniusIntegralMoment Q shp nq v = Base.Err Base.PlainException).
Proof.
move=> Q n f u HQ. rewrite /FrobeniusIntegralMoment eqxx /=. split; [|split].
- eexists; split; first by []. split=> //. rewrite apply_pt (build_points (m := id) _ HQ) big_map. apply: sum_points => k Hk.
  rewrite big_map /= mapE /Base.range seqE PeanoNat.Nat.sub_0_r big_map sum_iota !mulr_sumr. apply: eq_bigr => i _. by rewrite (nth_map [::]) // mulrA.
- eexists; split; first by []. split=> //. rewrite apply_pt (build_points (m := id) _ HQ) big_map. apply: sum_points => k Hk.
  rewrite big_map -/(ModelIndex.index_iterator [:: n; n]) index2 !mulr_sumr. apply: eq_bigr => i _. rewrite !mulr_sumr. apply: eq_bigr => j _. by rewrite /= (nth_map [::]) // mulrA.
- move=> nq shp v /eqP H. by rewrite eq_sym H. Qed.

(** facet and edge moments of normal and tangential components *)
Theorem C26_component_moments : forall g Q (phi : seq F -> F) k u,
  let facet_map := transform g (sd g).-1 k in let edge_map := transform g 1 k in
  let tab := [seq phi x | x <- qpts Q] in
  (good_rule Q edge_map ->
   apply (IntegralMomentOfEdgeTangentEvaluation g Q tab k) u = quad Q (fun x => phi x * component_along (sd g) (edge_tangent g k) u (edge_map x))) /\
  (good_rule Q facet_map ->
   apply (IntegralMomentOfScaledNormalEvaluation g Q tab k) u = quad Q (fun x => phi x * component_along (sd g) (scaled_normal g k) u (facet_map x)) /\
   apply (IntegralMomentOfNormalEvaluation g Q tab k) u = quad Q (fun x => phi x * component_along (sd g) (scaled_normal g k) u (facet_map x)) /\
   (sd g = 2%N -> exists l, IntegralMomentOfTangentialEvaluation g Q tab k = Base.Ok l /\
      apply l u = quad Q (fun x => phi x * component_along 2 (edge_tangent g k) u (facet_map x)))) /\
  (sd g <> 2%N -> IntegralMomentOfTangentialEvaluation g Q tab k = Base.Err Base.AssertionError).
Proof.
move=> g Q phi k u fm em tab.
have G m v : good_rule Q m -> apply (mkFunctional [:: sd g] (moment_dict m Q tab (scaled_against v (sd g))) [::]) u = quad Q (fun x => phi x * component_along (sd g) v u (m x)).
{ move=> HQ. rewrite apply_pt (moment_dictE 0 _ _ HQ) big_map. apply: sum_points => j Hj.
  rewrite big_map sum_iota /component_along !mulr_sumr /=. apply: eq_bigr => i _. by rewrite !mulrA. }
split; first by move=> H; exact: G. split; last by rewrite /IntegralMomentOfTangentialEvaluation => /eqP ->.
move=> H. split; first exact: G. split; first exact: G. move=> E. rewrite /IntegralMomentOfTangentialEvaluation. have -> : (sd g != 2%N) = false by rewrite E.
eexists; split; first by []. rewrite (G _ _ H). by rewrite {1}E. Qed.

Theorem C26_monk_moment : forall g Q (phi : seq F -> seq F) facet u, good_rule Q (transform g (sd g).-1 facet) ->
  apply (MonkIntegralMoment g Q [seq phi x | x <- qpts Q] facet) u =
  quad Q (fun x => component_along (sd g) (phi x) u (transform g (sd g).-1 facet x)).
Proof.
move=> g Q phi facet u HQ. rewrite apply_pt (moment_dictE [::] _ _ HQ) big_map. apply: sum_points => j Hj.
rewrite big_map sum_iota /component_along !mulr_sumr. apply: eq_bigr => i _. by rewrite mulrA. Qed.

(** The face tangent moment in three dimensions: (v x n) . (p x n). *)
Theorem C26_face_tangent_moment : forall g Q (p0 p1 p2 : seq F -> F) facet u,
  good_rule Q (transform g (sd g).-1 facet) ->
  apply (IntegralMomentOfFaceTangentEvaluation g Q (size (qpts Q)) [:: [seq p0 x | x <- qpts Q]; [seq p1 x | x <- qpts Q]; [seq p2 x | x <- qpts Q]] facet) u =
  quad Q (fun x => dot3 (cross (vec3 u (transform g (sd g).-1 facet x)) (scaled_normal g facet))
                        (cross [:: p0 x; p1 x; p2 x] (scaled_normal g facet))).
Proof.
move=> g Q p0 p1 p2 facet u HQ. rewrite apply_pt /=.
have -> : [seq [:: [seq p0 x | x <- qpts Q]`_i; [seq p1 x | x <- qpts Q]`_i; [seq p2 x | x <- qpts Q]`_i] | i <- iota 0 (size (qpts Q))] =
  [seq [:: p0 x; p1 x; p2 x] | x <- qpts Q].
{ rewrite -[in RHS](mkseq_nth [::] (qpts Q)) /mkseq -map_comp. apply/eq_in_map => i. rewrite mem_iota /= add0n => Hi. by rewrite /= !(nth_map [::]). }
rewrite (moment_dictE [::] _ _ HQ) big_map. apply: sum_points => k Hk.
rewrite /face_tangent_entry !big_cons big_nil /dot3 /cross /vec3 /=. do 3 move: (fval _ _ _) => ?. set n0 := (scaled_normal _ _)`_0. set n1 := (scaled_normal _ _)`_1. set n2 := (scaled_normal _ _)`_2. fring. Qed.

(** *** Legendre moments *)
Theorem C26_legendre_directional_moment : forall g Q entity mom_deg u, good_rule Q (transform g 1 entity) ->
  let moment s := quad Q (fun x => legval mom_deg (2 * head 0 x - 1) * component_along 2 s u (transform g 1 entity x)) in
  (sd g = 2%N ->
   (exists l, IntegralLegendreNormalMoment g entity mom_deg Q = Base.Ok l /\ apply l u = moment (scaled_normal g entity)) /\
   (exists l, IntegralLegendreTangentialMoment g entity mom_deg Q = Base.Ok l /\ apply l u = moment (edge_tangent g entity))) /\
  (sd g <> 2%N -> IntegralLegendreNormalMoment g entity mom_deg Q = Base.Err Base.AssertionError /\
                  IntegralLegendreTangentialMoment g entity mom_deg Q = Base.Err Base.AssertionError).
Proof.
move=> g Q ent md u HQ mom. rewrite /IntegralLegendreNormalMoment /IntegralLegendreTangentialMoment /IntegralLegendreDirectionalMoment. split; last by move=> /eqP ->.
move=> ->. rewrite eqxx /=. split; (eexists; split; first by []); rewrite apply_pt (build_points _ HQ) big_map; apply: sum_points => k Hk;
rewrite !big_cons big_nil /component_along !big_ord_recl big_ord0 /leg_at /=; move: (legval _ _) => ?; do 2 move: (fval _ _ _) => ?; do 3 move: (nth 0 _ _) => ?; fring. Qed.

Theorem C26_legendre_bidirectional_moment : forall g Q entity mom_deg u, good_rule Q (transform g (sd g).-1 entity) ->
  let moment s1 s2 := volume_of g 1 entity ^+ 2 *
    quad Q (fun x => legval mom_deg (2 * head 0 x - 1) * bilinear (sd g) s1 s2 u (transform g (sd g).-1 entity x)) in
  apply (IntegralLegendreNormalNormalMoment g entity mom_deg Q) u = moment (normal g entity) (normal g entity) /\
  apply (IntegralLegendreNormalTangentialMoment g entity mom_deg Q) u = moment (normal g entity) (unit_tangent g entity).
Proof.
move=> g Q ent md u HQ mom.
have G s1 s2 : apply (IntegralLegendreBidirectionalMoment g s1 s2 ent md Q) u = mom s1 s2.
{ rewrite apply_pt (build_points _ HQ) big_map /mom /quad mulr_sumr sum_iota. apply: eq_bigr => k _.
  rewrite big_map index2 /bilinear !mulr_sumr. apply: eq_bigr => i _. rewrite !mulr_sumr. apply: eq_bigr => j _ /=. rewrite /leg_at.
  set L := legval _ _. set v := volume_of _ _ _. move: (fval _ _ _) => ?. fring. }
by split; apply: G. Qed.
End Main.

(** *** Where the documented value is not what is computed *)
Section Refuted.
Variable F : fieldType.
Notation func := (func F [eqType of seq F]).

(** u(x, y) = y^2 with its derivatives *)
Definition ysq : func := mkFunc (P := [eqType of seq F]) (fun _ x => x`_1 ^+ 2)
  (fun _ a x => if nth 0%N a 0 != 0%N then 0 else match nth 0%N a 1 with 0 => x`_1 ^+ 2 | 1 => 2 * x`_1 | 2 => 2 | _ => 0 end).
(** The second normal derivative is assembled from the first [sd] weights and
    multi-indices: in two dimensions n0 u_xx + n1 u_xy. *)
Theorem C26_second_normal_derivative_refuted : forall (g : geometry F) facet x, sd g = 2%N ->
  let n := normal g facet in
  (forall u : func, apply (PointNormalSecondDerivative g facet x) u = n`_0 * d2 2 [::] 0 0 u x + n`_1 * d2 2 [::] 0 1 u x) /\
  apply (PointNormalSecondDerivative g facet x) ysq = 0 /\ along2 2 n ysq x = 2 * n`_1 ^+ 2.
Proof.
move=> g facet x Hg n. have E (u : func) : apply (PointNormalSecondDerivative g facet x) u = n`_0 * d2 2 [::] 0 0 u x + n`_1 * d2 2 [::] 0 1 u x.
{ by rewrite apply_der big_seq1 big_map Hg !big_cons big_nil addr0. }
split=> //. rewrite E. split; first by rewrite /d2 /= !mulr0 addr0.
rewrite /along2 !big_ord_recl !big_ord0 /d2 /= !mulr0 !addr0 !add0r. by rewrite mulrC expr2. Qed.

(** Two quadrature points that coincide: only the last one counts. *)
Theorem C26_repeated_points_refuted : forall (x : seq F) w1 w2 f1 f2 (u : func),
  exists l, IntegralMoment (mkRule [:: x; x] [:: w1; w2]) [:: f1; f2] [::] [::] = Base.Ok l /\
    apply l u = w2 * f2 * fval u [::] x.
Proof. move=> x w1 w2 f1 f2 u. eexists; split; first by []. by rewrite apply_pt /build /= eqxx !big_seq1. Qed.

(** Calling a moment of one component on a vector function contracts the wrong
    axis: it is refused, or (with as many points as components) gives the
    weighted sum of the components at one point. *)
Theorem C26_vector_moment_call_refuted : forall (x y : seq F) w1 w2 f1 f2 (fn : seq F -> seq F) shp, x != y ->
  exists l, IntegralMoment (mkRule [:: x; y] [:: w1; w2]) [:: f1; f2] [:: 0%N] shp = Base.Ok l /\
    (size (fn x) = 2%N -> call_IntegralMoment_vector l 0 2 fn = Base.Ok ((fn x)`_0 * (w1 * f1) + (fn x)`_1 * (w2 * f2))) /\
    call_IntegralMoment_vector l 0 3 fn = Base.Err Base.ValueError.
Proof.
move=> x y w1 w2 f1 f2 fn shp Hxy. eexists; split; first by []. rewrite /build /= [y == x]eq_sym (negbTE Hxy) /=. split=> // H.
rewrite /call_IntegralMoment_vector /= /dot /moment_weights /=. case: (fn x) H => [|a [|b [|]]] //= _. by rewrite !big_cons big_nil addr0. Qed.

(** The documented integrand is (v x n) . p; for v = p = e_1 and n = e_3 it is
    0, and the functional gives 1. *)
Theorem C26_face_tangent_refuted : forall (g : geometry F) facet x, scaled_normal g facet = [:: 0; 0; 1] ->
  let v := mkFunc (P := [eqType of seq F]) (fun c _ => (c == [:: 0%N])%:R) (fun _ _ _ => 0) : func in
  let p := [:: 1; 0; 0] : seq F in
  dot3 (cross (vec3 v x) (scaled_normal g facet)) p = 0 /\
  apply (IntegralMomentOfFaceTangentEvaluation g (mkRule [:: x] [:: 1]) 1 [:: [:: 1]; [:: 0]; [:: 0]] facet) v = 1.
Proof.
move=> g facet x Hn v p. split.
- by rewrite Hn /dot3 /cross /vec3 /= !(mulr0, mul0r, addr0, subr0, subrr, mulr1).
- rewrite (@C26_face_tangent_moment F g (mkRule [:: x] [:: 1]) (fun _ => 1) (fun _ => 0) (fun _ => 0)); last by split.
  by rewrite /quad /= big_ord_recl big_ord0 Hn /dot3 /cross /vec3 /= !(mulr0, mul0r, addr0, add0r, subr0, sub0r, subrr, mulr1, mul1r, mulrN, mulNr, opprK). Qed.

(** The "normal normal" moment is the normal moment of a vector field: it reads
    components (i,) and declares shape (sd,), so it vanishes on every field that
    only has components (i, j). *)
Theorem C26_normal_normal_refuted : forall (g : geometry F) Q phi facet,
  IntegralMomentOfNormalNormalEvaluation g Q phi facet = IntegralMomentOfNormalEvaluation g Q phi facet /\
  target_shape (IntegralMomentOfNormalNormalEvaluation g Q phi facet) = [:: sd g] /\
  (good_rule Q (transform g (sd g).-1 facet) -> forall (f : seq F -> F) (u : func), (forall i x, fval u [:: i] x = 0) ->
   apply (IntegralMomentOfNormalNormalEvaluation g Q [seq f x | x <- qpts Q] facet) u = 0).
Proof.
move=> g Q phi facet. split=> //. split=> // HQ f u Hu.
rewrite -/(IntegralMomentOfNormalEvaluation _ _ _ _). have [_ [H _]] := C26_component_moments g Q f facet u. have [_ [-> _]] := H HQ.
rewrite /quad big1 // => k _. rewrite /component_along big1 ?mulr0 // => i _. by rewrite Hu mulr0. Qed.

(** A scalar Frobenius moment has no terms at all. *)
Theorem C26_scalar_frobenius_refuted : forall (Q : rule F) f (u : func),
  exists l, FrobeniusIntegralMoment Q [::] (size (qpts Q)) f = Base.Ok l /\ apply l u = 0.
Proof.
move=> Q f u. rewrite /FrobeniusIntegralMoment eqxx. eexists; split; first by []. rewrite apply_pt.
suff H (d : seq (seq F * seq (F * comp))) items : all (fun kv => kv.2 == [::]) d -> all (fun kv => kv.2 == [::]) items ->
  all (fun kv => kv.2 == [::]) (foldl (fun d kv => dset kv.1 kv.2 d) d items).
{ rewrite big_seq big1 // => kv Hkv. have /allP/(_ kv Hkv)/eqP -> : all (fun kv => kv.2 == [::]) (build [seq (nth [::] (qpts Q) i, [seq ((qwts Q)`_i * (f c)`_i, c) | c <- ModelIndex.index_iterator [::]]) | i <- iota 0 (size (qpts Q))]).
  { apply: H => //. by rewrite all_map; apply/allP. } by rewrite big_nil. }
elim: items d => //= -[k v] items IH d Hd /andP [Hv Hi]. apply: IH => //. elim: d Hd => [|[k' v'] d IH] /=; first by rewrite Hv.
move=> /andP [H1 H2]. case: eqP => _ /=; by rewrite ?Hv ?H1 ?H2 ?IH. Qed.

(** Always refused. *)
Theorem C26_tensor_bidirectional_refuted : forall (g : geometry F) v w Q f comp_deg,
  TensorBidirectionalMomentInnerProductEvaluation g v w Q f comp_deg = Base.Err Base.TypeError.
Proof. by []. Qed.

(** The divergence moments use components (i,) and (i, j) but declare the
    scalar shape, which has no such component. *)
Theorem C26_divergence_shape_refuted : forall (g : geometry F) (Q : rule F) f, (0 < sd g)%N -> qpts Q <> [::] ->
  let l := IntegralMomentOfDivergence g Q f in
  target_shape l = [::] /\ exists pw wac, [/\ pw \in deriv_dict l, wac \in pw.2 & wac.2 \notin comps (target_shape l)].
Proof.
move=> g Q f Hg HQ l. split=> //.
have H (items : seq (seq F * seq (F * alpha * comp))) d : (d <> [::] \/ items <> [::]) ->
  all (fun kv => has (fun wac => wac.2 == [:: 0%N]) kv.2) items -> all (fun kv => has (fun wac => wac.2 == [:: 0%N]) kv.2) d ->
  let r := foldl (fun d kv => dset kv.1 kv.2 d) d items in r <> [::] /\ all (fun kv => has (fun wac => wac.2 == [:: 0%N]) kv.2) r.
{ elim: items d => [|[k v] items IH] d /= H Hi Hd; first by case: H.
  move/andP: Hi => [Hv Hi]. apply: IH => //; first by left; case: (d) => [|[k' v'] d'] //=; case: ifP.
  elim: d Hd {H} => [|[k' v'] d IHd] /=; first by rewrite Hv. move=> /andP [H1 H2]. case: eqP => _ /=; by rewrite ?Hv ?H1 ?H2 ?IHd. }
have [] := H [seq (nth [::] (qpts Q) j, [seq ((qwts Q)`_j * f`_j, e_ (sd g) i, [:: i]) | i <- iota 0 (sd g)]) | j <- iota 0 (size (qpts Q))] [::] _ _ isT.
- right. by case: (qpts Q) HQ.
- rewrite all_map. apply/allP => j _ /=. apply/hasP. exists ((qwts Q)`_j * f`_j, e_ (sd g) 0, [:: 0%N]) => //. apply/mapP. by exists 0%N => //; rewrite mem_iota.
- rewrite -/(build _) => H1 H2. rewrite /l /=. case: (build _) H1 H2 => // pw r _ /= /andP [/hasP [wac Hw /eqP E] _]. exists pw, wac. by rewrite inE eqxx E. Qed.
End Refuted.

(** A geometry, rule and function meeting the hypotheses: facet 0 of the UFC
    triangle with a two-point rule. *)
Definition tri_geometry : geometry [fieldType of rat] :=
  mkGeometry 2 (fun _ => [:: 1; 1]) (fun _ => [:: 1; 1]) (fun _ => [:: -1; 1]) (fun _ => [:: -1; 1]) (fun _ _ => [::])
    (fun _ _ x => [:: 1 - x`_0; x`_0]) (fun _ _ => 1).
Definition two_points : rule [fieldType of rat] := mkRule [:: [:: 0]; [:: 1]] [:: 1 / 2; 1 / 2].
Example C26_nonvacuous : good_rule two_points id /\ good_rule two_points (transform tri_geometry 1 0) /\ sd tri_geometry = 2%N /\
  quad two_points (fun x => x`_0) = 1 / 2.
Proof. by repeat split; rewrite /quad /= !big_ord_recl big_ord0 /=. Qed.
