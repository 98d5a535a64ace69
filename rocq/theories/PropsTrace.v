(** C32: the trace element. *)
From Coq Require Import Permutation Sorting.Sorted.
From Verif Require Import Base ModelIndex SpecIndex ModelCell ModelTPE ModelGeom ModelTrace SpecCell SpecConcat SpecTrace SpecGeom
  Sorting ProofsIndex ProofsCell ProofsTopo ProofsIds ProofsTPE ProofsTrace.

Lemma ent_dec (x y : dimT * nat) : {x = y} + {x <> y}.
Proof.
  destruct x as [a i], y as [b j]. destruct (deqb a b) eqn:X.
  - apply deqb_eq in X. subst. destruct (Nat.eq_dec i j); [left; congruence|right; congruence].
  - right. intros E. inversion E; subst. rewrite deqb_refl in X. discriminate.
Qed.

(** Every dof is on exactly one entity, that entity is a facet, and going
    through the facets in order the dofs are 0, 1, 2, ... *)
Theorem C32_trace_dofs : forall (K : fieldT) c d (T : trace K), HDivTrace K c d = Ok T ->
  partitions (tr_ids K T) (length (tr_points K T)) /\
  same_entities (tr_ids K T) (topology c) /\
  (forall x, dofs_on (tr_ids K T) x <> [] -> is_facet c x) /\
  exists L, facet_list c L /\ flat_map (dofs_on (tr_ids K T)) L = seq 0 (length (tr_points K T)).
Proof.
  intros K c d T H. destruct (HDivTrace_built K c d T H) as (d' & F & B). destruct B.
  assert (E : flat_map (dofs_on (tr_ids K T)) (map fst F) = seq 0 (length (tr_points K T))).
  { rewrite b_dim. apply (seq_blocks K (tr_ids K T) (tr_points K T) c F 0). exact b_done. }
  split; [|split; [exact b_same|split]].
  - unfold partitions. rewrite <- E.
    rewrite (all_dofs_eq _ b_proper).
    assert (P : Permutation (filter (fun x => match dofs_on (tr_ids K T) x with [] => false | _ => true end) (dkeys (tr_ids K T)))
                            (filter (fun x => match dofs_on (tr_ids K T) x with [] => false | _ => true end) (map fst F))).
    { apply NoDup_Permutation.
      - apply NoDup_filter, dkeys_NoDup, b_proper.
      - apply NoDup_filter, SS_NoDup, b_sorted.
      - intros x. rewrite !filter_In. split; intros [A B]; split; auto.
        + destruct (in_dec ent_dec x (map fst F)) as [I|I]; auto.
          rewrite (b_other x I) in B. discriminate.
        + apply in_dkeys; auto. unfold dofs_on in B. destruct (lookup (tr_ids K T) (fst x) (snd x)); [discriminate|discriminate]. }
    assert (Z : forall L, flat_map (dofs_on (tr_ids K T)) L =
       flat_map (dofs_on (tr_ids K T)) (filter (fun x => match dofs_on (tr_ids K T) x with [] => false | _ => true end) L)).
    { induction L as [|x L IH]; simpl; auto. destruct (dofs_on (tr_ids K T) x) eqn:X; simpl; [auto|]. rewrite X. simpl. f_equal. f_equal. exact IH. }
    rewrite (Z (dkeys (tr_ids K T))), (Z (map fst F)). apply Permutation_flat_map_l, P.
  - intros x Hx. apply b_facets.
    destruct (in_dec ent_dec x (map fst F)) as [I|I]; auto.
    elim Hx. auto.
  - exists (map fst F). auto.
Qed.

Print Assumptions C32_trace_dofs.

(** On a facet sits a discontinuous element [e] of the requested degree for
    the facet's reference cell; its nodes are evaluations at points [ps]; the
    facet's dofs are consecutive, one per point, and the k-th one is evaluation
    at the image of the k-th point on the facet. *)
Theorem C32_trace_nodes : forall (K : fieldT) c d (T : trace K) x, HDivTrace K c d = Ok T -> is_facet c x ->
  exists d' sub e ps off,
    trace_degree c d = Ok d' /\ construct_subelement c (fst x) = Ok sub /\ construct_dg_element sub d' = Ok e /\
    dlookup (fst x) (tr_dgs K T) = Some e /\ dg_points K e = Ok ps /\
    dofs_on (tr_ids K T) x = seq off (length ps) /\ off + length ps <= length (tr_points K T) /\
    forall k p, nth_error ps k = Some p -> exists phi y,
      get_entity_transform c (fst x) (snd x) = Ok phi /\ phi p = Ok y /\ nth_error (tr_points K T) (off + k) = Some y.
Proof.
  intros K c d T x H Hx. destruct (HDivTrace_built K c d T H) as (d' & F & B). destruct B.
  apply b_facets in Hx. apply in_map_iff in Hx as ([[D i] e] & E & Hin). simpl in E. subst x.
  apply in_split in Hin as (F1 & F2 & EF). destruct (b_done F1 _ F2 EF) as (ps & phi & E1 & E2 & E3 & E4). simpl in *.
  assert (Hd : In (D, e) (tr_dgs K T)).
  { assert (I : In (D, i, e) F) by (rewrite EF; apply in_elt). rewrite b_F in I. unfold flat_facets in I.
    apply in_flat_map in I as ([D' e'] & I1 & I2). apply in_map_iff in I2 as (i' & I3 & _). inversion I3; subst.
    apply isort_in in I1; auto. }
  destruct (b_sound D e Hd) as (sub & es & S1 & S2 & S3 & S4).
  exists d', sub, e, ps, (nfsum K F1). simpl. split; [auto|]. split; [auto|]. split; [auto|].
  split; [apply dlookup_in; auto|]. split; [auto|]. split; [unfold dofs_on; simpl; rewrite E3; auto|]. split.
  - rewrite b_dim, EF, nfsum_app. unfold nfsum. simpl. assert (N : nf K e = length ps) by (unfold nf; rewrite E1; auto). rewrite N. lia.
  - intros k p Hk. destruct (E4 k p Hk) as (y & Y1 & Y2). exists phi, y. split; [|auto].
    apply E2. intros ->. destruct k; discriminate.
Qed.
Print Assumptions C32_trace_nodes.

(** The points of a product of two discontinuous elements: all pairs. *)
Theorem C32_product_points : forall (K : fieldT) a b pa pb, dg_points K a = Ok pa -> dg_points K b = Ok pb ->
  dg_points K (DGT a b) = Ok (flat_map (fun x => map (fun y => x ++ y) pb) pa).
Proof.
  intros K a b pa pb Ha Hb. cbn [dg_points]. rewrite Ha, Hb. cbn [bind].
  set (sd := spatial_dimension _). clearbody sd. clear.
  assert (R : forall x, tpe_row f0 sd (ModelTPE.PointEvaluation x) (map (@ModelTPE.PointEvaluation K) pb)
                = Ok (map (fun y => ModelTPE.PointEvaluation (x ++ y)) pb)).
  { intros x. induction pb as [|y pb IH]; simpl; auto. rewrite IH. reflexivity. }
  assert (N : tpe_nodes f0 sd (map ModelTPE.PointEvaluation pa) (map (@ModelTPE.PointEvaluation K) pb)
                = Ok (flat_map (fun x => map (fun y => ModelTPE.PointEvaluation (x ++ y)) pb) pa)).
  { induction pa as [|x pa IH]; simpl; auto. rewrite R, IH. reflexivity. }
  rewrite N. cbn [bind].
  replace (flat_map (fun x => map (fun y => ModelTPE.PointEvaluation (x ++ y)) pb) pa)
    with (map (@ModelTPE.PointEvaluation K) (flat_map (fun x => map (fun y => x ++ y) pb) pa)).
  - generalize (flat_map (fun x => map (fun y => x ++ y) pb) pa). intros l. clear. induction l as [|z l IH]; simpl; [reflexivity|]. rewrite IH. reflexivity.
  - clear. induction pa as [|x pa IH]; simpl; auto. rewrite map_app, IH, map_map. reflexivity.
Qed.
Print Assumptions C32_product_points.

(** ** Tabulation.  The discontinuous elements return, for values only, one
    array with a row per basis function and a column per point. *)
Definition value_tables {K : fieldT} (tab : dgel -> nat -> list (list K) -> result (list (list (list K)))) : Prop :=
  forall e ps points, dg_points K e = Ok ps ->
    exists rows, tab e 0 points = Ok [rows] /\ length rows = length ps /\ Forall (fun r => length r = length points) rows.

(** A table of the trace element on a facet: every derivative multi-index of
    order at most [order] has a slot; the value slot is an array with the
    facet's rows (dofs [ids]) equal to [rows] and all other rows zero, and the
    derivative slots hold TraceError. *)
Definition facet_table {K : fieldT} (sd order npts dim : nat) (ids : list nat) (rows : list (list K)) (t : list (list nat * slot K)) : Prop :=
  NoDup (map fst t) /\
  (forall alpha, In alpha (map fst t) <-> length alpha = sd /\ nsum alpha <= order) /\
  (forall alpha s, In (alpha, s) t -> nsum alpha <> 0 -> s = TraceErr K) /\
  (forall s, In (repeat 0 sd, s) t -> exists M, s = Values K M /\ length M = dim /\
     (forall k r, nth_error ids k = Some r -> nth_error M r = nth_error rows k) /\
     (forall r, r < dim -> ~ In r ids -> nth_error M r = Some (repeat f0 npts))).

Lemma tab_keys_ok sd order : 1 <= sd -> NoDup (tab_keys sd order) /\ forall alpha, In alpha (tab_keys sd order) <-> length alpha = sd /\ nsum alpha <= order.
Proof.
  intros Hs. assert (I : forall n a, In a (mis sd n) <-> length a = sd /\ nsum a = n) by (intros; rewrite mis_in by lia; reflexivity).
  split.
  - unfold tab_keys. apply NoDup_flat_map; [apply seq_NoDup|intros; apply mis_NoDup|].
    intros x y z _ _ A B. apply I in A, B. lia.
  - intros alpha. unfold tab_keys. rewrite in_flat_map. split.
    + intros (n & A & B). apply in_seq in A. apply I in B. lia.
    + intros (A & B). exists (nsum alpha). split; [apply in_seq; lia|apply I; auto].
Qed.
Lemma zero_key alpha : is_zero_key alpha = true <-> nsum alpha = 0.
Proof.
  unfold is_zero_key. induction alpha as [|a l IH]; simpl; [tauto|]. destruct a; simpl; [exact IH|]. split; discriminate.
Qed.
Lemma nsum_zeros n : nsum (repeat 0 n) = 0. Proof. induction n; auto. Qed.
Lemma fill_table (K : fieldT) (T : trace K) order npts off rows : 1 <= spatial_dimension (tr_cell K T) ->
  off + length rows <= length (tr_points K T) ->
  facet_table (spatial_dimension (tr_cell K T)) order npts (length (tr_points K T)) (seq off (length rows)) rows
    (fill K T order npts off rows).
Proof.
  intros Hs Hoff. destruct (tab_keys_ok (spatial_dimension (tr_cell K T)) order Hs) as [ND I].
  unfold fill. split; [|split; [|split]].
  - rewrite map_map. simpl. rewrite map_id. auto.
  - intros alpha. rewrite map_map. simpl. rewrite map_id. apply I.
  - intros alpha s Hin Hn. apply in_map_iff in Hin as (a & E & _). inversion E; subst.
    destruct (is_zero_key alpha) eqn:Z; auto. apply zero_key in Z. congruence.
  - intros s Hin. apply in_map_iff in Hin as (a & E & _). inversion E; subst.
    assert (Z : is_zero_key (repeat 0 (spatial_dimension (tr_cell K T))) = true) by (apply zero_key, nsum_zeros). rewrite Z.
    eexists. split; [reflexivity|]. unfold with_rows, space_dimension. split; [rewrite map_length, seq_length; auto|].
    assert (N : forall r, r < length (tr_points K T) -> nth_error (map (fun r0 => if (off <=? r0) && (r0 <? off + length rows)
       then nth (r0 - off) rows [] else repeat f0 npts) (seq 0 (length (tr_points K T)))) r =
       Some (if (off <=? r) && (r <? off + length rows) then nth (r - off) rows [] else repeat f0 npts)).
    { intros r Hr. rewrite nth_error_map. rewrite (nth_error_nth' _ 0) by (rewrite seq_length; auto).
      rewrite seq_nth by auto. reflexivity. }
    split.
    + intros k r Hk. assert (Hk' : k < length rows) by (rewrite <- (seq_length (length rows) off); apply nth_error_Some; congruence).
      rewrite (nth_error_nth' _ 0) in Hk by (rewrite seq_length; auto). rewrite seq_nth in Hk by auto. inversion Hk; subst r.
      rewrite N by lia. destruct (Nat.leb_spec off (off + k)); [|lia]. destruct (Nat.ltb_spec (off + k) (off + length rows)); [|lia].
      simpl. replace (off + k - off) with k by lia. symmetry. apply nth_error_nth'. auto.
    + intros r Hr Hni. rewrite N by auto. destruct (Nat.leb_spec off r); simpl; auto.
      destruct (Nat.ltb_spec r (off + length rows)); simpl; auto. exfalso. apply Hni, in_seq. lia.
Qed.

(** On a facet. *)
Theorem C32_tabulate_facet : forall (K : fieldT) tab small eqb c d (T : trace K) order points x,
  value_tables tab -> HDivTrace K c d = Ok T -> is_facet c x ->
  exists e rows t,
    dlookup (fst x) (tr_dgs K T) = Some e /\ tab e 0 points = Ok [rows] /\
    tabulate K tab small eqb T order points (Some x) = Ok t /\
    facet_table (spatial_dimension c) order (length points) (length (tr_points K T)) (dofs_on (tr_ids K T) x) rows t.
Proof.
  intros K tab small eqb c d T order points x Htab H Hx.
  destruct (HDivTrace_built K c d T H) as (d' & F & B). pose proof B as B0. destruct B.
  apply b_facets in Hx. apply in_map_iff in Hx as ([[D i] e] & E & Hin). simpl in E. subst x.
  apply in_split in Hin as (F1 & F2 & EF). destruct (b_done F1 _ F2 EF) as (ps & phi & E1 & E2 & E3 & E4). simpl in *.
  assert (Hd : In (D, e) (tr_dgs K T)).
  { assert (I : In (D, i, e) F) by (rewrite EF; apply in_elt). rewrite b_F in I. unfold flat_facets in I.
    apply in_flat_map in I as ([D' e'] & I1 & I2). apply in_map_iff in I2 as (i' & I3 & _). inversion I3; subst.
    apply isort_in in I1; auto. }
  destruct (Htab e ps points E1) as (rows & R1 & R2 & R3).
  exists e, rows, (fill K T order (length points) (nfsum K F1) rows).
  split; [apply dlookup_in; auto|]. split; [auto|]. split.
  - unfold tabulate. rewrite (proj2 (dlookup_in _ _ _ b_keys) Hd).
    rewrite find_facet_search by (intros D' e' I; apply isort_in in I; eauto). rewrite b_cell, <- b_F, EF.
    pose proof (search_found K tab points F1 (D, i, e) F2 rows) as SF. cbn [fst snd] in SF. rewrite SF.
    + reflexivity.
    + rewrite <- EF. apply SS_NoDup; auto.
    + exact R1.
  - unfold dofs_on. simpl. rewrite E3, <- R2, <- b_cell. apply fill_table.
    + rewrite b_cell. pose proof (trace_degree_dim _ _ _ b_deg). lia.
    + rewrite b_dim, EF, nfsum_app. unfold nfsum. simpl. assert (N : nf K e = length ps) by (unfold nf; rewrite E1; auto). rewrite N, R2. lia.
Qed.
Print Assumptions C32_tabulate_facet.

(** Evaluating on a facet at the nodes of that facet: if the discontinuous
    elements are nodal, so is the trace element. *)
Theorem C32_nodal : forall (K : fieldT) tab small eqb c d (T : trace K) e ps rows x,
  value_tables tab -> HDivTrace K c d = Ok T -> is_facet c x ->
  dlookup (fst x) (tr_dgs K T) = Some e -> dg_points K e = Ok ps -> tab e 0 ps = Ok [rows] ->
  (forall k l, k < length ps -> l < length ps -> nth l (nth k rows []) f0 = if Nat.eqb k l then f1 else f0) ->
  exists M off, tabulate K tab small eqb T 0 ps (Some x) = Ok [(repeat 0 (spatial_dimension c), Values K M)] /\
    dofs_on (tr_ids K T) x = seq off (length ps) /\
    forall r l, r < length (tr_points K T) -> l < length ps -> nth l (nth r M []) f0 = if Nat.eqb r (off + l) then f1 else f0.
Proof.
  intros K tab small eqb c d T e ps rows x Htab H Hx He Hps Hrows Hnod.
  destruct (C32_tabulate_facet K tab small eqb c d T 0 ps x Htab H Hx) as (e' & rows' & t & A1 & A2 & A3 & A4).
  rewrite He in A1. inversion A1; subst e'. rewrite Hrows in A2. inversion A2; subst rows'.
  destruct (C32_trace_nodes K c d T x H Hx) as (d' & sub & e2 & ps2 & off & B1 & B2 & B3 & B4 & B5 & B6 & B7 & B8).
  rewrite He in B4. inversion B4; subst e2. rewrite Hps in B5. inversion B5; subst ps2.
  destruct A4 as (C1 & C2 & C3 & C4).
  destruct t as [|[a s] t].
  { exfalso. assert (X : In (repeat 0 (spatial_dimension c)) []) by (apply C2; rewrite repeat_length, nsum_zeros; auto). exact X. }
  assert (Z : forall b, In b (map fst ((a, s) :: t)) -> b = repeat 0 (spatial_dimension c)).
  { intros b Hb. apply C2 in Hb as [L S]. rewrite <- L. clear -S. induction b as [|n b IH]; simpl in *; auto.
    f_equal; [lia|apply IH; lia]. }
  destruct t as [|[a' s'] t].
  2:{ exfalso. simpl in C1. inversion C1 as [|? ? X _]; subst. apply X. left. rewrite (Z a), (Z a'); simpl; auto. }
  assert (Ea : a = repeat 0 (spatial_dimension c)) by (apply Z; simpl; auto). subst a.
  destruct (C4 s (or_introl eq_refl)) as (M & -> & L & M1 & M2).
  exists M, off. split; [exact A3|]. split; [auto|]. rewrite B6 in M1, M2. intros r l Hr Hl.
  assert (Zr : ~ (off <= r < off + length ps) -> nth l (nth r M []) f0 = if Nat.eqb r (off + l) then f1 else f0).
  { intros Hout. assert (Hni : ~ In r (seq off (length ps))) by (rewrite in_seq; lia).
    rewrite (nth_error_nth M r [] (M2 r Hr Hni)). destruct (Nat.eqb_spec r (off + l)); [lia|].
    clear. revert l. induction (length ps); intros [|l]; simpl; auto. }
  destruct (le_lt_dec off r) as [Ho|Ho]; [|apply Zr; lia].
  destruct (le_lt_dec (off + length ps) r) as [Hu|Hu]; [apply Zr; lia|]. clear Zr.
  assert (Hk : r - off < length ps) by lia.
  assert (N : nth_error (seq off (length ps)) (r - off) = Some r).
  { rewrite (nth_error_nth' _ 0) by (rewrite seq_length; auto). rewrite seq_nth by auto. f_equal. lia. }
  specialize (M1 _ _ N). destruct (Htab e ps ps Hps) as (rows2 & R1 & R2 & _). rewrite Hrows in R1. inversion R1; subst rows2.
  rewrite (nth_error_nth' rows []) in M1 by lia. rewrite (nth_error_nth M r [] M1). rewrite Hnod by auto.
  destruct (Nat.eqb_spec (r - off) l), (Nat.eqb_spec r (off + l)); auto; lia.
Qed.
Print Assumptions C32_nodal.

(** On any dimension whose sub-elements are not facets, every slot is a
    TraceError (and never a number). *)
Theorem C32_tabulate_non_facet : forall (K : fieldT) tab small eqb c d (T : trace K) order points D i,
  HDivTrace K c d = Ok T ->
  (forall sub, construct_subelement c D = Ok sub -> S (spatial_dimension sub) <> spatial_dimension c) ->
  exists t, tabulate K tab small eqb T order points (Some (D, i)) = Ok t /\ NoDup (map fst t) /\
    (forall alpha, In alpha (map fst t) <-> length alpha = spatial_dimension c /\ nsum alpha <= order) /\
    forall alpha s, In (alpha, s) t -> s = TraceErr K.
Proof.
  intros K tab small eqb c d T order points D i H Hn.
  destruct (HDivTrace_built K c d T H) as (d' & F & B). destruct B.
  pose proof (trace_degree_dim _ _ _ b_deg) as Hd.
  assert (E : dlookup D (tr_dgs K T) = None).
  { destruct (dlookup D (tr_dgs K T)) as [e|] eqn:E; auto. exfalso. apply dlookup_in in E; auto.
    destruct (b_sound D e E) as (sub & es' & S1 & S2 & S3 & _). apply (Hn sub S2). lia. }
  unfold tabulate. rewrite E. eexists. split; [reflexivity|]. unfold all_slots.
  destruct (tab_keys_ok (spatial_dimension (tr_cell K T)) order) as [ND I]; [rewrite b_cell; lia|].
  rewrite map_map. simpl. rewrite map_id. rewrite b_cell in *. split; [auto|]. split; [auto|].
  intros alpha s Hin. apply in_map_iff in Hin as (a & X & _). inversion X; auto.
Qed.
Print Assumptions C32_tabulate_non_facet.

(** A facet number out of range is refused. *)
Theorem C32_tabulate_no_such_facet : forall (K : fieldT) tab small eqb c d (T : trace K) order points D i sub,
  HDivTrace K c d = Ok T -> construct_subelement c D = Ok sub -> S (spatial_dimension sub) = spatial_dimension c ->
  (exists es, In (D, es) (topology c)) -> lookup (topology c) D i = None ->
  tabulate K tab small eqb T order points (Some (D, i)) = Err UnboundLocalError.
Proof.
  intros K tab small eqb c d T order points D i sub H Hs Hd (es & Hes) Hl.
  destruct (HDivTrace_built K c d T H) as (d' & F & B). destruct B.
  destruct (b_complete D es Hes) as (sub' & S1 & S2). rewrite Hs in S1. inversion S1; subst sub'.
  destruct S2 as (e & He); [lia|]. unfold tabulate. rewrite (proj2 (dlookup_in _ _ _ b_keys) He).
  rewrite find_facet_search by (intros D' e' I; apply isort_in in I; eauto). rewrite b_cell, <- b_F.
  rewrite search_skip; [reflexivity|]. intros X. apply b_facets in X as [X _]. simpl in X. congruence.
Qed.
Print Assumptions C32_tabulate_no_such_facet.
