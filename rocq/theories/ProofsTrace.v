(** The trace element: numbering and nodes. *)
From Coq Require Import Permutation Sorting.Sorted.
From Verif Require Import Base ModelIndex ModelCell ModelTPE ModelGeom ModelTrace SpecCell SpecConcat SpecTrace
  Sorting ProofsCell ProofsTopo ProofsIds.

Lemma bind_ok {A B} (r : result A) (k : A -> result B) b : bind r k = Ok b -> exists a, r = Ok a /\ k a = Ok b.
Proof. destruct r; simpl; intros H; [eauto|discriminate]. Qed.

Lemma collect_ok {A B} (f : A -> result B) l r : collect f l = Ok r -> Forall2 (fun x y => f x = Ok y) l r.
Proof.
  revert r. induction l as [|x l IH]; simpl; intros r H; [inversion H; constructor|].
  destruct (f x) as [y|] eqn:E; [|discriminate]. destruct (collect f l) as [r'|]; [|discriminate].
  inversion H; subst. constructor; auto.
Qed.
Lemma collect_all {A B} (f : A -> result B) (g : A -> B) l : (forall x, In x l -> f x = Ok (g x)) -> collect f l = Ok (map g l).
Proof.
  induction l as [|x l IH]; simpl; intros H; auto. rewrite H by auto. rewrite IH by (intros; apply H; auto). reflexivity.
Qed.
Lemma F2_nth {A B} (R : A -> B -> Prop) l l' : Forall2 R l l' -> forall k x, nth_error l k = Some x -> exists y, nth_error l' k = Some y /\ R x y.
Proof. induction 1; intros [|k] z H'; simpl in *; try discriminate; [inversion H'; subst|]; eauto. Qed.
Lemma F2_length {A B} (R : A -> B -> Prop) l l' : Forall2 R l l' -> length l = length l'.
Proof. induction 1; simpl; auto. Qed.

Section P.
  Context (K : fieldT).
  Notation vec := (list K).
  Definition facet := (dimT * nat * dgel)%type.
  Definition flat_facets (c : cell) (dgs : list (dimT * dgel)) : list facet :=
    flat_map (fun '(D, e) => map (fun i => (D, i, e)) (range 0 (num_entities c D))) dgs.
  Definition nf (e : dgel) : nat := match dg_points K e with Ok ps => length ps | Err _ => 0 end.
  Definition nfsum (F : list facet) : nat := nsum (map (fun x => nf (snd x)) F).
  Lemma nfsum_app F G : nfsum (F ++ G) = nfsum F + nfsum G.
  Proof. unfold nfsum. induction F as [|x F IH]; simpl; [reflexivity|]. simpl in IH. lia. Qed.

  Fixpoint loopF (c : cell) (F : list facet) (st : state K) : result (state K) :=
    match F with
    | [] => Ok st
    | (D, i, e) :: F' => bind (dg_points K e) (fun ps => bind (facet_step K c D ps st i) (loopF c F'))
    end.
  Lemma loopF_app c F G st st' : loopF c F st = Ok st' -> loopF c (F ++ G) st = loopF c G st'.
  Proof.
    revert st. induction F as [|[[D i] e] F IH]; simpl; intros st H; [inversion H; auto|].
    destruct (dg_points K e) as [ps|]; simpl in *; [|discriminate].
    destruct (facet_step K c D ps st i) as [s1|]; simpl in *; [|discriminate]. auto.
  Qed.
  Lemma facet_loop_F c D e ps is st : dg_points K e = Ok ps ->
    loopF c (map (fun i => (D, i, e)) is) st = facet_loop K c D ps is st.
  Proof.
    intros E. revert st. induction is as [|i is IH]; simpl; intros st; auto. rewrite E. simpl.
    destruct (facet_step K c D ps st i); simpl; auto.
  Qed.
  Lemma dims_loop_F c dgs st st' : dims_loop K c dgs st = Ok st' -> loopF c (flat_facets c dgs) st = Ok st'.
  Proof.
    revert st. induction dgs as [|[D e] dgs IH]; simpl; intros st H; auto.
    apply bind_ok in H as (ps & E & H). apply bind_ok in H as (s1 & E1 & H).
    rewrite (loopF_app c _ _ st s1); [auto|]. rewrite (facet_loop_F _ _ _ ps) by auto. exact E1.
  Qed.

  Lemma dims_loop_points c dgs st st' : dims_loop K c dgs st = Ok st' -> forall D e, In (D, e) dgs -> exists ps, dg_points K e = Ok ps.
  Proof.
    revert st. induction dgs as [|[D e] dgs IH]; simpl; intros st H D' e' Hin; [contradiction|].
    apply bind_ok in H as (ps & E & H). apply bind_ok in H as (s1 & E1 & H). destruct Hin as [X|X]; [inversion X; subst; eauto|].
    eapply IH; eauto.
  Qed.

  (** what the loop establishes for one facet *)
  Definition facet_done (c : cell) (ids : dict (list nat)) (pts : list vec) (off : nat) (x : facet) : Prop :=
    exists ps T, dg_points K (snd x) = Ok ps /\ (ps <> [] -> get_entity_transform c (fst (fst x)) (snd (fst x)) = Ok T) /\
      lookup ids (fst (fst x)) (snd (fst x)) = Some (seq off (length ps)) /\
      forall k p, nth_error ps k = Some p -> exists y, T p = Ok y /\ nth_error pts (off + k) = Some y.

  Lemma loopF_ok c : forall F off ids pts off' ids' pts',
    loopF c F (off, ids, pts) = Ok (off', ids', pts') -> NoDup (map fst F) ->
    (forall x, In x F -> lookup ids (fst (fst x)) (snd (fst x)) <> None) -> proper_dict ids -> length pts = off ->
    off' = off + nfsum F /\ proper_dict ids' /\ same_entities ids' ids /\ length pts' = off' /\
    (exists more, pts' = pts ++ more) /\
    (forall y, ~ In y (map fst F) -> lookup ids' (fst y) (snd y) = lookup ids (fst y) (snd y)) /\
    (forall F1 x F2, F = F1 ++ x :: F2 -> facet_done c ids' pts' (off + nfsum F1) x).
  Proof.
    induction F as [|[[D i] e] F IH]; intros off ids pts off' ids' pts' H ND Hin Hp Hl.
    - simpl in H. inversion H; subst. unfold nfsum. simpl. repeat split; try tauto; try lia; try apply Hp.
      + exists []. rewrite app_nil_r; auto.
      + intros [|? ?] x F2 E; discriminate.
    - simpl in H. apply bind_ok in H as (ps & Eps & H). apply bind_ok in H as (st & Est & H).
      unfold facet_step in Est.
      destruct (dset_in D i (range off (off + length ps)) ids) as [ids1|] eqn:Ed; [|discriminate].
      apply bind_ok in Est as (new & Ec & Est). inversion Est; subst st. clear Est.
      pose proof (collect_ok _ _ _ Ec) as Fc.
      assert (Hl0 : lookup ids D i <> None) by (apply (Hin (D, i, e)); simpl; auto).
      assert (HD : In D (keys ids)).
      { destruct (lookup ids D i) as [v|] eqn:E; [|congruence]. apply lookup_in in E as (es & A & _); auto.
        apply in_map_iff. exists (D, es); auto. }
      destruct (dset_in_some D i (range off (off + length ps)) ids HD) as (t' & E1 & K1 & L1).
      rewrite Ed in E1. inversion E1; subst t'. clear E1.
      assert (P1 : proper_dict ids1) by (eapply dset_in_proper; [exact Hp|exact Hl0|exact Ed]).
      inversion ND as [|? ? Hni ND']; subst. simpl in Hni.
      assert (S1 : same_entities ids1 ids).
      { intros d' e'. rewrite L1. destruct (deqb d' D && Nat.eqb e' i) eqn:B; [|tauto].
        apply andb_true_iff in B as [B1 B2]. apply deqb_eq in B1. apply Nat.eqb_eq in B2. subst. split; [discriminate|tauto]. }
      assert (Lnew : length new = length ps) by (symmetry; eapply F2_length; eauto).
      assert (Nf : nf e = length ps) by (unfold nf; rewrite Eps; auto).
      apply IH in H; auto; clear IH.
      2:{ intros x Hx E. apply S1 in E. exact (Hin x (or_intror Hx) E). }
      2:{ rewrite app_length, Lnew; auto. }
      destruct H as (O & P & S' & Lp & (more & M) & Unch & Done).
      assert (Same : lookup ids' D i = Some (seq (length pts) (length ps))).
      { pose proof (Unch (D, i) Hni) as U. simpl in U. rewrite U, L1, deqb_refl, Nat.eqb_refl. simpl. unfold range.
        do 2 f_equal. lia. }
      split; [unfold nfsum in *; simpl; rewrite Nf; lia|]. split; [auto|]. split.
      { intros d' e'. rewrite (S' d' e'). apply S1. }
      split; [exact Lp|]. split; [exists (new ++ more); rewrite M, app_assoc; auto|]. split.
      { intros y Hy. rewrite Unch by (intros F'; apply Hy; right; exact F').
        rewrite L1. destruct (deqb (fst y) D && Nat.eqb (snd y) i) eqn:B; [|reflexivity].
        exfalso. apply Hy. left. apply andb_true_iff in B as [B1 B2]. apply deqb_eq in B1. apply Nat.eqb_eq in B2.
        destruct y; simpl in *; subst; auto. }
      intros F1 x F2 E. destruct F1 as [|y F1]; simpl in E; inversion E; subst.
      + unfold nfsum; simpl. rewrite Nat.add_0_r.
        destruct (get_entity_transform c D i) as [T|er] eqn:ET.
        * exists ps, T. simpl. split; [auto|]. split; [auto|]. split; [exact Same|].
          intros k p Hk. destruct (F2_nth _ _ _ Fc _ _ Hk) as (y & Hy & R). simpl in R.
          exists y. split; [exact R|]. rewrite <- app_assoc, nth_error_app2 by lia.
          replace (length pts + k - length pts) with k by lia. rewrite nth_error_app1 by (apply nth_error_Some; congruence). exact Hy.
        * destruct ps as [|p ps].
          -- exists [], (fun _ => Err ValueError). simpl. split; [auto|]. split; [congruence|]. split; [exact Same|].
             intros [|k] p Hk; discriminate.
          -- inversion Fc; subst. simpl in *. discriminate.
      + specialize (Done F1 x F2 eq_refl). unfold nfsum in *. simpl. rewrite Nf.
        replace (length pts + (length ps + nsum (map (fun x0 => nf (snd x0)) F1))) with (length pts + length ps + nsum (map (fun x0 => nf (snd x0)) F1)) by lia.
        exact Done.
  Qed.

  Lemma facet_elements_ok c d : forall t dgs, facet_elements c d t = Ok dgs ->
    (forall D e, In (D, e) dgs -> exists sub es, In (D, es) t /\ construct_subelement c D = Ok sub /\
       spatial_dimension sub = spatial_dimension c - 1 /\ construct_dg_element sub d = Ok e) /\
    (forall D es, In (D, es) t -> exists sub, construct_subelement c D = Ok sub /\
       (spatial_dimension sub = spatial_dimension c - 1 -> exists e, In (D, e) dgs)) /\
    (NoDup (keys t) -> NoDup (keys dgs)).
  Proof.
    induction t as [|[D es] t IH]; simpl; intros dgs H.
    - inversion H; subst. repeat split; try (intros; contradiction); constructor.
    - apply bind_ok in H as (sub & Es & H).
      destruct (Nat.eqb_spec (spatial_dimension sub) (spatial_dimension c - 1)) as [E|NE].
      + apply bind_ok in H as (e & Ee & H). apply bind_ok in H as (r & Er & H). inversion H; subst dgs.
        destruct (IH r Er) as (A & B & C). split; [|split].
        * intros D' e' [X|X]; [inversion X; subst; exists sub, es; repeat split; auto|].
          destruct (A _ _ X) as (s & es' & ? & ? & ? & ?). exists s, es'. repeat split; auto.
        * intros D' es' [X|X]; [inversion X; subst; exists sub; split; auto; intros _; exists e; left; auto|].
          destruct (B _ _ X) as (s & ? & Y). exists s. split; auto. intros Z. destruct (Y Z) as (e' & ?). exists e'; right; auto.
        * intros ND. inversion ND; subst. simpl. constructor; auto. intros X. apply in_map_iff in X as ([D' e'] & Y & X).
          simpl in Y; subst. destruct (A _ _ X) as (s & es' & Z & _). apply H2. apply in_map_iff. exists (D, es'); auto.
      + destruct (IH dgs H) as (A & B & C). split; [|split].
        * intros D' e' X. destruct (A _ _ X) as (s & es' & ? & ? & ? & ?). exists s, es'. repeat split; auto.
        * intros D' es' [X|X]; [inversion X; subst; exists sub; split; auto; intros; contradiction|]. exact (B _ _ X).
        * intros ND. inversion ND; subst. auto.
  Qed.

  Lemma SS_app {A} (R : A -> A -> Prop) l l' : StronglySorted R l -> StronglySorted R l' ->
    (forall x y, In x l -> In y l' -> R x y) -> StronglySorted R (l ++ l').
  Proof.
    induction 1 as [|a l H IH Hf]; simpl; intros H' X; auto. constructor.
    - apply IH; auto.
    - apply Forall_app. split; auto. apply Forall_forall. intros y Hy. apply X; auto.
  Qed.
  Lemma flat_sorted c dgs : StronglySorted (leT (fun x y => dleb (fst x) (fst y))) dgs -> NoDup (keys dgs) ->
    StronglySorted facet_before (map fst (flat_facets c dgs)).
  Proof.
    induction 1 as [|[D e] dgs H IH Hf]; intros ND; [constructor|]. inversion ND as [|? ? Hni ND']; subst.
    change (flat_facets c ((D, e) :: dgs)) with (map (fun i => (D, i, e)) (range 0 (num_entities c D)) ++ flat_facets c dgs).
    rewrite map_app, map_map. simpl. apply SS_app; auto.
    - unfold range. generalize (num_entities c D - 0) as n. intros n. generalize 0 as a. induction n as [|n IHn]; intros a; simpl; constructor; auto.
      apply Forall_forall. intros y Hy. apply in_map_iff in Hy as (i & <- & Hi). apply in_seq in Hi. left. simpl. split; auto. lia.
    - intros x y Hx Hy. apply in_map_iff in Hx as (i & <- & Hi). apply in_map_iff in Hy as ([[D' i'] e'] & <- & Hy).
      unfold flat_facets in Hy. apply in_flat_map in Hy as ([D2 e2] & Hin & Hy). apply in_map_iff in Hy as (i2 & E & _). inversion E; subst.
      right. simpl. rewrite Forall_forall in Hf. split; [|exact (Hf _ Hin)].
      intros ->. apply Hni. apply in_map_iff. exists (D', e'); auto.
  Qed.
  Lemma before_neq x y : facet_before x y -> x <> y.
  Proof. intros [[A B]|[A B]] ->; [lia|congruence]. Qed.
  Lemma SS_NoDup L : StronglySorted facet_before L -> NoDup L.
  Proof.
    induction 1 as [|a l H IH Hf]; constructor; auto. intros Hin. rewrite Forall_forall in Hf. exact (before_neq _ _ (Hf _ Hin) eq_refl).
  Qed.

  Lemma in_topology c D i : In i (range 0 (num_entities c D)) <-> lookup (topology c) D i <> None.
  Proof.
    unfold num_entities, lookup. destruct (good_cell c) as (ND & He & _).
    destruct (dlookup D (topology c)) as [es|] eqn:E; simpl.
    - apply dlookup_in in E; auto. rewrite elookup_keys. rewrite (He _ _ E). unfold range. rewrite Nat.sub_0_r. tauto.
    - split; [contradiction|congruence].
  Qed.

  (** the whole construction *)
  Record built (c : cell) (d : deg) (T : trace K) (d' : deg) (F : list facet) : Prop := {
    b_cell : tr_cell K T = c;
    b_deg : trace_degree c d = Ok d';
    b_F : F = flat_facets c (sort_dims (tr_dgs K T));
    b_keys : NoDup (keys (tr_dgs K T));
    b_sound : forall D e, In (D, e) (tr_dgs K T) -> exists sub es, In (D, es) (topology c) /\ construct_subelement c D = Ok sub /\
       spatial_dimension sub = spatial_dimension c - 1 /\ construct_dg_element sub d' = Ok e;
    b_complete : forall D es, In (D, es) (topology c) -> exists sub, construct_subelement c D = Ok sub /\
       (spatial_dimension sub = spatial_dimension c - 1 -> exists e, In (D, e) (tr_dgs K T));
    b_sorted : StronglySorted facet_before (map fst F);
    b_facets : facet_list c (map fst F);
    b_dim : length (tr_points K T) = nfsum F;
    b_proper : proper_dict (tr_ids K T);
    b_same : same_entities (tr_ids K T) (topology c);
    b_other : forall y, ~ In y (map fst F) -> dofs_on (tr_ids K T) y = [];
    b_done : forall F1 x F2, F = F1 ++ x :: F2 -> facet_done c (tr_ids K T) (tr_points K T) (nfsum F1) x;
    b_points : forall D e, In (D, e) (tr_dgs K T) -> exists ps, dg_points K e = Ok ps;
    b_max : max_degree (tr_dgs K T) = Ok (tr_degree K T)
  }.
  Lemma trace_degree_dim c d d' : trace_degree c d = Ok d' -> 2 <= spatial_dimension c.
  Proof. unfold trace_degree. destruct (Nat.leb_spec (spatial_dimension c) 1); [discriminate|]. intros _. lia. Qed.

  Lemma HDivTrace_built c d T : HDivTrace K c d = Ok T -> exists d' F, built c d T d' F.
  Proof.
    unfold HDivTrace. intros H. apply bind_ok in H as (d' & Ed & H). apply bind_ok in H as (dgs & Eg & H).
    apply bind_ok in H as ([[off ids] pts] & El & H). apply bind_ok in H as (p & Em & H). inversion H; subst T. clear H.
    exists d', (flat_facets c (sort_dims dgs)).
    destruct (facet_elements_ok _ _ _ _ Eg) as (A & B & C).
    pose proof (good_cell c) as G. pose proof (good_proper _ _ G) as Gp. destruct G as (ND & He & _).
    specialize (C ND).
    assert (PS : Permutation dgs (sort_dims dgs)) by apply isort_perm.
    assert (NDs : NoDup (keys (sort_dims dgs))).
    { eapply Permutation_NoDup; [|exact C]. unfold keys. apply Permutation_map, PS. }
    assert (SS : StronglySorted facet_before (map fst (flat_facets c (sort_dims dgs)))).
    { apply flat_sorted; auto. apply isort_sorted.
      - intros; apply dleb_total.
      - intros x y z. apply dleb_trans. }
    pose proof (trace_degree_dim _ _ _ Ed) as Hdim.
    assert (FL : facet_list c (map fst (flat_facets c (sort_dims dgs)))).
    { split; auto. intros [D i]. rewrite in_map_iff. split.
      - intros ([[D' i'] e] & E & Hx). simpl in E. inversion E; subst. unfold flat_facets in Hx.
        apply in_flat_map in Hx as ([D2 e2] & Hin & Hx). apply in_map_iff in Hx as (i2 & E2 & Hi). inversion E2; subst.
        apply (Permutation_in _ (Permutation_sym PS)) in Hin. destruct (A _ _ Hin) as (sub & es & H1 & H2 & H3 & H4).
        split; simpl; [apply in_topology; auto|]. exists sub. split; auto. lia.
      - intros (Hl & sub & Hs & Hd). simpl in *. pose proof Hl as Hl'. apply in_topology in Hl.
        destruct (lookup (topology c) D i) as [v|] eqn:Ev; [|congruence]. apply lookup_in in Ev as (es & He1 & _); auto.
        destruct (B _ _ He1) as (sub' & Hs' & X). rewrite Hs in Hs'. inversion Hs'; subst sub'.
        destruct X as (e & He'); [lia|]. exists (D, i, e). split; auto. unfold flat_facets. apply in_flat_map.
        exists (D, e). split; [apply (Permutation_in _ PS); auto|]. apply in_map_iff. exists i. auto. }
    pose proof (dims_loop_points _ _ _ _ El) as Pts.
    apply dims_loop_F in El. destruct (init_dict (topology c) Gp) as [Zp Zl].
    apply loopF_ok in El; auto.
    - destruct El as (O & P & S & L & _ & Un & Dn). simpl in O.
      constructor; auto; simpl.
      + rewrite L. exact O.
      + intros D e. rewrite (S D e), Zl. destruct (lookup (topology c) D e); simpl; split; congruence.
      + intros y Hy. unfold dofs_on. rewrite Un by auto. rewrite Zl. destruct (lookup (topology c) (fst y) (snd y)); reflexivity.
      + intros D e Hin. eapply Pts. apply (Permutation_in _ PS). exact Hin.
    - apply SS_NoDup; exact SS.
    - intros x Hx. rewrite Zl. assert (Hf : is_facet c (fst x)) by (apply FL; apply in_map; auto).
      destruct Hf as [Hf _]. destruct (lookup (topology c) (fst (fst x)) (snd (fst x))); [discriminate|congruence].
  Qed.

  Lemma seq_blocks (ids : dict (list nat)) (pts : list vec) c : forall F off,
    (forall F1 x F2, F = F1 ++ x :: F2 -> facet_done c ids pts (off + nfsum F1) x) ->
    flat_map (dofs_on ids) (map fst F) = seq off (nfsum F).
  Proof.
    induction F as [|x F IH]; intros off H; [reflexivity|]. simpl.
    destruct (H [] x F eq_refl) as (ps & T & E & _ & L & _). unfold nfsum in *. simpl in *. rewrite Nat.add_0_r in L.
    unfold dofs_on at 1. rewrite L. assert (N : nf (snd x) = length ps) by (unfold nf; rewrite E; auto).
    rewrite seq_app, N. f_equal. apply IH. intros F1 y F2 ->.
    specialize (H (x :: F1) y F2 eq_refl). simpl in H. rewrite N in H. rewrite <- Nat.add_assoc. exact H.
  Qed.

  (** ** the search loop of [tabulate] *)
  Variable dg_tabulate : dgel -> nat -> list vec -> result (list (list (list K))).
  Definition search_step (entity : dimT * nat) (points : list vec) (x : facet) (st : nat * option (nat * list (list K))) :=
    let '(offset, found) := st in
    if deqb (fst (fst x)) (fst entity) && Nat.eqb (snd (fst x)) (snd entity) then
      bind (dg_tabulate (snd x) 0 points) (fun tables =>
        match tables with [rows] => Ok (offset + nf (snd x), Some (offset, rows)) | _ => Err ValueError end)
    else Ok (offset + nf (snd x), found).
  Fixpoint search (entity : dimT * nat) (points : list vec) (F : list facet) st :=
    match F with [] => Ok st | x :: F' => bind (search_step entity points x st) (search entity points F') end.
  Lemma search_app entity points F G st : search entity points (F ++ G) st = bind (search entity points F st) (search entity points G).
  Proof. revert st. induction F as [|x F IH]; simpl; intros st; auto. destruct (search_step entity points x st); simpl; auto. Qed.
  Lemma find_facet_search T entity points : forall dgs st,
    (forall D e, In (D, e) dgs -> exists ps, dg_points K e = Ok ps) ->
    find_facet K dg_tabulate T entity points dgs st = search entity points (flat_facets (tr_cell K T) dgs) st.
  Proof.
    induction dgs as [|[D e] dgs IH]; intros st H; [reflexivity|]. cbn [find_facet].
    destruct (H D e (or_introl eq_refl)) as (ps & E). rewrite E. cbn [bind].
    change (flat_facets (tr_cell K T) ((D, e) :: dgs)) with
      (map (fun i => (D, i, e)) (range 0 (num_entities (tr_cell K T) D)) ++ flat_facets (tr_cell K T) dgs).
    rewrite search_app. assert (N : nf e = length ps) by (unfold nf; rewrite E; auto).
    assert (G : forall is s0, fold_left (fun st0 i => bind st0 (fun '(offset, found) =>
        if deqb D (fst entity) && Nat.eqb i (snd entity) then
          bind (dg_tabulate e 0 points) (fun tables => match tables with [rows] => Ok (offset + length ps, Some (offset, rows)) | _ => Err ValueError end)
        else Ok (offset + length ps, found))) is s0 = bind s0 (search entity points (map (fun i => (D, i, e)) is))).
    { induction is as [|i is IHi]; intros s0; simpl; [destruct s0; reflexivity|]. rewrite IHi. destruct s0 as [[o f]|]; simpl; auto.
      rewrite N. reflexivity. }
    rewrite G. cbn [bind]. destruct (search entity points (map (fun i => (D, i, e)) (range 0 (num_entities (tr_cell K T) D))) st) as [s1|er]; cbn [bind]; auto.
    apply IH. intros D' e' Hin. apply (H D' e'). right; auto.
  Qed.
  Lemma search_skip entity points F : ~ In entity (map fst F) -> forall off found,
    search entity points F (off, found) = Ok (off + nfsum F, found).
  Proof.
    induction F as [|x F IH]; intros H off found; unfold nfsum; simpl; [f_equal; f_equal; lia|].
    destruct (deqb (fst (fst x)) (fst entity) && Nat.eqb (snd (fst x)) (snd entity)) eqn:B.
    - exfalso. apply H. left. apply andb_true_iff in B as [B1 B2]. apply deqb_eq in B1. apply Nat.eqb_eq in B2.
      destruct (fst x), entity; simpl in *; subst; auto.
    - simpl. rewrite IH by (intros X; apply H; right; auto). unfold nfsum. f_equal. f_equal. lia.
  Qed.
  Lemma search_found points F1 x F2 rows : NoDup (map fst (F1 ++ x :: F2)) -> dg_tabulate (snd x) 0 points = Ok [rows] ->
    search (fst x) points (F1 ++ x :: F2) (0, None) = Ok (nfsum (F1 ++ x :: F2), Some (nfsum F1, rows)).
  Proof.
    intros ND E. rewrite map_app in ND. simpl in ND. apply NoDup_remove_2 in ND. rewrite in_app_iff in ND.
    rewrite search_app, search_skip by tauto. simpl. rewrite deqb_refl, Nat.eqb_refl. simpl. rewrite E. simpl.
    rewrite search_skip by tauto. f_equal. f_equal. rewrite nfsum_app. unfold nfsum. simpl. lia.
  Qed.
End P.
