(** C13, index selection: what a restriction domain selects. *)
From Coq Require Import String Permutation.
From Verif Require Import Base ModelIndex Sorting ModelCell SpecCell SpecCart ProofsCell ModelConcat SpecConcat
  ProofsIds ModelRestricted SpecRestricted ProofsRestricted.

(** On a cell whose entities have integer dimensions: exactly the dofs on
    entities of admissible dimension, each once, provided every admissible
    dimension exists; otherwise KeyError. *)
Theorem C13_simplex_domain_selects_admissible_dofs :
  forall ids n sd domain, proper_dict ids -> partitions ids n -> ids <> [] ->
    (forall d, In d (keys ids) -> exists k, d = DI k) ->
    documented_domain domain -> domain <> "interior"%string ->
    ((forall d, admissible domain sd d -> In (DI d) (keys ids)) ->
     exists l, get_indices ids sd domain = Ok l /\ NoDup l /\
       forall x, In x l <-> exists d e, admissible domain sd d /\ In x (dofs_on ids (DI d, e))) /\
    ((exists d, admissible domain sd d /\ ~ In (DI d) (keys ids)) -> get_indices ids sd domain = Err KeyError).
Proof.
  intros ids n sd domain HD HP Hne Hk Hdoc Hint.
  assert (HE : exists m, domain_end domain sd = Ok m /\ forall d, admissible domain sd d <-> d < m).
  { unfold domain_end, admissible. destruct Hdoc as [->|[->|[->|[->| ->]]]]; [congruence| | | |]; simpl.
    - exists 1. split; auto. intros d. split; [intros [[_ H]|[[H _]|[[H _]|[H _]]]]; try discriminate; lia|]. left; split; auto; lia.
    - exists 2. split; auto. intros d. split; [intros [[H _]|[[_ H]|[[H _]|[H _]]]]; try discriminate; lia|]. right; left; split; auto; lia.
    - exists 3. split; auto. intros d. split; [intros [[H _]|[[H _]|[[_ H]|[H _]]]]; try discriminate; lia|]. right; right; left; split; auto; lia.
    - exists sd. split; auto. intros d. split; [intros [[H _]|[[H _]|[[H _]|[_ H]]]]; try discriminate; lia|]. right; right; right; split; auto; lia. }
  destruct HE as (m & HE & HA).
  assert (HM : exists k, max_key ids = Some (DI k)).
  { destruct (max_key ids) as [mk|] eqn:E.
    - apply max_key_in in E as [E _]. apply Hk in E as [k ->]. eauto.
    - destruct ids as [|[? ?] ?]; [contradiction|discriminate]. }
  destruct HM as [k HM].
  assert (HG : get_indices ids sd domain =
    if forallb (fun d => match dlookup (DI d) ids with Some _ => true | None => false end) (seq 0 m)
    then Ok (flat_map (fun d => match dlookup (DI d) ids with Some es => entity_indices es | None => [] end) (seq 0 m))
    else Err KeyError).
  { unfold get_indices. rewrite (proj2 (String.eqb_neq _ _) Hint), HE, HM. unfold range. rewrite Nat.sub_0_r.
    rewrite simplex_indices; auto. }
  assert (HL : forall d, dlookup (DI d) ids = None <-> ~ In (DI d) (keys ids)).
  { intros d. destruct HD as [HD _]. split.
    - intros H Hi. apply in_map_iff in Hi as ([d1 es] & Hd & Hi). simpl in Hd; subst d1. apply dlookup_in in Hi; [congruence|auto].
    - intros H. destruct (dlookup (DI d) ids) eqn:EE; auto. exfalso. apply H. apply dlookup_in in EE; [|auto].
      apply in_map_iff. eexists; split; [|exact EE]; reflexivity. }
  rewrite HG. split.
  - intros Hall.
    assert (HB : forallb (fun d => match dlookup (DI d) ids with Some _ => true | None => false end) (seq 0 m) = true).
    { apply forallb_forall. intros d Hd. apply in_seq in Hd. destruct (dlookup (DI d) ids) eqn:E; auto.
      exfalso. apply HL in E. apply E, Hall, HA. lia. }
    rewrite HB. eexists. split; [reflexivity|]. split.
    + pose proof (dims_NoDup ids n (map DI (seq 0 m)) HD HP) as ND.
      rewrite flat_map_concat_map in ND |- *. rewrite map_map in ND. apply ND.
      apply FinFun.Injective_map_NoDup; [intros ? ? [=]; auto|apply seq_NoDup].
    + intros x. rewrite in_flat_map. split.
      * intros (d & Hd & Hx). apply in_dim_indices in Hx as (e & Hx); auto. exists d, e. split; auto. apply HA. apply in_seq in Hd. lia.
      * intros (d & e & Hd & Hx). exists d. split; [apply in_seq; apply HA in Hd; lia|]. apply in_dim_indices; eauto.
  - intros (d & Hd & Hn).
    destruct (forallb (fun d => match dlookup (DI d) ids with Some _ => true | None => false end) (seq 0 m)) eqn:HB; auto.
    rewrite forallb_forall in HB. specialize (HB d). apply HL in Hn. rewrite Hn in HB.
    assert (H : false = true) by (apply HB, in_seq; apply HA in Hd; lia). discriminate.
Qed.

(** On a product of two cells: exactly the dofs on entities whose dimensions
    add up to an admissible dimension. *)
Theorem C13_product_domain_selects_admissible_dofs :
  forall ids n sd domain, proper_dict ids -> partitions ids n -> ids <> [] ->
    (forall d, In d (keys ids) -> exists a b, d = DT [DI a; DI b]) ->
    documented_domain domain -> domain <> "interior"%string ->
    exists l, get_indices ids sd domain = Ok l /\ NoDup l /\
       forall x, In x l <-> exists a b e, admissible domain sd (a + b) /\ In x (dofs_on ids (DT [DI a; DI b], e)).
Proof.
  intros ids n sd domain HD HP Hne Hk Hdoc Hint.
  assert (HE : exists m, domain_end domain sd = Ok m /\ forall d, admissible domain sd d <-> d < m).
  { unfold domain_end, admissible. destruct Hdoc as [->|[->|[->|[->| ->]]]]; [congruence| | | |]; simpl.
    - exists 1. split; auto. intros d. split; [intros [[_ H]|[[H _]|[[H _]|[H _]]]]; try discriminate; lia|]. left; split; auto; lia.
    - exists 2. split; auto. intros d. split; [intros [[H _]|[[_ H]|[[H _]|[H _]]]]; try discriminate; lia|]. right; left; split; auto; lia.
    - exists 3. split; auto. intros d. split; [intros [[H _]|[[H _]|[[_ H]|[H _]]]]; try discriminate; lia|]. right; right; left; split; auto; lia.
    - exists sd. split; auto. intros d. split; [intros [[H _]|[[H _]|[[H _]|[_ H]]]]; try discriminate; lia|]. right; right; right; split; auto; lia. }
  destruct HE as (m & HE & HA).
  assert (HM : exists k, max_key ids = Some (DT k)).
  { destruct (max_key ids) as [mk|] eqn:E.
    - apply max_key_in in E as [E _]. apply Hk in E as (a & b & ->). eauto.
    - destruct ids as [|[? ?] ?]; [contradiction|discriminate]. }
  destruct HM as [k HM].
  eexists. split; [|split].
  - unfold get_indices. rewrite (proj2 (String.eqb_neq _ _) Hint), HE, HM. reflexivity.
  - pose (ds := flat_map (fun d => map (fun a => DT [DI a; DI (d - a)]) (range 0 (d + 1))) (range 0 m)).
    pose proof (dims_NoDup ids n ds HD HP) as ND.
    assert (HEq : flat_map (fun d => match dlookup d ids with Some es => entity_indices es | None => [] end) ds =
      flat_map (fun d => flat_map (fun a => match dlookup (DT [DI a; DI (d - a)]) ids with
              | Some es => entity_indices es | None => [] end) (range 0 (d + 1))) (range 0 m)).
    { unfold ds. clear. induction (range 0 m) as [|d l IH]; simpl; auto. rewrite <- IH, flat_map_app. f_equal.
      clear. generalize (range 0 (d + 1)) as r. induction r as [|a r IHr]; simpl; auto. now rewrite IHr. }
    rewrite <- HEq. apply ND. unfold ds. apply NoDup_flat_map.
    + apply seq_NoDup.
    + intros d _. apply FinFun.Injective_map_NoDup; [intros ? ? [=]; auto|apply seq_NoDup].
    + intros d d' x _ _ Hx Hx'. apply in_map_iff in Hx as (a & <- & Ha). apply in_map_iff in Hx' as (a' & [= -> He] & Ha').
      apply in_range in Ha, Ha'. lia.
  - intros x. rewrite in_flat_map. split.
    + intros (d & Hd & Hx). apply in_flat_map in Hx as (a & Ha & Hx). apply in_dim_indices in Hx as (e & Hx); auto.
      exists a, (d - a), e. split; auto. apply HA. apply in_range in Hd, Ha. lia.
    + intros (a & b & e & Hd & Hx). exists (a + b). split; [apply in_range; apply HA in Hd; lia|].
      apply in_flat_map. exists a. split; [apply in_range; lia|]. replace (a + b - a) with b by lia.
      apply in_dim_indices; eauto.
Qed.

(** "interior": the dofs of entity 0 of the greatest dimension. *)
Theorem C13_interior_selects_top_dofs :
  forall ids sd m, proper_dict ids -> In m (keys ids) -> (forall d, In d (keys ids) -> dleb d m = true) ->
    lookup ids m 0 <> None ->
    get_indices ids sd "interior" = Ok (dofs_on ids (m, 0)).
Proof.
  intros ids sd m HD Hm Hmax Hl. unfold get_indices; simpl.
  destruct (max_key ids) as [m'|] eqn:E.
  - apply max_key_in in E as [E1 E2]. replace m' with m by (apply dleb_antisym; auto).
    unfold dofs_on; simpl. destruct (lookup ids m 0); [auto|contradiction].
  - destruct ids as [|[? ?] ?]; [contradiction|discriminate].
Qed.

(** Anything else is refused. *)
Theorem C13_unknown_domain_refused :
  forall ids sd domain, ~ documented_domain domain -> get_indices ids sd domain = Err RuntimeError.
Proof.
  intros ids sd domain Hn. unfold get_indices, domain_end, documented_domain in *.
  destruct (String.eqb_spec domain "interior"); [tauto|].
  destruct (String.eqb_spec domain "vertex"); [tauto|].
  destruct (String.eqb_spec domain "edge"); [tauto|].
  destruct (String.eqb_spec domain "face"); [tauto|].
  destruct (String.eqb_spec domain "facet"); [tauto|]. reflexivity.
Qed.

(** REFUTED on products that are not products of exactly two simplices (the
    keys of a product of three cells are triples, those of a product of a
    product are nested): no dof is ever found and the restriction is refused
    as empty, although dofs are attached to vertices. *)
Theorem C13_nested_product_domain_refuted :
  forall ids sd domain, proper_dict ids -> ids <> [] ->
    (forall d, In d (keys ids) -> exists l, d = DT l /\ (length l <> 2 \/ Exists (fun x => exists l', x = DT l') l)) ->
    documented_domain domain -> domain <> "interior"%string ->
    choose_indices ids sd [] domain = Err ValueError.
Proof.
  intros ids sd domain HD Hne Hk Hdoc Hint. unfold choose_indices.
  assert (H0 : String.eqb domain "" = false).
  { apply String.eqb_neq. destruct Hdoc as [->|[->|[->|[->| ->]]]]; discriminate. }
  rewrite H0.
  assert (HE : exists m, domain_end domain sd = Ok m).
  { unfold domain_end. destruct Hdoc as [->|[->|[->|[->| ->]]]]; [congruence| | | |]; simpl; eauto. }
  destruct HE as (m & HE).
  assert (HM : exists k, max_key ids = Some (DT k)).
  { destruct (max_key ids) as [mk|] eqn:E.
    - apply max_key_in in E as [E _]. apply Hk in E as (a & -> & _). eauto.
    - destruct ids as [|[? ?] ?]; [contradiction|discriminate]. }
  destruct HM as [k HM].
  unfold get_indices. rewrite (proj2 (String.eqb_neq _ _) Hint), HE, HM.
  rewrite (flat_map_ext _ (fun _ => [])).
  { replace (flat_map (fun _ : nat => @nil nat) (range 0 m)) with (@nil nat); auto. clear. induction (range 0 m); auto. }
  intros d. rewrite (flat_map_ext _ (fun _ => [])).
  { clear. induction (range 0 (d + 1)); auto. }
  intros a. destruct (dlookup (DT [DI a; DI (d - a)]) ids) as [es|] eqn:E; auto.
  apply dlookup_in in E; [|apply HD]. assert (Hi : In (DT [DI a; DI (d - a)]) (keys ids)) by (apply in_map_iff; eexists; split; eauto; auto).
  apply Hk in Hi as (l & [= <-] & [Hl|Hl]); [simpl in Hl; congruence|].
  inversion Hl as [? ? (l' & Hx)|? ? Hl2]; subst; [discriminate|]. inversion Hl2 as [? ? (l' & Hx)|? ? Hl3]; subst; [discriminate|inversion Hl3].
Qed.

Example C13_triangle_facets :
  get_indices [(DI 0, [(0, [0]); (1, [1]); (2, [2])]); (DI 1, [(0, [3]); (1, [4]); (2, [5])]); (DI 2, [(0, [6])])] 2 "facet"
  = Ok [0; 1; 2; 3; 4; 5].
Proof. reflexivity. Qed.
Example C13_hexahedron_product_refused :
  choose_indices [(DT [DI 0; DI 0; DI 0], [(0, [0]); (1, [1]); (2, [2]); (3, [3]); (4, [4]); (5, [5]); (6, [6]); (7, [7])])]
    3 [] "vertex" = Err ValueError.
Proof. reflexivity. Qed.
Print Assumptions C13_simplex_domain_selects_admissible_dofs.
Print Assumptions C13_product_domain_selects_admissible_dofs.
Print Assumptions C13_nested_product_domain_refuted.
