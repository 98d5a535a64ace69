(** Entity dof dictionaries of concatenated elements. *)
From Coq Require Import Sorted Permutation.
From Verif Require Import Base ModelIndex Sorting ModelCell ModelArray ModelConcat SpecCell SpecConcat
  ProofsCell ProofsConcat ProofsTopo.

Definition dkeys {V} (t : dict V) : list (dimT * nat) := flat_map (fun '(d, es) => map (pair d) (keys es)) t.

Lemma in_dkeys {V} (t : dict V) x : proper_dict t -> (In x (dkeys t) <-> lookup t (fst x) (snd x) <> None).
Proof.
  intros Hp. unfold dkeys. rewrite in_flat_map. destruct x as [d e]; simpl. split.
  - intros ([d' es] & H1 & H2). apply in_map_iff in H2 as (e' & E & H2). inversion E; subst.
    apply in_map_iff in H2 as ([e' v] & E' & H2). simpl in E'; subst.
    assert (lookup t d e = Some v) by (apply lookup_in; eauto). congruence.
  - destruct (lookup t d e) as [v|] eqn:E; [|congruence]. intros _.
    apply lookup_in in E as (es & H1 & H2); auto. exists (d, es). split; auto.
    apply in_map. apply in_map_iff. exists (e, v); auto.
Qed.
Lemma dkeys_NoDup {V} (t : dict V) : proper_dict t -> NoDup (dkeys t).
Proof.
  intros [H1 H2]. unfold dkeys. apply NoDup_flat_map.
  - apply keys_NoDup_items; auto.
  - intros [d es] Hin. apply NoDup_map_in; [eapply H2; eauto|]. intros x y _ _ E; inversion E; auto.
  - intros [d es] [d' es'] [a b] A B C D.
    apply in_map_iff in C as (x & E & _), D as (x' & E' & _). inversion E; inversion E'; subst.
    f_equal. rewrite <- dlookup_in in A, B by auto. congruence.
Qed.

Lemma all_dofs_eq (ids : dict (list nat)) : proper_dict ids -> all_dofs ids = flat_map (dofs_on ids) (dkeys ids).
Proof.
  intros Hp. unfold all_dofs, dkeys.
  assert (G : forall t : dict (list nat), (forall d es, In (d, es) t -> In (d, es) ids) ->
    flat_map (fun '(_, es) => flat_map snd es) t = flat_map (dofs_on ids) (flat_map (fun '(d, es) => map (pair d) (keys es)) t)).
  { induction t as [|[d es] t IH]; simpl; intros H; auto. rewrite IH by (intros; apply H; auto).
    rewrite flat_map_app. f_equal.
    assert (Hes : forall e v, In (e, v) es -> lookup ids d e = Some v) by (intros; apply lookup_in; eauto).
    clear -Hes. induction es as [|[e v] es IH]; simpl; auto. rewrite IH by (intros; apply Hes; simpl; auto).
    f_equal. unfold dofs_on; simpl. rewrite (Hes e v) by (simpl; auto). reflexivity. }
  apply G; auto.
Qed.

Lemma Permutation_flat_map_l {A B} (f : A -> list B) l l' : Permutation l l' -> Permutation (flat_map f l) (flat_map f l').
Proof.
  induction 1; simpl; auto.
  - apply Permutation_app_head; auto.
  - rewrite !app_assoc. apply Permutation_app_tail. apply Permutation_app_comm.
  - eapply perm_trans; eauto.
Qed.
Lemma flat_map_app_perm {A B} (f g : A -> list B) l :
  Permutation (flat_map (fun x => f x ++ g x) l) (flat_map f l ++ flat_map g l).
Proof.
  induction l as [|x l IH]; simpl; auto. rewrite <- !app_assoc. apply Permutation_app_head.
  eapply perm_trans; [apply Permutation_app_head; exact IH|].
  rewrite !app_assoc. apply Permutation_app_tail. apply Permutation_app_comm.
Qed.

Lemma all_dofs_perm (ids : dict (list nat)) L : proper_dict ids -> NoDup L ->
  (forall x, lookup ids (fst x) (snd x) <> None -> In x L) ->
  (forall x, In x L -> lookup ids (fst x) (snd x) <> None) ->
  Permutation (all_dofs ids) (flat_map (dofs_on ids) L).
Proof.
  intros Hp ND H1 H2. rewrite all_dofs_eq by auto. apply Permutation_flat_map_l.
  apply NoDup_Permutation; auto using dkeys_NoDup. intros x. rewrite in_dkeys by auto. split; auto.
Qed.

(** ** one update *)
Definition appended (acc : dict (list nat)) (d : dimT) (e : nat) (l : list nat) (acc' : dict (list nat)) : Prop :=
  proper_dict acc' /\
  forall d' e', lookup acc' d' e' =
    if deqb d' d && Nat.eqb e' e then Some (dofs_on acc (d, e) ++ l) else lookup acc d' e'.

Lemma eset_keys {V} e (v : V) es : In e (keys es) -> keys (eset e v es) = keys es.
Proof.
  induction es as [|[a b] es IH]; simpl; [tauto|]. intros [->|H].
  - rewrite Nat.eqb_refl; auto.
  - destruct (Nat.eqb_spec e a) as [->|]; simpl; f_equal; auto.
Qed.
Lemma elookup_keys {V} e (es : ents V) : elookup e es <> None <-> In e (keys es).
Proof.
  induction es as [|[a b] es IH]; simpl; [tauto|]. destruct (Nat.eqb_spec e a) as [->|Hne].
  - split; auto. discriminate.
  - rewrite IH. split; auto. intros [->|H]; [congruence|auto].
Qed.
Lemma dset_in_proper {V} d e (v : V) t t' : proper_dict t -> lookup t d e <> None ->
  dset_in d e v t = Some t' -> proper_dict t'.
Proof.
  intros [H1 H2] Hl H.
  assert (G : map (fun x => (fst x, keys (snd x))) t' = map (fun x => (fst x, keys (snd x))) t).
  { revert t' H Hl. clear. unfold lookup. induction t as [|[d0 es] t IH]; intros t' H Hl; simpl in *; [discriminate|].
    destruct (deqb d d0) eqn:E.
    - inversion H; subst. simpl. rewrite eset_keys; auto. apply elookup_keys; auto.
    - destruct (dset_in d e v t) as [t''|] eqn:Ed; [|discriminate]. inversion H; subst. simpl. f_equal. apply IH; auto. }
  split.
  - assert (Ek : keys t' = keys t).
    { unfold keys. apply (f_equal (map fst)) in G. rewrite !map_map in G. exact G. }
    rewrite Ek; auto.
  - intros d' es Hin. assert (Hin' : In (d', keys es) (map (fun x => (fst x, keys (snd x))) t')).
    { apply in_map_iff. exists (d', es); auto. }
    rewrite G in Hin'. apply in_map_iff in Hin' as ([d'' es'] & E & Hin'). simpl in E. injection E as E1 E2. subst d''.
    rewrite <- E2. eapply H2; eauto.
Qed.

Lemma dappend_ok acc d e l : proper_dict acc -> lookup acc d e <> None ->
  exists acc', dappend acc d e l = Ok acc' /\ appended acc d e l acc'.
Proof.
  intros Hp Hl. unfold dappend. destruct (lookup acc d e) as [l0|] eqn:E; [|congruence].
  assert (Hin : In d (keys acc)).
  { apply lookup_in in E as (es & H1 & _); auto. apply in_map_iff. exists (d, es); auto. }
  destruct (dset_in_some d e (l0 ++ l) acc Hin) as (t' & H1 & H2 & H3). rewrite H1.
  exists t'. split; auto. split.
  - eapply dset_in_proper; eauto. rewrite E; discriminate.
  - intros d' e'. rewrite H3. unfold dofs_on; simpl. rewrite E. reflexivity.
Qed.

Lemma add_dofs_ok off : forall items acc, proper_dict acc ->
  NoDup (map fst items) -> (forall d e l, In (d, e, l) items -> lookup acc d e <> None) ->
  exists acc', add_dofs off items acc = Ok acc' /\ proper_dict acc' /\
    forall d e, lookup acc' d e =
      match find (fun x => deqb d (fst (fst x)) && Nat.eqb e (snd (fst x))) items with
      | Some (_, l) => Some (dofs_on acc (d, e) ++ map (Nat.add off) l)
      | None => lookup acc d e
      end.
Proof.
  induction items as [|[[d0 e0] l0] items IH]; intros acc Hp ND Hin.
  - simpl. exists acc. split; auto.
  - cbn [add_dofs]. inversion ND as [|? ? Hni ND']; subst.
    destruct (dappend_ok acc d0 e0 (map (Nat.add off) l0) Hp) as (acc1 & E1 & P1 & L1).
    { eapply Hin; simpl; eauto. }
    rewrite E1. destruct (IH acc1 P1 ND') as (acc' & E' & P' & L').
    { intros d e l H. rewrite L1. destruct (_ && _); [discriminate|]. eapply Hin; simpl; eauto. }
    exists acc'. split; [exact E'|]. split; [exact P'|]. intros d e. rewrite L'. cbn [find fst snd].
    destruct (deqb d d0 && Nat.eqb e e0) eqn:E.
    + apply andb_true_iff in E as [A B]. apply deqb_eq in A. apply Nat.eqb_eq in B. subst.
      assert (Hf : find (fun x => deqb d0 (fst (fst x)) && Nat.eqb e0 (snd (fst x))) items = None).
      { destruct (find _ items) as [[[d e] l]|] eqn:F; auto. apply find_some in F as [F1 F2].
        simpl in F2. apply andb_true_iff in F2 as [A B]. apply deqb_eq in A. apply Nat.eqb_eq in B. subst.
        exfalso. apply Hni. apply in_map_iff. exists (d, e, l); auto. }
      rewrite Hf. rewrite L1, deqb_refl, Nat.eqb_refl. reflexivity.
    + destruct (find _ items) as [[[d' e'] l]|]; [|rewrite L1, E; auto].
      f_equal. f_equal. unfold dofs_on; simpl. rewrite L1, E. reflexivity.
Qed.

Lemma flatten_dict_keys {V} (t : dict V) : map fst (flatten_dict t) = dkeys t.
Proof.
  unfold flatten_dict, dkeys. induction t as [|[d es] t IH]; simpl; auto. rewrite map_app, IH. f_equal.
  unfold keys. rewrite !map_map. apply map_ext. intros [e v]; auto.
Qed.
Lemma in_flatten_dict {V} (t : dict V) d e v : proper_dict t -> (In (d, e, v) (flatten_dict t) <-> lookup t d e = Some v).
Proof.
  intros Hp. rewrite lookup_in by auto. unfold flatten_dict. rewrite in_flat_map. split.
  - intros ([d' es] & H1 & H2). apply in_map_iff in H2 as ([e' v'] & E & H2). inversion E; subst. eauto.
  - intros (es & H1 & H2). exists (d, es). split; auto. apply in_map_iff. exists (e, v); auto.
Qed.
Lemma find_flatten {V} (t : dict V) d e : proper_dict t ->
  find (fun x => deqb d (fst (fst x)) && Nat.eqb e (snd (fst x))) (flatten_dict t) =
  match lookup t d e with Some v => Some (d, e, v) | None => None end.
Proof.
  intros Hp. destruct (find _ (flatten_dict t)) as [[[d' e'] v]|] eqn:F.
  - apply find_some in F as [F1 F2]. simpl in F2. apply andb_true_iff in F2 as [A B].
    apply deqb_eq in A. apply Nat.eqb_eq in B. subst. apply in_flatten_dict in F1; auto. rewrite F1; auto.
  - destruct (lookup t d e) as [v|] eqn:E; auto. apply in_flatten_dict in E; auto.
    eapply find_none in F; [|exact E]. simpl in F. rewrite deqb_refl, Nat.eqb_refl in F. discriminate.
Qed.

Fixpoint cat_from (off : nat) (els : list (nat * dict (list nat))) (x : dimT * nat) : list nat :=
  match els with
  | [] => []
  | (n, ids) :: els' => map (Nat.add off) (dofs_on ids x) ++ cat_from (off + n) els' x
  end.
Lemma cat_from_concatenated els x : cat_from 0 els x = concatenated els x.
Proof.
  unfold concatenated.
  assert (G : forall els off, cat_from off els x =
    flat_map (fun i => map (fun k => off + block_start (map fst els) i + k) (dofs_on (snd (nth i els (0, []))) x))
             (seq 0 (length els))).
  { clear. induction els as [|[n ids] els IH]; intros off; simpl; auto. f_equal.
    - apply map_ext. intros; unfold block_start; simpl; lia.
    - rewrite IH. rewrite <- seq_shift, flat_map_concat_map, flat_map_concat_map, map_map. f_equal.
      apply map_ext. intros i. apply map_ext. intros k. rewrite block_start_cons. lia. }
  rewrite G. reflexivity.
Qed.

Lemma add_elements_ok (t : topo) : forall els off acc, proper_dict acc -> same_entities acc t ->
  Forall (fun e => proper_dict (snd e) /\ same_entities (snd e) t) els ->
  exists r, add_elements off els acc = Ok r /\ proper_dict r /\ same_entities r t /\
    forall d e, lookup t d e <> None -> lookup r d e = Some (dofs_on acc (d, e) ++ cat_from off els (d, e)).
Proof.
  induction els as [|[n ids] els IH]; intros off acc Hp Hs Hf.
  - simpl. exists acc. split; auto. split; auto. split; auto. intros d e H. rewrite app_nil_r.
    unfold dofs_on; simpl. destruct (lookup acc d e) eqn:E; auto. apply Hs in E. congruence.
  - cbn [add_elements]. inversion Hf as [|? ? [Pi Si] Hf']; subst. simpl in Pi, Si.
    destruct (add_dofs_ok off (flatten_dict ids) acc Hp) as (acc1 & E1 & P1 & L1).
    { rewrite flatten_dict_keys. apply dkeys_NoDup; auto. }
    { intros d e l H. apply in_flatten_dict in H; auto. intros Hn. apply Hs in Hn. apply Si in Hn. congruence. }
    rewrite E1.
    assert (L1' : forall d e, lookup t d e <> None -> lookup acc1 d e = Some (dofs_on acc (d, e) ++ map (Nat.add off) (dofs_on ids (d, e)))).
    { intros d e H. rewrite L1, find_flatten by auto. 
      replace (dofs_on ids (d, e)) with (option_list (lookup ids d e)) by reflexivity.
      destruct (lookup ids d e) eqn:E; [reflexivity|]. apply Si in E. congruence. }
    assert (S1 : same_entities acc1 t).
    { intros d e. split; intros H.
      - destruct (lookup t d e) eqn:E; auto. rewrite L1' in H; [discriminate|congruence].
      - rewrite L1, find_flatten by auto. rewrite (proj2 (Si d e) H). apply Hs; auto. }
    destruct (IH (off + n) acc1 P1 S1 Hf') as (r & Er & Pr & Sr & Lr).
    exists r. split; [exact Er|]. split; auto. split; auto. intros d e H. rewrite Lr by auto. f_equal.
    unfold dofs_on at 1; simpl. rewrite L1' by auto. simpl. rewrite <- app_assoc. reflexivity.
Qed.

Lemma partitions_cat (els : list (nat * dict (list nat))) L : forall off,
  NoDup L ->
  Forall (fun e => proper_dict (snd e) /\ (forall x, In x L <-> lookup (snd e) (fst x) (snd x) <> None) /\
                   partitions (snd e) (fst e)) els ->
  Permutation (flat_map (cat_from off els) L) (seq off (nsum (map fst els))).
Proof.
  induction els as [|[n ids] els IH]; intros off ND Hf; cbn [cat_from map nsum fold_right].
  - clear. induction L; simpl in *; auto.
  - inversion Hf as [|? ? (P & HL & Hpart) Hf']; subst. simpl in *.
    eapply perm_trans; [apply flat_map_app_perm|]. rewrite seq_app. apply Permutation_app.
    + assert (Permutation (flat_map (dofs_on ids) L) (seq 0 n)).
      { eapply perm_trans; [symmetry; apply all_dofs_perm; auto|exact Hpart]; intros x; apply HL. }
      apply (Permutation_map (Nat.add off)) in H.
      replace (flat_map (fun x => map (Nat.add off) (dofs_on ids x)) L)
        with (map (Nat.add off) (flat_map (dofs_on ids) L)).
      * eapply perm_trans; [exact H|]. replace (map (Nat.add off) (seq 0 n)) with (seq off n); auto.
        clear. revert off. induction n as [|n IH]; intros off; auto.
        rewrite !seq_S, map_app, <- IH. simpl. reflexivity.
      * rewrite flat_map_concat_map, concat_map, map_map, flat_map_concat_map. reflexivity.
    + apply IH; auto. 
Qed.

Lemma init_dict (t : topo) : proper_dict t ->
  let z : dict (list nat) := map (fun '(d, es) => (d, map (fun '(i, _) => (i, [])) es)) t in
  proper_dict z /\ (forall d e, lookup z d e = option_map (fun _ => []) (lookup t d e)).
Proof.
  intros [H1 H2] z.
  assert (Kz : keys z = keys t) by (unfold z, keys; rewrite map_map; apply map_ext; intros [d es]; auto).
  split.
  - split; [rewrite Kz; auto|]. intros d es Hin. unfold z in Hin. apply in_map_iff in Hin as ([d' es'] & E & Hin).
    inversion E; subst. replace (keys (map (fun '(i, _) => (i, [])) es')) with (keys es'); [eapply H2; eauto|].
    unfold keys. rewrite map_map. apply map_ext. intros [a b]; auto.
  - intros d e. unfold lookup, z. clear. induction t as [|[d' es] t IH]; simpl; auto.
    destruct (deqb d d'); auto. clear. induction es as [|[a b] es IH]; simpl; auto. destruct (Nat.eqb e a); auto.
Qed.

Lemma concatenate_ok t els : proper_dict t ->
  Forall (fun e => proper_dict (snd e) /\ same_entities (snd e) t) els ->
  exists r, concatenate_entity_dofs t els = Ok r /\ proper_dict r /\ same_entities r t /\
    (forall d e, lookup t d e <> None -> lookup r d e = Some (concatenated els (d, e))) /\
    (Forall (fun e => partitions (snd e) (fst e)) els -> partitions r (nsum (map fst els))).
Proof.
  intros Hp Hf. unfold concatenate_entity_dofs.
  destruct (init_dict t Hp) as [Pz Lz]. set (z := map _ t) in *.
  destruct (add_elements_ok t els 0 z Pz) as (r & Er & Pr & Sr & Lr); auto.
  { intros d e. rewrite Lz. destruct (lookup t d e); simpl; split; auto; discriminate. }
  assert (Lr' : forall d e, lookup t d e <> None -> lookup r d e = Some (cat_from 0 els (d, e))).
  { intros d e H. rewrite Lr by auto. f_equal. unfold dofs_on; simpl. rewrite Lz.
    destruct (lookup t d e); simpl; auto. }
  exists r. split; [exact Er|]. split; auto. split; auto. split.
  - intros d e H. rewrite <- cat_from_concatenated. auto.
  - intros Hpart. unfold partitions.
    eapply perm_trans; [apply (all_dofs_perm r (dkeys t)); auto using dkeys_NoDup|].
    + intros x H. apply in_dkeys; auto. intros Hn. apply Sr in Hn. congruence.
    + intros x H. apply in_dkeys in H; auto. intros Hn. apply Sr in Hn. congruence.
    + eapply perm_trans; [|apply (partitions_cat els (dkeys t) 0); auto using dkeys_NoDup].
      * assert (G : flat_map (dofs_on r) (dkeys t) = flat_map (cat_from 0 els) (dkeys t)); [|rewrite G; auto].
        assert (Hin : forall x, In x (dkeys t) -> dofs_on r x = cat_from 0 els x).
        { intros [d e] Hx. apply in_dkeys in Hx; auto. unfold dofs_on; simpl in *. rewrite Lr'; auto. }
        clear -Hin. induction (dkeys t) as [|x l IH]; simpl; auto. rewrite Hin, IH; simpl; auto.
        intros; apply Hin; simpl; auto.
      * clear -Hf Hpart Hp. induction Hf as [|e els [P S] Hf IH]; constructor; inversion Hpart; subst; auto.
        split; auto. split; auto. intros x. rewrite in_dkeys by auto. split; intros H Hn; apply H, S; auto.
Qed.

(** refusal: an entity unknown to the cell *)
Lemma add_dofs_keyerror off items acc d e l : In (d, e, l) items -> lookup acc d e = None ->
  proper_dict acc -> add_dofs off items acc = Err KeyError.
Proof.
  revert acc. induction items as [|[[d0 e0] l0] items IH]; intros acc Hin Hn Hp; [destruct Hin|].
  cbn [add_dofs]. destruct (lookup acc d0 e0) as [x|] eqn:E.
  - destruct (dappend_ok acc d0 e0 (map (Nat.add off) l0) Hp) as (acc1 & E1 & P1 & L1); [congruence|].
    rewrite E1. destruct Hin as [Hin|Hin]; [inversion Hin; subst; congruence|].
    apply IH; auto. rewrite L1. destruct (deqb d d0 && Nat.eqb e e0) eqn:E2; auto.
    apply andb_true_iff in E2 as [A B]. apply deqb_eq in A. apply Nat.eqb_eq in B. subst. congruence.
  - unfold dappend. rewrite E. reflexivity.
Qed.

(** ** _merge_entity_ids *)
Lemma dsetdefault_ok d acc : proper_dict acc ->
  proper_dict (dsetdefault d acc) /\ In d (keys (dsetdefault d acc)) /\
  forall d' e', lookup (dsetdefault d acc) d' e' = lookup acc d' e'.
Proof.
  intros [H1 H2]. unfold lookup. induction acc as [|[d0 es] acc IH]; simpl.
  - repeat split; auto; try (repeat constructor; simpl; tauto).
    + intros d' es [H|[]]. inversion H; subst. constructor.
    + intros d' e'. destruct (deqb d' d); auto.
  - destruct (deqb d d0) eqn:E.
    + apply deqb_eq in E; subst. split; [split; auto|]. split; simpl; auto.
    + inversion H1 as [|? ? Hni ND]; subst. destruct IH as ([A B] & C & D); auto.
      { intros; eapply H2; simpl; eauto. }
      split; [|split]; simpl; auto.
      * split.
        -- simpl. constructor; auto. intros Hin. apply Hni.
           assert (Hk : forall x, In x (keys (dsetdefault d acc)) -> x = d \/ In x (keys acc)).
           { clear. induction acc as [|[a b] acc IH]; simpl; intros x; [intros [->|[]]; auto|].
             destruct (deqb d a); simpl; auto. intros [->|H]; auto. apply IH in H. tauto. }
           apply Hk in Hin as [->|Hin]; auto. rewrite deqb_refl in E; discriminate.
        -- intros d' es' [H|H]; [inversion H; subst; eapply H2; simpl; eauto|eauto].
      * intros d' e'. destruct (deqb d' d0); auto.
Qed.

Lemma eappend_lookup e l es e' : elookup e' (eappend e l es) =
  if Nat.eqb e' e then Some (option_list (elookup e es) ++ l) else elookup e' es.
Proof.
  induction es as [|[a b] es IH]; simpl.
  - destruct (Nat.eqb e' e); auto.
  - destruct (Nat.eqb_spec e a) as [->|Hne]; simpl.
    + destruct (Nat.eqb e' a); auto.
    + rewrite IH. destruct (Nat.eqb_spec e' a) as [->|]; auto.
      destruct (Nat.eqb_spec a e); [congruence|auto].
Qed.
Lemma eappend_NoDup e l es : NoDup (keys es) -> NoDup (keys (eappend e l es)).
Proof.
  intros H. assert (Hk : forall x, In x (keys (eappend e l es)) -> x = e \/ In x (keys es)).
  { clear. induction es as [|[a b] es IH]; simpl; intros x; [intros [->|[]]; auto|].
    destruct (Nat.eqb e a); simpl; auto. intros [->|H]; auto. apply IH in H. tauto. }
  induction es as [|[a b] es IH]; simpl; [repeat constructor; auto|].
  inversion H as [|? ? Hni ND]; subst. simpl in Hk. destruct (Nat.eqb_spec e a) as [->|Hne]; simpl; [constructor; auto|].
  constructor.
  - intros Hin. simpl in Hk. assert (Hk' : forall x, In x (keys (eappend e l es)) -> x = e \/ In x (keys es)).
    { clear. induction es as [|[a b] es IH]; simpl; intros x; [intros [->|[]]; auto|].
      destruct (Nat.eqb e a); simpl; auto. intros [->|H]; auto. apply IH in H. tauto. }
    apply Hk' in Hin as [->|Hin]; congruence.
  - apply IH; auto. clear. induction es as [|[a b] es IH]; simpl; intros x; [intros [->|[]]; auto|].
    destruct (Nat.eqb e a); simpl; auto. intros [->|H]; auto. apply IH in H. tauto.
Qed.
Lemma dextend_ok d e l acc : proper_dict acc -> In d (keys acc) ->
  appended acc d e l (dextend d e l acc) /\ keys (dextend d e l acc) = keys acc.
Proof.
  intros [H1 H2] Hin. unfold appended.
  assert (Hk : keys (dextend d e l acc) = keys acc).
  { clear. induction acc as [|[a b] acc IH]; simpl; auto. destruct (deqb d a); simpl; auto. f_equal; auto. }
  split; auto. split.
  - split; [rewrite Hk; auto|]. clear -H2. induction acc as [|[a b] acc IH]; simpl; intros d' es; [tauto|].
    destruct (deqb d a).
    + intros [H|H]; [inversion H; subst; apply eappend_NoDup; eapply H2; simpl; eauto|eapply H2; simpl; eauto].
    + intros [H|H]; [inversion H; subst; eapply H2; simpl; eauto|eapply IH; eauto]. intros; eapply H2; simpl; eauto.
  - clear -Hin. intros d' e'. unfold dofs_on, lookup; simpl.
    induction acc as [|[a b] acc IH]; simpl; [destruct Hin|].
    destruct (deqb d a) eqn:E; simpl.
    + apply deqb_eq in E; subst a. destruct (deqb d' d) eqn:E'; simpl; auto.
      rewrite eappend_lookup. destruct (Nat.eqb e' e); auto.
    + simpl in Hin. destruct Hin as [Hin|Hin]; [subst; rewrite deqb_refl in E; discriminate|].
      destruct (deqb d' a) eqn:E'.
      * apply deqb_eq in E'; subst a. destruct (deqb d' d) eqn:E2; auto. apply deqb_eq in E2; subst.
        rewrite deqb_refl in E; discriminate.
      * apply IH; auto.
Qed.

Lemma merge_es_ok off d : forall es acc, proper_dict acc -> In d (keys acc) -> NoDup (keys es) ->
  let acc' := fold_left (fun acc '(e, l) => dextend d e (map (fun x => x + off) l) acc) es acc in
  proper_dict acc' /\
  forall d' e', lookup acc' d' e' =
    if deqb d' d then match elookup e' es with
                      | Some l => Some (dofs_on acc (d, e') ++ map (fun x => x + off) l)
                      | None => lookup acc d' e' end
    else lookup acc d' e'.
Proof.
  induction es as [|[e l] es IH]; intros acc Hp Hd ND.
  - simpl. split; auto. intros; destruct (deqb d' d); auto.
  - cbn [fold_left]. inversion ND as [|? ? Hni ND']; subst.
    destruct (dextend_ok d e (map (fun x => x + off) l) acc Hp Hd) as [[P1 L1] K1].
    destruct (IH (dextend d e (map (fun x => x + off) l) acc) P1) as [P2 L2]; auto; [rewrite K1; auto|].
    split; [exact P2|]. intros d' e'. rewrite L2. cbn [elookup]. unfold dofs_on; simpl. rewrite !L1.
    destruct (deqb d' d) eqn:E; simpl; auto. rewrite deqb_refl; simpl.
    destruct (Nat.eqb_spec e' e) as [->|Hne]; simpl; auto.
    destruct (elookup e es) eqn:E2; auto. exfalso. apply Hni. apply elookup_keys. congruence.
Qed.

Lemma merge_one_ok off ids acc : proper_dict ids -> proper_dict acc ->
  proper_dict (merge_one off ids acc) /\
  forall d e, lookup (merge_one off ids acc) d e =
    match lookup ids d e with
    | Some l => Some (dofs_on acc (d, e) ++ map (fun x => x + off) l)
    | None => lookup acc d e
    end.
Proof.
  intros [H1 H2] Hp. unfold merge_one. revert acc Hp.
  assert (G : forall (ts : dict (list nat)) acc, NoDup (keys ts) -> (forall d es, In (d, es) ts -> NoDup (keys es)) -> proper_dict acc ->
    let acc' := fold_left (fun acc '(d, es) =>
      fold_left (fun acc '(e, l) => dextend d e (map (fun x => x + off) l) acc) es (dsetdefault d acc)) ts acc in
    proper_dict acc' /\ forall d e, lookup acc' d e =
    match lookup ts d e with
    | Some l => Some (dofs_on acc (d, e) ++ map (fun x => x + off) l)
    | None => lookup acc d e
    end).
  { induction ts as [|[d es] ts IH]; intros acc ND NDe Hp; [simpl; auto|].
    cbn [fold_left]. inversion ND as [|? ? Hni ND']; subst.
    destruct (dsetdefault_ok d acc Hp) as (P0 & K0 & L0).
    destruct (merge_es_ok off d es (dsetdefault d acc) P0 K0) as [P1 L1]; [eapply NDe; simpl; eauto|].
    edestruct (IH _ ND' ltac:(intros; eapply NDe; simpl; eauto) P1) as [P2 L2].
    split; [exact P2|]. intros d' e'. rewrite L2.
    assert (C : lookup ((d, es) :: ts) d' e' = if deqb d' d then elookup e' es else lookup ts d' e').
    { unfold lookup. simpl. destruct (deqb d' d); auto. }
    rewrite C. clear C. set (a1 := fold_left _ es _) in *.
    assert (D1 : dofs_on a1 (d', e') = option_list (lookup a1 d' e')) by reflexivity.
    rewrite D1, L1.
    destruct (deqb d' d) eqn:E.
    - apply deqb_eq in E; subst d'.
      assert (Hn : lookup ts d e' = None).
      { unfold lookup. destruct (dlookup d ts) as [x|] eqn:E; auto. apply dlookup_in in E; auto.
        exfalso; apply Hni. apply in_map_iff. exists (d, x); auto. }
      rewrite Hn. unfold dofs_on; simpl. rewrite !L0. reflexivity.
    - rewrite !L0. reflexivity. }
  intros acc Hp. apply G; auto.
Qed.

Lemma merge_from_ok : forall els off acc, proper_dict acc ->
  Forall (fun e => proper_dict (snd e)) els ->
  proper_dict (merge_from off els acc) /\
  forall d e, lookup (merge_from off els acc) d e =
    if existsb (fun x => match lookup (snd x) d e with Some _ => true | None => false end) els
    then Some (dofs_on acc (d, e) ++ cat_from off els (d, e)) else lookup acc d e.
Proof.
  induction els as [|[n ids] els IH]; intros off acc Hp Hf; [simpl; auto|].
  cbn [merge_from]. inversion Hf as [|? ? Pi Hf']; subst. simpl in Pi.
  destruct (merge_one_ok off ids acc Pi Hp) as [P1 L1].
  destruct (IH (off + n) _ P1 Hf') as [P2 L2]. split; [exact P2|].
  intros d e. rewrite L2. cbn [existsb cat_from snd]. unfold dofs_on; simpl. rewrite !L1.
  assert (M : forall l, map (fun x => x + off) l = map (Nat.add off) l) by (intros; apply map_ext; intros; lia).
  destruct (lookup ids d e) as [l|] eqn:E; simpl.
  - rewrite M. destruct (existsb _ els) eqn:Ex; rewrite <- ?app_assoc; auto.
    f_equal. f_equal. replace (cat_from (off + n) els (d, e)) with (@nil nat); [rewrite app_nil_r; auto|].
    clear -Ex. revert off n. induction els as [|[n' ids'] els IH]; intros off n; simpl; auto.
    simpl in Ex. apply orb_false_iff in Ex as [E1 E2]. rewrite <- (IH E2). unfold dofs_on; simpl.
    destruct (lookup ids' d e); [discriminate|reflexivity].
  - destruct (existsb _ els); auto.
Qed.

Lemma merge_ids_ok els : Forall (fun e => proper_dict (snd e)) els ->
  proper_dict (merge_entity_ids els) /\
  (forall d e, lookup (merge_entity_ids els) d e <> None <-> exists x, In x els /\ lookup (snd x) d e <> None) /\
  (forall d e l, lookup (merge_entity_ids els) d e = Some l -> l = concatenated els (d, e)) /\
  (forall t : topo, proper_dict t -> Forall (fun e => same_entities (snd e) t) els ->
     Forall (fun e => partitions (snd e) (fst e)) els ->
     partitions (merge_entity_ids els) (nsum (map fst els))).
Proof.
  intros Hf. unfold merge_entity_ids.
  destruct (merge_from_ok els 0 []) as [P L]; auto.
  { split; [constructor|]. intros d es []. }
  set (r := merge_from 0 els []) in *.
  assert (X : forall d e, existsb (fun x => match lookup (snd x) d e with Some _ => true | None => false end) els = true
     <-> exists x, In x els /\ lookup (snd x) d e <> None).
  { intros d e. rewrite existsb_exists. split; intros (x & A & B); exists x; split; auto.
    - destruct (lookup (snd x) d e); [discriminate|discriminate].
    - destruct (lookup (snd x) d e); auto; congruence. }
  assert (L' : forall d e l, lookup r d e = Some l -> l = cat_from 0 els (d, e)).
  { intros d e l H. rewrite L in H. destruct (existsb _ els); [|discriminate]. unfold dofs_on in H; simpl in H. congruence. }
  assert (D : forall d e, lookup r d e <> None <-> exists x, In x els /\ lookup (snd x) d e <> None).
  { intros d e. rewrite <- X, L. destruct (existsb _ els); simpl; split; auto; try discriminate. }
  split; auto. split; auto. split.
  - intros d e l H. rewrite <- cat_from_concatenated. auto.
  - intros t Ht Hs Hpart. destruct els as [|e0 els0] eqn:Eels; [simpl; unfold r; simpl; apply Permutation_refl|].
    rewrite <- Eels in *.
    assert (S : same_entities r t).
    { intros d e. split; intros H.
      - destruct (lookup t d e) eqn:E; auto. exfalso.
        assert (HD : lookup r d e <> None); [|congruence]. apply D. exists e0. split; [rewrite Eels; simpl; auto|].
        rewrite Eels in Hs. inversion Hs as [|? ? S0 _]; subst. intros Hn. apply S0 in Hn. congruence.
      - destruct (lookup r d e) eqn:E; auto. exfalso.
        assert (HD : lookup r d e <> None) by congruence. apply D in HD as (x & Hx & Hl).
        rewrite Forall_forall in Hs. apply Hl, (Hs x Hx); auto. }
    unfold partitions. eapply perm_trans; [apply (all_dofs_perm r (dkeys t)); auto using dkeys_NoDup|].
    + intros x H. apply in_dkeys; auto. intros Hn. apply S in Hn. congruence.
    + intros x H. apply in_dkeys in H; auto. intros Hn. apply S in Hn. congruence.
    + eapply perm_trans; [|apply (partitions_cat els (dkeys t) 0); auto using dkeys_NoDup].
      * assert (G : flat_map (dofs_on r) (dkeys t) = flat_map (cat_from 0 els) (dkeys t)); [|rewrite G; auto].
        assert (Hin : forall x, In x (dkeys t) -> dofs_on r x = cat_from 0 els x).
        { intros [d e] Hx. apply in_dkeys in Hx; auto. unfold dofs_on; simpl in *.
          destruct (lookup r d e) as [l|] eqn:E; [apply L' in E; auto|]. apply S in E. congruence. }
        clear -Hin. induction (dkeys t) as [|x l IH]; simpl; auto. rewrite Hin, IH; simpl; auto.
        intros; apply Hin; simpl; auto.
      * clear -Hf Hs Hpart Ht. induction Hf as [|e els P Hf IH]; constructor; inversion Hpart as [|? ? Pe Hpart']; inversion Hs as [|? ? Se Hs']; subst; auto.
        split; auto. split; auto. intros x. rewrite in_dkeys by auto. split; intros H Hn; apply H, Se; auto.
Qed.
