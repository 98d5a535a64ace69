(** FlattenedDimensions: the flattened numbering and the unflattening map of
    the cell refer to the same product entity. *)
From Coq Require Import Sorted Permutation.
From Verif Require Import Base ModelIndex Sorting ModelCell ModelArray ModelConcat ModelTPE SpecCell SpecCart SpecConcat
  ProofsIndex ProofsCell ProofsCart ProofsTopo ProofsFlatten ProofsTP ProofsTPE.

Definition skeleton {V} (t : dict V) : list (dimT * list nat) := map (fun '(d, es) => (d, keys es)) t.

Lemma insert_map {A B} (f : A -> B) (le : A -> A -> bool) (le' : B -> B -> bool) x l :
  (forall a b, le' (f a) (f b) = le a b) -> map f (insert le x l) = insert le' (f x) (map f l).
Proof.
  intros H. induction l as [|y l IH]; simpl; auto. rewrite H. destruct (le x y); simpl; auto. rewrite IH; auto.
Qed.
Lemma isort_map {A B} (f : A -> B) (le : A -> A -> bool) (le' : B -> B -> bool) l :
  (forall a b, le' (f a) (f b) = le a b) -> map f (isort le l) = isort le' (map f l).
Proof. intros H. induction l as [|x l IH]; simpl; auto. rewrite (insert_map f le le') by auto. rewrite IH; auto. Qed.

Definition sfents (fd : nat) (s : list (dimT * list nat)) : list (dimT * nat) :=
  flat_map (fun '(dim, es) => if Nat.eqb fd (tuple_sum dim) then map (pair dim) es else []) s.
Lemma fents_skeleton {V} fd (t : dict V) : fents fd t = sfents fd (skeleton t).
Proof.
  unfold fents, sfents, skeleton. induction t as [|[d es] t IH]; simpl; auto. rewrite IH. reflexivity.
Qed.
Lemma skeleton_sort {V} (t : dict V) : skeleton (sort_dims t) = isort (fun x y => dleb (fst x) (fst y)) (skeleton t).
Proof.
  unfold skeleton, sort_dims. apply isort_map. intros [d es] [d' es']. reflexivity.
Qed.
Lemma ulookup_skeleton {V W} (a : dict V) (b : dict W) : skeleton a = skeleton b ->
  forall fd fe, ulookup (compute_unflattening_map a) fd fe = ulookup (compute_unflattening_map b) fd fe.
Proof. intros H fd fe. rewrite !ulookup_unflat, !fents_skeleton, !skeleton_sort, H. reflexivity. Qed.

Lemma skeleton_ext {V W} (a : dict V) (b : dict W) : keys a = keys b -> NoDup (keys a) ->
  (forall d es es', dlookup d a = Some es -> dlookup d b = Some es' -> keys es = keys es') ->
  skeleton a = skeleton b.
Proof.
  revert b. induction a as [|[d es] a IH]; intros [|[d' es'] b] Hk ND H; try discriminate; auto.
  change (d :: keys a = d' :: keys b) in Hk. change (NoDup (d :: keys a)) in ND.
  pose proof (f_equal (hd d) Hk) as E1. cbn [hd] in E1. subst d'. pose proof (f_equal (@tl _) Hk) as E2. cbn [tl] in E2. inversion ND as [|? ? Hni ND']; subst.
  simpl. f_equal.
  - f_equal. apply (H d); simpl; rewrite deqb_refl; reflexivity.
  - apply IH; auto. intros x e e' H1 H2. apply (H x); simpl.
    + destruct (deqb x d) eqn:E; auto. apply deqb_eq in E; subst. exfalso. apply Hni. 
      apply dlookup_in in H1; auto. apply in_map_iff. eexists; split; [|exact H1]; auto.
    + destruct (deqb x d) eqn:E; auto. apply deqb_eq in E; subst. exfalso. apply Hni. 
      rewrite E2. apply dlookup_in in H2; [|rewrite <- E2; auto]. apply in_map_iff. eexists; split; [|exact H2]; auto.
Qed.

Lemma skeleton_keys {V} (t : dict V) : keys t = map fst (skeleton t).
Proof. unfold keys, skeleton. rewrite map_map. apply map_ext. intros [d es]; auto. Qed.
Lemma skeleton_dlookup {V W} (a : dict V) (b : dict W) d es : skeleton a = skeleton b -> dlookup d a = Some es ->
  exists es', dlookup d b = Some es' /\ keys es = keys es'.
Proof.
  revert b. induction a as [|[x e] a IH]; intros [|[x' e'] b] H; simpl in *; try discriminate.
  inversion H; subst. destruct (deqb d x'); [|auto]. intros E; inversion E; subst. eauto.
Qed.

(** the flattened dofs are those of the product *)
Section Fl.
  Context {V : Type}.
  Definition fl_vals (f : list (nat * list V)) : list V := flat_map snd f.
  Lemma dd_extend_vals fd vs (acc : list (nat * list V)) : Permutation (fl_vals (dd_extend fd vs acc)) (fl_vals acc ++ vs).
  Proof.
    unfold fl_vals. induction acc as [|[k l] acc IH]; simpl; [rewrite app_nil_r; auto|].
    destruct (Nat.eqb fd k); simpl.
    - rewrite <- !app_assoc. apply Permutation_app_head. apply Permutation_app_comm.
    - rewrite <- app_assoc. apply Permutation_app_head. auto.
  Qed.
  Lemma flatten_vals (ts : dict V) : forall acc,
    Permutation (fl_vals (fold_left (fun acc '(dim, es) => dd_extend (tuple_sum dim) (map snd (sort_items es)) acc) ts acc))
                (fl_vals acc ++ flat_map (fun '(_, es) => map snd es) ts).
  Proof.
    induction ts as [|[d es] ts IH]; intros acc; simpl; [rewrite app_nil_r; auto|].
    rewrite IH, dd_extend_vals, <- app_assoc. apply Permutation_app_head, Permutation_app_tail.
    apply Permutation_map. symmetry. apply isort_perm.
  Qed.
End Fl.
Lemma enumerate_snd {A} (l : list A) : map snd (enumerate l) = l.
Proof.
  unfold enumerate. generalize 0. induction l as [|x l IH]; intros k; simpl; auto. rewrite IH; auto.
Qed.
Lemma flatten_all_dofs (t : dict (list nat)) :
  Permutation (flat_map (fun '(_, es) => flat_map snd es) (flatten_entities t)) (all_dofs t).
Proof.
  unfold flatten_entities, all_dofs. rewrite flat_map_concat_map, map_map, <- flat_map_concat_map.
  assert (E : forall (f : list (nat * list (list nat))),
     flat_map (fun x : nat * list (list nat) => let '(_, es) := let '(fd, l) := x in (fd, enumerate l) in flat_map snd es) f
     = concat (fl_vals f)).
  { induction f as [|[k l] f IH]; simpl; auto. unfold fl_vals in *. simpl. rewrite concat_app, IH. f_equal.
    rewrite <- (enumerate_snd l) at 2. rewrite flat_map_concat_map. reflexivity. }
  rewrite E. clear E.
  pose proof (flatten_vals (sort_dims t) []) as H. change (fl_vals [] ++ ?x) with x in H.
  assert (P : forall (a b : list (list nat)), Permutation a b -> Permutation (concat a) (concat b)).
  { clear. induction 1; simpl; auto.
    - apply Permutation_app_head; auto.
    - rewrite !app_assoc. apply Permutation_app_tail, Permutation_app_comm.
    - etransitivity; eauto. }
  rewrite (P _ _ H).
  assert (Q : Permutation (flat_map (fun '(_, es) => map snd es) (sort_dims t)) (flat_map (fun '(_, es) => map snd es) t)).
  { apply Permutation_flat_map. symmetry. apply isort_perm. }
  rewrite (P _ _ Q). clear. induction t as [|[d es] t IH]; simpl; auto. rewrite concat_app, IH.
  rewrite (flat_map_concat_map snd es). auto.
Qed.

Lemma tpe_skeleton cA cB (A B : dict (list nat)) n : skeleton A = skeleton (topology cA) -> skeleton B = skeleton (topology cB) ->
  skeleton (tpe_entity_ids n A B) = skeleton (topology (TensorProductCell [cA; cB])).
Proof.
  intros SA SB. pose proof (good_cell cA) as GA. pose proof (good_cell cB) as GB.
  assert (KA : keys A = keys (topology cA)) by (rewrite !skeleton_keys, SA; auto).
  assert (KB : keys B = keys (topology cB)) by (rewrite !skeleton_keys, SB; auto).
  assert (NA : NoDup (keys A)) by (rewrite KA; apply GA). assert (NB : NoDup (keys B)) by (rewrite KB; apply GB).
  apply skeleton_ext.
  - rewrite tpe_ids_keys. cbn [topology map]. unfold tp_topology. unfold keys at 3. rewrite map_map. cbn [fst map cart].
    rewrite KA, KB. change (fun t : list (dimT * list (nat * list nat)) => keys t) with (@keys dimT (ents (list nat))).
    rewrite map_flat_map. apply flat_map_ext_in. intros a _.
    rewrite !map_map. clear. induction (keys (topology cB)) as [|b l IH]; simpl; auto. rewrite IH; auto.
  - apply (tpe_ids_proper n A B NA NB).
  - intros D es es' H1 H2.
    pose proof H1 as H1'. apply dlookup_in in H1; [|apply (tpe_ids_proper n A B NA NB)].
    assert (Hk : In D (keys (tpe_entity_ids n A B))) by (apply in_map_iff; exists (D, es); auto).
    rewrite tpe_ids_keys in Hk. apply in_flat_map in Hk as (dA & HA & Hk). apply in_map_iff in Hk as (dB & <- & HB).
    destruct (dlookup dA A) as [esA|] eqn:EA; [|].
    2:{ exfalso. apply in_map_iff in HA as ([x e] & E & HA). simpl in E; subst. apply dlookup_in in HA; auto. congruence. }
    destruct (dlookup dB B) as [esB|] eqn:EB; [|].
    2:{ exfalso. apply in_map_iff in HB as ([x e] & E & HB). simpl in E; subst. apply dlookup_in in HB; auto. congruence. }
    rewrite (tpe_ids_dlookup n A B dA dB esA esB NA NB EA EB) in H1'.
    assert (es = enumerate (tpe_ents n esA esB)) as -> by congruence. clear H1 H1'.
    destruct (skeleton_dlookup A (topology cA) dA esA SA EA) as (eA' & EA' & LA).
    destruct (skeleton_dlookup B (topology cB) dB esB SB EB) as (eB' & EB' & LB).
    cbn [topology] in H2. cbn [map] in H2.
    rewrite (tp_dlookup _ [num_vertices cA; num_vertices cB] _ [dA; dB]) in H2.
    + assert (es' = enumerate (map (fun vss => map (ravel [num_vertices cA; num_vertices cB]) (cart vss))
         (cart (map (map snd) (sel [topology cA; topology cB] [dA; dB]))))) as -> by congruence.
      rewrite !enum_ok_enumerate. f_equal.
      unfold enumerate. rewrite !length_enumerate_from, tpe_ents_length, map_length, cart_length.
      cbn [sel combine map]. rewrite EA', EB'. cbn [option_list]. rewrite !map_length.
      unfold keys in LA, LB. apply (f_equal (@length _)) in LA, LB. rewrite !map_length in LA, LB. rewrite LA, LB. cbn. lia.
    + constructor; [exact GA|]. constructor; [exact GB|constructor].
    + repeat constructor; [rewrite <- KA|rewrite <- KB]; auto.
Qed.
