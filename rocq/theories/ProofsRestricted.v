(** Proofs about index selection and renumbering. *)
From Coq Require Import String Permutation.
From Verif Require Import Base ModelIndex Sorting ModelCell SpecCell SpecCart ProofsCell ModelConcat SpecConcat
  ProofsIds ModelRestricted.

Lemma memb_in x l : memb x l = true <-> In x l.
Proof. unfold memb. rewrite existsb_exists. split.
- intros (y & Hy & E). apply Nat.eqb_eq in E. now subst.
- intros H. exists x. now rewrite Nat.eqb_refl.
Qed.

Definition sel (idx l : list nat) : list nat := filter (fun x => memb x idx) l.

Lemma restrict_dofs_ok idx : forall dofs c T,
  restrict_dofs idx dofs (c, T) = (seq c (List.length (sel idx dofs)), (c + List.length (sel idx dofs), T ++ sel idx dofs)).
Proof.
  induction dofs as [|x dofs IH]; intros c T; simpl.
  - now rewrite app_nil_r, Nat.add_0_r.
  - unfold sel in *; simpl. destruct (memb x idx); simpl.
    + rewrite IH. simpl. now rewrite <- app_assoc, Nat.add_succ_r.
    + apply IH.
Qed.

Lemma map_nth_seq_app (A B C : list nat) :
  map (fun k => nth k (A ++ B ++ C) 0) (seq (List.length A) (List.length B)) = B.
Proof.
  revert A; induction B as [|b B IH]; intros A; simpl; auto. f_equal.
  - rewrite app_nth2, Nat.sub_diag; auto.
  - specialize (IH (A ++ [b])). rewrite app_length, Nat.add_1_r in IH.
    rewrite <- app_assoc in IH. simpl in IH. exact IH.
Qed.

Definition blk (f : nat -> nat) idx (es es' : ents (list nat)) : Prop :=
  Forall2 (fun x y => fst x = fst y /\ map f (snd y) = sel idx (snd x)) es es'.

Lemma restrict_ents_ok idx : forall es T, exists es',
  restrict_ents idx es (List.length T, T) =
    (es', (List.length T + List.length (sel idx (flat_map snd es)), T ++ sel idx (flat_map snd es))) /\
  (forall R, blk (fun k => nth k (T ++ sel idx (flat_map snd es) ++ R) 0) idx es es') /\
  flat_map snd es' = seq (List.length T) (List.length (sel idx (flat_map snd es))).
Proof.
  induction es as [|[e l] es IH]; intros T; simpl.
  - exists []. rewrite app_nil_r, Nat.add_0_r. repeat split; auto. intros; constructor.
  - rewrite restrict_dofs_ok. destruct (IH (T ++ sel idx l)) as (es' & E & HB & HS).
    rewrite app_length in E. rewrite E. exists ((e, seq (List.length T) (List.length (sel idx l))) :: es').
    unfold sel in *. rewrite filter_app, app_length, <- !app_assoc, Nat.add_assoc. repeat split.
    + intros R. constructor.
      * simpl; split; auto. rewrite <- app_assoc. apply map_nth_seq_app.
      * specialize (HB R). rewrite <- app_assoc in HB. rewrite <- app_assoc. exact HB.
    + simpl. rewrite HS, app_length, seq_app. reflexivity.
Qed.

Lemma restrict_dict_ok idx : forall t T, exists t',
  restrict_dict idx t (List.length T, T) =
    (t', (List.length T + List.length (sel idx (all_dofs t)), T ++ sel idx (all_dofs t))) /\
  (forall R, Forall2 (fun x y => fst x = fst y /\
      blk (fun k => nth k (T ++ sel idx (all_dofs t) ++ R) 0) idx (snd x) (snd y)) t t') /\
  all_dofs t' = seq (List.length T) (List.length (sel idx (all_dofs t))).
Proof.
  induction t as [|[d es] t IH]; intros T; simpl.
  - exists []. rewrite app_nil_r, Nat.add_0_r. repeat split; auto.
  - destruct (restrict_ents_ok idx es T) as (es' & E1 & HB1 & HS1). rewrite E1.
    destruct (IH (T ++ sel idx (flat_map snd es))) as (t' & E & HB & HS).
    rewrite app_length in E. rewrite E. exists ((d, es') :: t').
    unfold sel in *. rewrite filter_app, app_length, <- !app_assoc, Nat.add_assoc. repeat split.
    + intros R. constructor.
      * simpl; split; auto. rewrite <- app_assoc. apply HB1.
      * specialize (HB R). rewrite <- app_assoc in HB. rewrite <- app_assoc. exact HB.
    + simpl. rewrite HS, HS1, app_length, seq_app. reflexivity.
Qed.

Lemma blk_lookup f idx es es' e : blk f idx es es' ->
  match elookup e es, elookup e es' with
  | Some l, Some l' => map f l' = sel idx l
  | None, None => True
  | _, _ => False
  end.
Proof.
  induction 1 as [|[e1 l1] [e2 l2] es es' [H1 H2] H IH]; simpl in *; auto.
  subst e2. destruct (Nat.eqb e e1); auto.
Qed.

Lemma dict_blk_lookup f idx t t' d e :
  Forall2 (fun x y => fst x = fst y /\ blk f idx (snd x) (snd y)) t t' ->
  match lookup t d e, lookup t' d e with
  | Some l, Some l' => map f l' = sel idx l
  | None, None => True
  | _, _ => False
  end.
Proof.
  unfold lookup. induction 1 as [|[d1 es1] [d2 es2] t t' [H1 H2] H IH]; simpl in *; auto.
  subst d2. destruct (deqb d d1); auto. eapply blk_lookup; eauto.
Qed.

(** The renumbering, from the initial state. *)
Lemma restrict_ids_ok idx t : exists t',
  restrict_dict idx t (0, []) = (t', (List.length (sel idx (all_dofs t)), sel idx (all_dofs t))) /\
  same_entities t t' /\ all_dofs t' = seq 0 (List.length (sel idx (all_dofs t))) /\
  forall x, map (fun k => nth k (sel idx (all_dofs t)) 0) (dofs_on t' x) = sel idx (dofs_on t x).
Proof.
  destruct (restrict_dict_ok idx t []) as (t' & E & HB & HS). simpl in *. exists t'.
  specialize (HB []). rewrite app_nil_r in HB. repeat split; auto.
  - intros Hn. pose proof (dict_blk_lookup _ _ _ _ d e HB) as HL. rewrite Hn in HL.
    destruct (lookup t' d e); auto; contradiction.
  - intros Hn. pose proof (dict_blk_lookup _ _ _ _ d e HB) as HL. rewrite Hn in HL.
    destruct (lookup t d e); auto; contradiction.
  - intros [d e]. unfold dofs_on; simpl. pose proof (dict_blk_lookup _ _ _ _ d e HB) as HL.
    destruct (lookup t d e), (lookup t' d e); simpl; auto; contradiction.
Qed.

Lemma filter_perm {A} (f : A -> bool) l l' : Permutation l l' -> Permutation (filter f l) (filter f l').
Proof.
  induction 1; simpl; auto.
  - destruct (f x); auto.
  - destruct (f x), (f y); auto. constructor.
  - etransitivity; eauto.
Qed.

(** selected dofs against the requested indices *)
Lemma sel_count idx t n : partitions t n ->
  (List.length (sel idx (all_dofs t)) = List.length idx <-> NoDup idx /\ forall i, In i idx -> i < n) /\
  (NoDup idx -> (forall i, In i idx -> i < n) -> Permutation (sel idx (all_dofs t)) idx).
Proof.
  intros HP. pose proof (filter_perm (fun x => memb x idx) _ _ HP) as HP'. fold (sel idx (all_dofs t)) in HP'.
  assert (ND : NoDup (sel idx (all_dofs t))).
  { eapply Permutation_NoDup; [symmetry; exact HP'|]. apply NoDup_filter, seq_NoDup. }
  assert (Hin : forall x, In x (sel idx (all_dofs t)) <-> In x idx /\ x < n).
  { intros x. split.
    - intros H. eapply Permutation_in in H; eauto. apply filter_In in H as [H1 H2]. apply memb_in in H2. apply in_seq in H1. split; [auto|lia].
    - intros [H1 H2]. eapply Permutation_in; [symmetry; exact HP'|]. apply filter_In. split; [apply in_seq; lia|now apply memb_in]. }
  assert (HH : NoDup idx -> (forall i, In i idx -> i < n) -> Permutation (sel idx (all_dofs t)) idx).
  { intros H1 H2. apply NoDup_Permutation; auto. intros x. rewrite Hin. firstorder. }
  split; auto. split.
  - intros HL. assert (HI : incl (sel idx (all_dofs t)) idx) by (intros x Hx; now apply Hin in Hx).
    assert (HI2 : incl idx (sel idx (all_dofs t))) by (apply NoDup_length_incl; auto; lia).
    split; [|intros i Hi; apply HI2, Hin in Hi; tauto].
    apply NoDup_incl_NoDup with (l := sel idx (all_dofs t)); auto. lia.
  - intros [H1 H2]. now apply Permutation_length, HH.
Qed.

(** *** domains *)
Lemma entity_indices_in es x : NoDup (keys es) ->
  (In x (entity_indices es) <-> exists e l, elookup e es = Some l /\ In x l).
Proof.
  intros ND. unfold entity_indices. rewrite in_flat_map. split.
  - intros ([e l] & H1 & H2). unfold sort_items in H1. apply isort_in in H1. exists e, l. split; auto. now apply elookup_in.
  - intros (e & l & H1 & H2). exists (e, l). split; auto. unfold sort_items. apply isort_in. now apply elookup_in.
Qed.

Lemma max_key_in {V} (t : list (dimT * V)) m : max_key t = Some m -> In m (keys t) /\ forall d, In d (keys t) -> dleb d m = true.
Proof.
  destruct t as [|[d v] t]; simpl; [discriminate|]. intros [= <-].
  assert (G : forall (t : list (dimT * V)) d, let m := fold_left (fun m '(d', _) => dmax m d') t d in
     (m = d \/ In m (keys t)) /\ dleb d m = true /\ forall d', In d' (keys t) -> dleb d' m = true).
  { clear. induction t as [|[d' v'] t IH]; intros d; simpl.
    - split; auto. split; [apply dleb_refl|intros ? []].
    - destruct (IH (dmax d d')) as (H1 & H2 & H3). unfold dmax in *. destruct (dleb d d') eqn:E.
      + split; [destruct H1; auto|]. split; [eapply dleb_trans; eauto|]. intros x [<-|Hx]; auto.
      + split; [destruct H1; auto|]. split; auto. intros x [<-|Hx]; auto.
        eapply dleb_trans; eauto. destruct (dleb_total d d') as [H|H]; [congruence|auto]. }
  destruct (G t d) as (H1 & H2 & H3). split; [destruct H1; auto|]. intros x [<-|Hx]; auto.
Qed.

Lemma simplex_indices ids n : proper_dict ids -> forall a acc,
  fold_left (fun acc d =>
          match acc with
          | Err e => Err e
          | Ok l => match dlookup (DI d) ids with
                    | Some es => Ok (l ++ entity_indices es)
                    | None => Err KeyError
                    end
          end) (seq a n) (Ok acc) =
  if forallb (fun d => match dlookup (DI d) ids with Some _ => true | None => false end) (seq a n)
  then Ok (acc ++ flat_map (fun d => match dlookup (DI d) ids with Some es => entity_indices es | None => [] end) (seq a n))
  else Err KeyError.
Proof.
  intros HP. induction n as [|n IH]; intros a acc; simpl.
  - now rewrite app_nil_r.
  - destruct (dlookup (DI a) ids) as [es|] eqn:E; simpl.
    + rewrite IH. now rewrite app_assoc.
    + clear IH. induction (seq (S a) n) as [|x l IH]; simpl; auto.
Qed.

Lemma in_dim_indices ids d x : proper_dict ids ->
  (In x (match dlookup d ids with Some es => entity_indices es | None => [] end) <->
   exists e, In x (dofs_on ids (d, e))).
Proof.
  intros [HP1 HP2]. destruct (dlookup d ids) as [es|] eqn:E.
  - assert (ND : NoDup (keys es)) by (eapply HP2; apply dlookup_in in E; eauto).
    rewrite entity_indices_in by auto. unfold dofs_on, lookup; simpl. rewrite E. split.
    + intros (e & l & H1 & H2). exists e. now rewrite H1.
    + intros (e & H). exists e. destruct (elookup e es); [eauto|contradiction].
  - unfold dofs_on, lookup; simpl. rewrite E. simpl. split; [contradiction|intros (? & [])].
Qed.

Lemma NoDup_app_inv {A} (l1 l2 : list A) : NoDup (l1 ++ l2) -> NoDup l1 /\ NoDup l2 /\ forall x, In x l1 -> ~ In x l2.
Proof.
  induction l1 as [|a l1 IH]; simpl; intros H.
  - repeat split; auto. constructor.
  - inversion H as [|? ? H1 H2]; subst. destruct (IH H2) as (H3 & H4 & H5). repeat split; auto.
    + constructor; auto. intros Hx; apply H1, in_or_app; auto.
    + intros x [<-|Hx]; auto. intros Hx; apply H1, in_or_app; auto.
Qed.
Lemma NoDup_flat_map_inv {A B} (f : A -> list B) l : NoDup (flat_map f l) ->
  (forall a, In a l -> NoDup (f a)) /\
  (forall a b x, In a l -> In b l -> In x (f a) -> In x (f b) -> a = b).
Proof.
  induction l as [|a l IH]; simpl; intros H.
  - split; [intros ? []|intros ? ? ? []].
  - apply NoDup_app_inv in H as (H1 & H2 & H3). destruct (IH H2) as [H4 H5]. split.
    + intros b [<-|Hb]; auto.
    + intros b c x [<-|Hb] [<-|Hc] Hx Hx'; auto.
      * exfalso; apply (H3 x); auto. apply in_flat_map; eauto.
      * exfalso; apply (H3 x); auto. apply in_flat_map; eauto.
      * eauto.
Qed.

Lemma entity_indices_perm es : Permutation (entity_indices es) (flat_map snd es).
Proof. unfold entity_indices, sort_items. apply Permutation_flat_map_l. symmetry. apply isort_perm. Qed.

Lemma dims_NoDup ids n ds : proper_dict ids -> partitions ids n -> NoDup ds ->
  NoDup (flat_map (fun d => match dlookup d ids with Some es => entity_indices es | None => [] end) ds).
Proof.
  intros [HP1 HP2] HP ND.
  assert (NA : NoDup (all_dofs ids)) by (eapply Permutation_NoDup; [symmetry; exact HP|apply seq_NoDup]).
  unfold all_dofs in NA. apply NoDup_flat_map_inv in NA as [N1 N2].
  induction ND as [|d ds Hd ND IH]; simpl; [constructor|].
  apply NoDup_app'; auto.
  - destruct (dlookup d ids) as [es|] eqn:E; [|constructor]. apply dlookup_in in E; auto.
    eapply Permutation_NoDup; [symmetry; apply entity_indices_perm|]. apply (N1 (d, es)); auto.
  - intros x Hx Hx'. apply in_flat_map in Hx' as (d' & Hd' & Hx').
    destruct (dlookup d ids) as [es|] eqn:E; [|contradiction].
    destruct (dlookup d' ids) as [es'|] eqn:E'; [|contradiction].
    apply dlookup_in in E; auto. apply dlookup_in in E'; auto.
    eapply Permutation_in in Hx; [|apply entity_indices_perm]. eapply Permutation_in in Hx'; [|apply entity_indices_perm].
    assert (EE : (d, es) = (d', es')) by (apply (N2 _ _ x); auto). congruence.
Qed.

Lemma on_entity_lt ids n x y : partitions ids n -> proper_dict ids -> In x (dofs_on ids y) -> x < n.
Proof.
  intros HP HD Hx. assert (H : In x (all_dofs ids)).
  { rewrite all_dofs_eq by auto. apply in_flat_map. exists y. split; auto. apply in_dkeys; auto.
    intros Hn. unfold dofs_on in Hx. rewrite Hn in Hx. contradiction. }
  eapply Permutation_in in H; [|exact HP]. apply in_seq in H. lia.
Qed.
