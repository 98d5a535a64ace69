From Coq Require Import Sorted Permutation.
From Verif Require Import Base ModelIndex Sorting ModelCell SpecCell SpecCart ProofsIndex ProofsCell ProofsCart ProofsTopo.

Section Flat.
  Context {V : Type}.
  Definition fvals (fd : nat) (ts : dict V) : list V :=
    flat_map (fun '(dim, es) => if Nat.eqb fd (tuple_sum dim) then map snd (sort_items es) else []) ts.
  Definition fents (fd : nat) (ts : dict V) : list (dimT * nat) :=
    flat_map (fun '(dim, es) => if Nat.eqb fd (tuple_sum dim) then map (pair dim) (keys es) else []) ts.

  Definition nget {W} (k : nat) (acc : list (nat * list W)) : list W :=
    match nlookup k acc with Some l => l | None => [] end.

  Lemma nget_extend (fd : nat) (vs : list V) acc k :
    nget k (dd_extend fd vs acc) = if Nat.eqb k fd then nget k acc ++ vs else nget k acc.
  Proof.
    unfold nget. induction acc as [|[k' l] acc IH]; simpl.
    - destruct (Nat.eqb k fd); reflexivity.
    - destruct (Nat.eqb_spec fd k') as [->|Hne]; simpl.
      + destruct (Nat.eqb k k'); reflexivity.
      + destruct (Nat.eqb_spec k k') as [->|Hk]; auto.
        destruct (Nat.eqb_spec k' fd); [congruence|reflexivity].
  Qed.

  Lemma flatten_fold (ts : dict V) : forall acc k,
    nget k (fold_left (fun acc '(dim, es) => dd_extend (tuple_sum dim) (map snd (sort_items es)) acc) ts acc)
    = nget k acc ++ fvals k ts.
  Proof.
    induction ts as [|[dim es] ts IH]; intros acc k; simpl; [rewrite app_nil_r; auto|].
    rewrite IH, nget_extend. destruct (Nat.eqb_spec k (tuple_sum dim)); simpl; auto.
    rewrite app_assoc; reflexivity.
  Qed.

  Lemma flookup_flatten (t : dict V) fd fe :
    flookup (flatten_entities t) fd fe = nth_error (fvals fd (sort_dims t)) fe.
  Proof.
    unfold flookup, flatten_entities.
    pose proof (flatten_fold (sort_dims t) [] fd) as H. unfold nget at 2 in H. simpl in H.
    set (acc := fold_left _ _ _) in *. rewrite <- H. unfold nget. clear H.
    induction acc as [|[k l] acc IH]; simpl; [destruct fe; auto|].
    destruct (Nat.eqb fd k); auto. apply elookup_enumerate.
  Qed.

  (** unflattening *)
  Definition cget_n (fd : nat) (c : counters) : nat :=
    match nlookup fd c with Some n => n | None => 0 end.
  Lemma next_count_spec fd c :
    fst (next_count fd c) = cget_n fd c /\
    forall k, cget_n k (snd (next_count fd c)) = if Nat.eqb k fd then S (cget_n k c) else cget_n k c.
  Proof.
    unfold cget_n. induction c as [|[k' n] c IH]; simpl.
    - split; auto. intros k. destruct (Nat.eqb k fd); auto.
    - destruct (Nat.eqb_spec fd k') as [->|Hne]; simpl.
      + split; auto. intros k. destruct (Nat.eqb k k'); auto.
      + destruct (next_count fd c) as [r c''] eqn:E. simpl in *. destruct IH as [IH1 IH2]. split; auto.
        intros k. destruct (Nat.eqb_spec k k') as [->|]; [|apply IH2].
        destruct (Nat.eqb_spec k' fd); [congruence|auto].
  Qed.

  Lemma ulookup_app m1 m2 a b :
    ulookup (m1 ++ m2) a b = match ulookup m1 a b with Some x => Some x | None => ulookup m2 a b end.
  Proof.
    induction m1 as [|[[a' b'] x] m1 IH]; simpl; auto. destruct (Nat.eqb a a' && Nat.eqb b b'); auto.
  Qed.

  Definition uinv (L : nat -> list (dimT * nat)) (st : counters * unflat) : Prop :=
    (forall fd, cget_n fd (fst st) = length (L fd)) /\
    (forall fd fe, ulookup (snd st) fd fe = nth_error (L fd) fe).

  Lemma unflatten_step_inv L st dim e : uinv L st ->
    uinv (fun fd => if Nat.eqb fd (tuple_sum dim) then L fd ++ [(dim, e)] else L fd) (unflatten_step dim st e).
  Proof.
    destruct st as [c m]. intros [H1 H2]. unfold unflatten_step.
    destruct (next_count_spec (tuple_sum dim) c) as [N1 N2].
    destruct (next_count (tuple_sum dim) c) as [r c'] eqn:E. simpl in *. split; simpl.
    - intros fd. rewrite N2. destruct (Nat.eqb_spec fd (tuple_sum dim)); [|apply H1].
      rewrite app_length, H1. simpl. lia.
    - intros fd fe. rewrite ulookup_app, H2. simpl.
      destruct (Nat.eqb_spec fd (tuple_sum dim)) as [->|Hne]; simpl.
      + subst r. rewrite H1. destruct (nth_error (L (tuple_sum dim)) fe) as [x|] eqn:En.
        * rewrite nth_error_app1; [auto|]. apply nth_error_Some; congruence.
        * apply nth_error_None in En. rewrite nth_error_app2 by auto.
          destruct (Nat.eqb_spec fe (length (L (tuple_sum dim)))) as [->|Hne].
          -- rewrite Nat.sub_diag. reflexivity.
          -- destruct (fe - length (L (tuple_sum dim))) as [|k] eqn:Ek; [lia|]. simpl. destruct k; auto.
      + destruct (nth_error (L fd) fe); auto.
  Qed.

  Lemma uinv_ext L L' st : (forall fd, L fd = L' fd) -> uinv L st -> uinv L' st.
  Proof. intros H [A B]. split; intros; rewrite <- H; auto. Qed.

  Lemma unflatten_es_inv dim es : forall L st, uinv L st ->
    uinv (fun fd => L fd ++ if Nat.eqb fd (tuple_sum dim) then map (pair dim) es else [])
         (fold_left (unflatten_step dim) es st).
  Proof.
    induction es as [|e es IH]; intros L st H; simpl.
    - eapply uinv_ext; [|exact H]. intros fd. simpl. destruct (Nat.eqb _ _); rewrite app_nil_r; auto.
    - eapply uinv_ext; [|apply IH, unflatten_step_inv, H]. intros fd. simpl.
      destruct (Nat.eqb _ _); auto. rewrite <- app_assoc; reflexivity.
  Qed.

  Lemma unflatten_dims_inv (ts : dict V) : forall L st, uinv L st ->
    uinv (fun fd => L fd ++ fents fd ts)
      (fold_left (fun st '(dim, es) => fold_left (unflatten_step dim) (keys es) st) ts st).
  Proof.
    induction ts as [|[dim es] ts IH]; intros L st H; simpl.
    - eapply uinv_ext; [|exact H]. intros; rewrite app_nil_r; auto.
    - eapply uinv_ext; [|apply IH, unflatten_es_inv, H]. intros fd. simpl.
      rewrite <- app_assoc. reflexivity.
  Qed.

  Lemma ulookup_unflat (t : dict V) fd fe :
    ulookup (compute_unflattening_map t) fd fe = nth_error (fents fd (sort_dims t)) fe.
  Proof.
    unfold compute_unflattening_map.
    destruct (unflatten_dims_inv (sort_dims t) (fun _ => []) ([], [])) as [_ H].
    - split; intros; simpl; auto. destruct fe0; auto.
    - apply H.
  Qed.

  (** both together, when each entity dictionary is listed in increasing order *)
  Definition fitems (fd : nat) (ts : dict V) : list (dimT * nat * V) :=
    flat_map (fun '(dim, es) => if Nat.eqb fd (tuple_sum dim)
                                then map (fun '(e, v) => (dim, e, v)) es else []) ts.

  Lemma sort_items_id (es : ents V) : StronglySorted lt (keys es) -> sort_items es = es.
  Proof.
    intros H. apply isort_id. unfold keys in H. induction es as [|x es IH]; constructor;
      simpl in H; inversion H as [|? ? Hs Hf]; subst; auto.
    apply Forall_forall. intros y Hy. rewrite Forall_forall in Hf. unfold leT, ileb. apply Nat.leb_le.
    assert (fst x < fst y) by (apply Hf, in_map; auto). lia.
  Qed.

  Lemma fitems_spec (ts : dict V) fd : (forall d es, In (d, es) ts -> StronglySorted lt (keys es)) ->
    fvals fd ts = map snd (fitems fd ts) /\ fents fd ts = map fst (fitems fd ts).
  Proof.
    induction ts as [|[dim es] ts IH]; intros H; simpl; [auto|].
    destruct IH as [A B]; [intros; eapply H; simpl; eauto|]. rewrite !map_app. unfold fvals, fents in *.
    rewrite A, B. split; f_equal.
    - destruct (Nat.eqb fd (tuple_sum dim)); auto. rewrite sort_items_id by (eapply H; simpl; eauto).
      rewrite map_map. apply map_ext. intros [e v]; auto.
    - destruct (Nat.eqb fd (tuple_sum dim)); auto. unfold keys.
      rewrite !map_map. apply map_ext. intros [e v]; auto.
  Qed.

  Lemma in_fitems (t : dict V) fd d e v : proper_dict t ->
    (In (d, e, v) (fitems fd (sort_dims t)) <-> fd = tuple_sum d /\ lookup t d e = Some v).
  Proof.
    intros Hp. unfold fitems. rewrite in_flat_map. split.
    - intros ([dim es] & H1 & H2). unfold sort_dims in H1. apply isort_in in H1.
      destruct (Nat.eqb_spec fd (tuple_sum dim)) as [->|]; [|destruct H2].
      apply in_map_iff in H2 as ([e' v'] & E & H2). inversion E; subst. split; auto.
      apply lookup_in; eauto.
    - intros [-> H]. apply lookup_in in H as (es & H1 & H2); auto. exists (d, es). split.
      + unfold sort_dims. apply isort_in; auto.
      + rewrite Nat.eqb_refl. apply in_map_iff. exists (e, v); auto.
  Qed.

  Lemma fents_NoDup (t : dict V) fd : proper_dict t -> NoDup (fents fd (sort_dims t)).
  Proof.
    intros [H1 H2]. unfold fents.
    apply NoDup_flat_map.
    - eapply Permutation_NoDup; [apply isort_perm|]. apply keys_NoDup_items; auto.
    - intros [d es] Hin. unfold sort_dims in Hin. apply isort_in in Hin.
      destruct (Nat.eqb fd (tuple_sum d)); [|constructor].
      apply NoDup_map_in; [eapply H2; eauto|]. intros x y _ _ E; inversion E; auto.
    - intros [d es] [d' es'] [a b] A B C D. unfold sort_dims in A, B. apply isort_in in A, B.
      destruct (Nat.eqb fd (tuple_sum d)); [|destruct C]. destruct (Nat.eqb fd (tuple_sum d')); [|destruct D].
      apply in_map_iff in C as (x & E & _), D as (x' & E' & _). inversion E; inversion E'; subst.
      f_equal. rewrite <- dlookup_in in A, B by auto. congruence.
  Qed.

  Lemma flatten_unflatten (t : dict V) : proper_dict t ->
    (forall d es, In (d, es) t -> StronglySorted lt (keys es)) ->
    let m := compute_unflattening_map t in
    (forall fd fe v, flookup (flatten_entities t) fd fe = Some v <->
       exists d e, ulookup m fd fe = Some (d, e) /\ lookup t d e = Some v) /\
    (forall d e, (exists v, lookup t d e = Some v) ->
       exists fe, ulookup m (tuple_sum d) fe = Some (d, e)) /\
    (forall fd fe d e, ulookup m fd fe = Some (d, e) ->
       fd = tuple_sum d /\ (exists v, lookup t d e = Some v)) /\
    (forall fd fe fd' fe' x, ulookup m fd fe = Some x -> ulookup m fd' fe' = Some x -> fd = fd' /\ fe = fe') /\
    (forall fd, exists n, forall fe, ulookup m fd fe <> None <-> fe < n).
  Proof.
    intros Hp Hs m.
    assert (Hs' : forall d es, In (d, es) (sort_dims t) -> StronglySorted lt (keys es)).
    { intros d es H. unfold sort_dims in H. apply isort_in in H. eauto. }
    assert (U : forall fd fe, ulookup m fd fe = option_map fst (nth_error (fitems fd (sort_dims t)) fe)).
    { intros. unfold m. rewrite ulookup_unflat. rewrite (proj2 (fitems_spec _ fd Hs')). apply nth_error_map. }
    assert (F : forall fd fe, flookup (flatten_entities t) fd fe = option_map snd (nth_error (fitems fd (sort_dims t)) fe)).
    { intros. rewrite flookup_flatten. rewrite (proj1 (fitems_spec _ fd Hs')). apply nth_error_map. }
    assert (R : forall fd fe d e, ulookup m fd fe = Some (d, e) ->
       fd = tuple_sum d /\ exists v, lookup t d e = Some v /\ nth_error (fitems fd (sort_dims t)) fe = Some (d, e, v)).
    { intros fd fe d e H. rewrite U in H. destruct (nth_error (fitems fd (sort_dims t)) fe) as [[[d' e'] v]|] eqn:E; [|discriminate].
      simpl in H. inversion H; subst. pose proof (nth_error_In _ _ E) as Hin. apply in_fitems in Hin; auto.
      destruct Hin; eauto. }
    split; [|split; [|split; [|split]]].
    - intros fd fe v. rewrite F. split.
      + destruct (nth_error (fitems fd (sort_dims t)) fe) as [[[d e] v']|] eqn:E; [|discriminate].
        simpl. intros Ev; inversion Ev; subst. exists d, e. rewrite U, E. split; auto.
        apply nth_error_In, in_fitems in E; tauto.
      + intros (d & e & H1 & H2). apply R in H1 as (_ & v' & H3 & H4). rewrite H4. simpl. congruence.
    - intros d e (v & H). assert (Hin : In (d, e, v) (fitems (tuple_sum d) (sort_dims t))) by (apply in_fitems; auto).
      apply In_nth_error in Hin as (fe & Hfe). exists fe. rewrite U, Hfe; auto.
    - intros fd fe d e H. apply R in H as (A & v & B & _); eauto.
    - intros fd fe fd' fe' [d e] H H'.
      destruct (R _ _ _ _ H) as (A & _), (R _ _ _ _ H') as (A' & _). subst fd fd'. split; auto.
      pose proof (fents_NoDup t (tuple_sum d) Hp) as ND. unfold m in H, H'. rewrite ulookup_unflat in H, H'.
      eapply NoDup_nth_error; [exact ND| |congruence]. apply nth_error_Some; congruence.
    - intros fd. exists (length (fents fd (sort_dims t))). intros fe. unfold m. rewrite ulookup_unflat.
      apply nth_error_Some.
  Qed.
End Flat.
