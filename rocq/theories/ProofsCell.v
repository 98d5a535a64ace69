From Coq Require Import Sorted Permutation.
From Verif Require Import Base ModelIndex Sorting ModelCell SpecCell ProofsIndex.

(** ** dimension keys *)
Fixpoint dimT_ind' (P : dimT -> Prop) (HI : forall n, P (DI n))
  (HT : forall l, Forall P l -> P (DT l)) (d : dimT) : P d :=
  match d with
  | DI n => HI n
  | DT l => HT l ((fix go (l : list dimT) : Forall P l :=
                     match l with
                     | [] => Forall_nil P
                     | x :: l' => Forall_cons x (dimT_ind' P HI HT x) (go l')
                     end) l)
  end.

Fixpoint lcmp (l l' : list dimT) : comparison :=
  match l, l' with
  | [], [] => Eq
  | [], _ :: _ => Lt
  | _ :: _, [] => Gt
  | x :: r, y :: r' => match dcmp x y with Eq => lcmp r r' | c => c end
  end.
Lemma dcmp_DT l l' : dcmp (DT l) (DT l') = lcmp l l'.
Proof.
  simpl. revert l'. induction l as [|x l IH]; intros [|y l']; reflexivity.
Qed.

Lemma dcmp_refl a : dcmp a a = Eq.
Proof.
  induction a as [n|l IH] using dimT_ind'; [apply Nat.compare_refl|].
  rewrite dcmp_DT. induction IH as [|x l Hx _ IHl]; simpl; [reflexivity|]. rewrite Hx; auto.
Qed.
Lemma dcmp_eq a : forall b, dcmp a b = Eq -> a = b.
Proof.
  induction a as [n|l IH] using dimT_ind'; intros [m|l'] H; try discriminate.
  - apply Nat.compare_eq in H; congruence.
  - rewrite dcmp_DT in H. f_equal. revert l' H.
    induction IH as [|x l Hx _ IHl]; intros [|y l'] H; simpl in H; try discriminate; auto.
    destruct (dcmp x y) eqn:E; try discriminate. f_equal; auto.
Qed.
Lemma dcmp_opp a : forall b, dcmp b a = CompOpp (dcmp a b).
Proof.
  induction a as [n|l IH] using dimT_ind'; intros [m|l']; try reflexivity.
  - apply Nat.compare_antisym.
  - rewrite !dcmp_DT. revert l'.
    induction IH as [|x l Hx _ IHl]; intros [|y l']; simpl; try reflexivity.
    rewrite Hx. destruct (dcmp x y); simpl; auto.
Qed.
Lemma dcmp_trans a : forall b c, dcmp a b = Lt -> dcmp b c = Lt -> dcmp a c = Lt.
Proof.
  induction a as [n|l IH] using dimT_ind'; intros [m|l'] [k|l'']; try discriminate; try reflexivity.
  - simpl. rewrite !Nat.compare_lt_iff. lia.
  - rewrite !dcmp_DT. revert l' l''.
    induction IH as [|x l Hx _ IHl]; intros [|y l'] [|z l'']; simpl; try discriminate; auto.
    destruct (dcmp x y) eqn:E1, (dcmp y z) eqn:E2; try discriminate; intros H1 H2;
      try (apply dcmp_eq in E1; subst y); try (apply dcmp_eq in E2; subst z).
    + rewrite dcmp_refl. eauto.
    + rewrite E2; reflexivity.
    + rewrite E1; reflexivity.
    + rewrite (Hx y z); auto.
Qed.
Lemma deqb_eq a b : deqb a b = true <-> a = b.
Proof.
  unfold deqb. split.
  - destruct (dcmp a b) eqn:E; try discriminate. intros _; apply dcmp_eq; auto.
  - intros ->. rewrite dcmp_refl; reflexivity.
Qed.
Lemma deqb_refl a : deqb a a = true.
Proof. apply deqb_eq; reflexivity. Qed.
Lemma deqb_neq a b : a <> b -> deqb a b = false.
Proof. intros H. destruct (deqb a b) eqn:E; auto. apply deqb_eq in E; congruence. Qed.
Lemma dimT_dec (a b : dimT) : {a = b} + {a <> b}.
Proof.
  destruct (deqb a b) eqn:E; [left; apply deqb_eq; auto|right].
  intros ->. rewrite deqb_refl in E; discriminate.
Qed.

Lemma dleb_total x y : dleb x y = true \/ dleb y x = true.
Proof. unfold dleb. rewrite (dcmp_opp x y). destruct (dcmp x y); auto. Qed.
Lemma dleb_trans x y z : dleb x y = true -> dleb y z = true -> dleb x z = true.
Proof.
  unfold dleb. destruct (dcmp x y) eqn:E1; try discriminate; destruct (dcmp y z) eqn:E2; try discriminate;
    intros _ _; try (apply dcmp_eq in E1; subst y); try (apply dcmp_eq in E2; subst z).
  - rewrite dcmp_refl; auto.
  - rewrite E2; auto.
  - rewrite E1; auto.
  - rewrite (dcmp_trans _ _ _ E1 E2); auto.
Qed.
Lemma dleb_antisym x y : dleb x y = true -> dleb y x = true -> x = y.
Proof.
  unfold dleb. rewrite (dcmp_opp x y). destruct (dcmp x y) eqn:E; simpl; try discriminate.
  intros; apply dcmp_eq; auto.
Qed.
Lemma dleb_refl x : dleb x x = true.
Proof. unfold dleb. rewrite dcmp_refl; auto. Qed.

Lemma deleb_total x y : deleb x y = true \/ deleb y x = true.
Proof.
  unfold deleb. rewrite (dcmp_opp (fst x)). destruct (dcmp (fst x) (fst y)); simpl; auto. apply leb_total.
Qed.
Lemma deleb_trans x y z : deleb x y = true -> deleb y z = true -> deleb x z = true.
Proof.
  destruct x as [x i], y as [y j], z as [z k]. unfold deleb; simpl.
  destruct (dcmp x y) eqn:E1; try discriminate; destruct (dcmp y z) eqn:E2; try discriminate;
    intros H1 H2; try (apply dcmp_eq in E1; subst y); try (apply dcmp_eq in E2; subst z).
  - rewrite dcmp_refl. eapply leb_trans; eauto.
  - rewrite E2; auto.
  - rewrite E1; auto.
  - rewrite (dcmp_trans _ _ _ E1 E2); auto.
Qed.
Lemma deleb_antisym x y : deleb x y = true -> deleb y x = true -> x = y.
Proof.
  destruct x as [x i], y as [y j]. unfold deleb; simpl. rewrite (dcmp_opp x y).
  destruct (dcmp x y) eqn:E; simpl; try discriminate. apply dcmp_eq in E; subst y.
  intros; f_equal. apply leb_antisym; auto.
Qed.

(** ** dictionaries *)
Lemma elookup_in {V} (es : ents V) e v : NoDup (keys es) -> (elookup e es = Some v <-> In (e, v) es).
Proof.
  induction es as [|[e' v'] es IH]; simpl; intros ND; [split; [discriminate|tauto]|].
  inversion ND as [|? ? Hni ND']; subst.
  destruct (Nat.eqb_spec e e') as [->|Hne].
  - split.
    + intros E; inversion E; auto.
    + intros [E|Hin]; [inversion E; auto|]. exfalso. apply Hni. apply in_map_iff. exists (e', v); auto.
  - rewrite IH by auto. split; [auto|]. intros [E|H]; [inversion E; congruence|auto].
Qed.
Lemma dlookup_in {V} (t : list (dimT * V)) d v : NoDup (keys t) -> (dlookup d t = Some v <-> In (d, v) t).
Proof.
  induction t as [|[e' v'] es IH]; simpl; intros ND; [split; [discriminate|tauto]|].
  inversion ND as [|? ? Hni ND']; subst.
  destruct (deqb d e') eqn:E.
  - apply deqb_eq in E; subst e'. split.
    + intros E; inversion E; auto.
    + intros [E|Hin]; [inversion E; auto|]. exfalso. apply Hni. apply in_map_iff. exists (d, v); auto.
  - rewrite IH by auto. split; [auto|]. intros [E'|H]; [|auto]. inversion E'; subst.
    rewrite deqb_refl in E; discriminate.
Qed.
Lemma lookup_in {V} (t : dict V) d e v : proper_dict t ->
  (lookup t d e = Some v <-> exists es, In (d, es) t /\ In (e, v) es).
Proof.
  intros [ND1 ND2]. unfold lookup. split.
  - destruct (dlookup d t) as [es|] eqn:E; [|discriminate]. intros H.
    apply dlookup_in in E; auto. exists es. split; auto. apply elookup_in; auto. eauto.
  - intros (es & H1 & H2). rewrite (proj2 (dlookup_in t d es ND1)) by auto.
    apply elookup_in; eauto.
Qed.

Lemma subsetb_incl a b : subsetb a b = true <-> incl a b.
Proof.
  unfold subsetb. rewrite forallb_forall. split.
  - intros H x Hx. specialize (H x Hx). apply existsb_exists in H as (y & Hy & E).
    apply Nat.eqb_eq in E; subst; auto.
  - intros H x Hx. apply existsb_exists. exists x. split; [apply H; auto|apply Nat.eqb_refl].
Qed.

(** ** sub-entities *)
Lemma sub_entities_of_in t v x : proper_dict t ->
  (In x (sub_entities_of t v) <-> contained t v x).
Proof.
  intros Hp. unfold sub_entities_of, contained. rewrite isort_in, in_flat_map. split.
  - intros ([d es] & H1 & H2). apply in_flat_map in H2 as ([e vs] & H3 & H4).
    destruct (subsetb vs v) eqn:E; [|destruct H4]. destruct H4 as [<-|[]]. simpl.
    exists vs. split; [apply lookup_in; eauto|apply subsetb_incl; auto].
  - intros (v' & H1 & H2). apply lookup_in in H1 as (es & H3 & H4); auto.
    exists (fst x, es). split; auto. apply in_flat_map. exists (snd x, v'). split; auto.
    rewrite (proj2 (subsetb_incl v' v) H2). left. destruct x; reflexivity.
Qed.

Lemma NoDup_app' {A} (l1 l2 : list A) :
  NoDup l1 -> NoDup l2 -> (forall x, In x l1 -> In x l2 -> False) -> NoDup (l1 ++ l2).
Proof.
  induction 1 as [|x l Hni ND IH]; simpl; intros H2 H; auto.
  constructor.
  - rewrite in_app_iff. intros [H3|H3]; [auto|]. apply (H x); simpl; auto.
  - apply IH; auto. intros y Hy; apply H; simpl; auto.
Qed.
Lemma NoDup_flat_map {A B} (f : A -> list B) l :
  NoDup l -> (forall x, In x l -> NoDup (f x)) ->
  (forall x y z, In x l -> In y l -> In z (f x) -> In z (f y) -> x = y) ->
  NoDup (flat_map f l).
Proof.
  induction 1 as [|x l Hni ND IH]; simpl; intros H1 H2; [constructor|].
  apply NoDup_app'; auto.
  - apply IH; auto. intros x0 y z Hx Hy; apply H2; auto.
  - intros z Hz Hz'. apply in_flat_map in Hz' as (y & Hy & Hz').
    apply Hni. rewrite (H2 x y z); auto.
Qed.
Lemma keys_NoDup_items {A B} (l : list (A * B)) : NoDup (keys l) -> NoDup l.
Proof. apply NoDup_map_inv. Qed.

Lemma sub_entities_of_NoDup t v : proper_dict t -> NoDup (sub_entities_of t v).
Proof.
  intros [ND1 ND2]. unfold sub_entities_of.
  eapply Permutation_NoDup; [apply isort_perm|].
  apply NoDup_flat_map; [apply keys_NoDup_items; auto| |].
  - intros [d es] Hin. apply NoDup_flat_map; [apply keys_NoDup_items; eauto| |].
    + intros [e vs] _. destruct (subsetb vs v); repeat constructor; intros [].
    + intros [e vs] [e' vs'] z H1 H2 H3 H4.
      destruct (subsetb vs v); [|destruct H3]. destruct (subsetb vs' v); [|destruct H4].
      destruct H3 as [<-|[]], H4 as [E|[]]. inversion E; subst.
      assert (ND : NoDup (keys es)) by eauto.
      apply (elookup_in es e vs ND) in H1. apply (elookup_in es e vs' ND) in H2. congruence.
  - intros [d es] [d' es'] z H1 H2 H3 H4.
    apply in_flat_map in H3 as ([e vs] & _ & H3). apply in_flat_map in H4 as ([e' vs'] & _ & H4).
    destruct (subsetb vs v); [|destruct H3]. destruct (subsetb vs' v); [|destruct H4].
    destruct H3 as [<-|[]], H4 as [E|[]]. inversion E; subst.
    apply (dlookup_in t d es ND1) in H1. apply (dlookup_in t d es' ND1) in H2. congruence.
Qed.

Lemma sub_entities_of_sorted t v : StronglySorted (leT deleb) (sub_entities_of t v).
Proof. apply isort_sorted; [apply deleb_total|apply deleb_trans]. Qed.

(** ** connectivity *)
Lemma filter_dim_sorted d subs :
  StronglySorted (leT deleb) subs -> NoDup subs ->
  StronglySorted lt (of_dim d subs).
Proof.
  unfold of_dim. induction 1 as [|x l Hs IH Hf]; simpl; intros ND; [constructor|].
  inversion ND as [|? ? Hni ND']; subst.
  destruct (deqb (fst x) (DI d)) eqn:E; simpl; auto.
  constructor; auto. apply Forall_forall. intros e He.
  apply in_map_iff in He as (y & <- & Hy). apply filter_In in Hy as [Hy E2].
  rewrite Forall_forall in Hf. specialize (Hf y Hy). unfold leT, deleb in Hf.
  apply deqb_eq in E, E2. rewrite E, E2, dcmp_refl in Hf. apply Nat.leb_le in Hf.
  assert (snd x <> snd y); [|lia]. intros Es. apply Hni.
  destruct x, y; simpl in *; subst; auto.
Qed.

Lemma of_dim_in t v d e : proper_dict t ->
  (In e (of_dim d (sub_entities_of t v)) <-> contained t v (DI d, e)).
Proof.
  intros Hp. unfold of_dim. rewrite in_map_iff. split.
  - intros ([d' e'] & <- & H). apply filter_In in H as [H1 H2]. simpl in *.
    apply deqb_eq in H2; subst. apply sub_entities_of_in; auto.
  - intros H. exists (DI d, e). split; auto. apply filter_In. split; [apply sub_entities_of_in; auto|].
    simpl. apply deqb_refl.
Qed.

Definition cget (c : conn) (key : nat * nat) : list (list nat) :=
  match clookup c key with Some l => l | None => [] end.

Lemma clookup_append c key x key' :
  clookup (setdefault_append c key x) key' =
  if Nat.eqb (fst key') (fst key) && Nat.eqb (snd key') (snd key)
  then Some (cget c key' ++ [x]) else clookup c key'.
Proof.
  unfold cget. induction c as [|[k l] c IH]; simpl.
  - destruct (_ && _); reflexivity.
  - destruct (Nat.eqb (fst key) (fst k) && Nat.eqb (snd key) (snd k)) eqn:E1; simpl.
    + apply andb_true_iff in E1 as [A B]. apply Nat.eqb_eq in A, B. rewrite A, B. clear IH.
      destruct (_ && _); reflexivity.
    + destruct (Nat.eqb (fst key') (fst k) && Nat.eqb (snd key') (snd k)) eqn:E2.
      * destruct (Nat.eqb (fst key') (fst key) && Nat.eqb (snd key') (snd key)) eqn:E3; auto.
        apply andb_true_iff in E2 as [A B], E3 as [C D]. apply Nat.eqb_eq in A, B, C, D.
        rewrite <- C, <- D, A, B, !Nat.eqb_refl in E1. discriminate.
      * rewrite IH. destruct (_ && _); reflexivity.
Qed.

(** effect of one entity *)
Definition ent_step (d0 : nat) (c : conn) (subsub : list (dimT * nat)) : conn :=
  fold_left (fun c dim1 => setdefault_append c (d0, dim1) (of_dim dim1 subsub)) (range 0 (d0 + 1)) c.

Lemma ent_step_lookup d0 c subsub key :
  clookup (ent_step d0 c subsub) key =
  if Nat.eqb (fst key) d0 && Nat.leb (snd key) d0
  then Some (cget c key ++ [of_dim (snd key) subsub]) else clookup c key.
Proof.
  unfold ent_step.
  assert (G : forall l c, NoDup l ->
    clookup (fold_left (fun c dim1 => setdefault_append c (d0, dim1) (of_dim dim1 subsub)) l c) key
    = if Nat.eqb (fst key) d0 && existsb (Nat.eqb (snd key)) l
      then Some (cget c key ++ [of_dim (snd key) subsub]) else clookup c key).
  { induction l as [|x l IH]; intros c' ND; simpl.
    - rewrite andb_false_r; reflexivity.
    - inversion ND as [|? ? Hni ND']; subst. rewrite IH by auto.
      assert (Hx : existsb (Nat.eqb x) l = false).
      { destruct (existsb (Nat.eqb x) l) eqn:E; auto. apply existsb_exists in E as (y & Hy & E).
        apply Nat.eqb_eq in E; subst; contradiction. }
      unfold cget. rewrite clookup_append. simpl.
      destruct (Nat.eqb_spec (fst key) d0); simpl; auto.
      destruct (Nat.eqb_spec (snd key) x) as [->|Hne]; simpl.
      + rewrite Hx. unfold cget. reflexivity.
      + reflexivity. }
  rewrite G by (apply seq_NoDup).
  replace (existsb (Nat.eqb (snd key)) (range 0 (d0 + 1))) with (Nat.leb (snd key) d0); auto.
  apply eq_true_iff_eq. rewrite Nat.leb_le, existsb_exists. split.
  - intros H. exists (snd key). split; [apply in_range; lia|apply Nat.eqb_refl].
  - intros (y & Hy & E). apply Nat.eqb_eq in E. apply in_range in Hy. lia.
Qed.

Lemma ents_step_lookup d0 (es : ents (list (dimT * nat))) : forall c key,
  clookup (fold_left (fun c '(_, subsub) => ent_step d0 c subsub) es c) key =
  if Nat.eqb (fst key) d0 && Nat.leb (snd key) d0 && negb (Nat.eqb (length es) 0)
  then Some (cget c key ++ map (fun x => of_dim (snd key) (snd x)) es) else clookup c key.
Proof.
  induction es as [|[e subsub] es IH]; intros c key; simpl.
  - rewrite andb_false_r; reflexivity.
  - rewrite IH. unfold cget at 1. rewrite ent_step_lookup. rewrite andb_true_r.
    destruct (Nat.eqb (fst key) d0 && Nat.leb (snd key) d0) eqn:E; simpl; auto.
    destruct (Nat.eqb_spec (length es) 0) as [E0|E0]; simpl.
    + destruct es; [reflexivity|discriminate].
    + rewrite <- app_assoc. reflexivity.
Qed.

Definition dim_step (c : conn) (x : dimT * ents (list (dimT * nat))) : conn :=
  match fst x with
  | DT _ => c
  | DI d0 => fold_left (fun c '(_, subsub) => ent_step d0 c subsub) (sort_items (snd x)) c
  end.

Lemma connectivity_unfold t : connectivity t = fold_left dim_step (sub_entities t) [].
Proof.
  unfold connectivity. assert (G : forall l c,
    fold_left (fun c '(dim0, subs) =>
    match dim0 with
    | DT _ => c
    | DI d0 =>
      fold_left (fun c '(_, subsub) =>
        fold_left (fun c dim1 => setdefault_append c (d0, dim1) (of_dim dim1 subsub))
                  (range 0 (d0 + 1)) c)
        (sort_items subs) c
    end) l c = fold_left dim_step l c).
  { induction l as [|[d es] l IH]; intros c; simpl; [reflexivity|]. rewrite <- IH. destruct d; reflexivity. }
  apply G.
Qed.

Lemma dims_lookup (l : dict (list (dimT * nat))) : forall c d0 d1, NoDup (keys l) ->
  (clookup c (d0, d1) = None \/ ~ In (DI d0) (keys l)) ->
  clookup (fold_left dim_step l c) (d0, d1) =
  match dlookup (DI d0) l with
  | Some es => if Nat.leb d1 d0 && negb (Nat.eqb (length es) 0)
               then Some (map (fun x => of_dim d1 (snd x)) (sort_items es)) else clookup c (d0, d1)
  | None => clookup c (d0, d1)
  end.
Proof.
  induction l as [|[d es] l IH]; intros c d0 d1 ND Hc; [reflexivity|].
  cbn [fold_left keys map fst] in *. inversion ND as [|? ? Hni ND']; subst.
  cbn [dlookup]. destruct (deqb (DI d0) d) eqn:E.
  - apply deqb_eq in E; subst d. rewrite IH; auto.
    assert (Hn : dlookup (DI d0) l = None).
    { destruct (dlookup (DI d0) l) as [x|] eqn:E; auto. apply dlookup_in in E; auto.
      exfalso; apply Hni. apply in_map_iff. exists (DI d0, x); auto. }
    rewrite Hn. unfold dim_step; cbn [fst snd]. rewrite ents_step_lookup. cbn [fst snd].
    rewrite Nat.eqb_refl. unfold sort_items at 1. rewrite isort_length. simpl andb.
    destruct (Nat.leb d1 d0 && negb (Nat.eqb (length es) 0)); auto.
    unfold cget. destruct Hc as [-> | Hc]; [reflexivity|]. exfalso; apply Hc; simpl; auto.
  - assert (Hd : clookup (dim_step c (d, es)) (d0, d1) = clookup c (d0, d1)).
    { unfold dim_step; cbn [fst snd]. destruct d as [n|]; auto. rewrite ents_step_lookup. cbn [fst].
      destruct (Nat.eqb_spec d0 n) as [->|Hne]; auto.
      rewrite deqb_refl in E; discriminate. }
    rewrite IH; auto.
    + rewrite Hd. reflexivity.
    + rewrite Hd. destruct Hc as [Hc|Hc]; auto. right. simpl in Hc. tauto.
Qed.

Lemma dlookup_sub t d : dlookup d (sub_entities t) =
  option_map (map (fun '(e, v) => (e : nat, sub_entities_of t v))) (dlookup d t).
Proof.
  unfold sub_entities.
  assert (G : forall t0 : topo, dlookup d (map (fun '(dim, entities) =>
         (dim, map (fun '(e, v) => (e, sub_entities_of t v)) entities)) t0)
     = option_map (map (fun '(e, v) => (e, sub_entities_of t v))) (dlookup d t0)).
  { induction t0 as [|[d' es] t0 IH]; simpl; [reflexivity|]. destruct (deqb d d'); auto. }
  apply G.
Qed.

Lemma keys_sub t : keys (sub_entities t) = keys t.
Proof. unfold keys, sub_entities. rewrite map_map. apply map_ext. intros [d es]; reflexivity. Qed.

Lemma sort_items_map {V W} (f : V -> W) (es : ents V) :
  sort_items (map (fun '(e, v) => (e, f v)) es) = map (fun '(e, v) => (e, f v)) (sort_items es).
Proof.
  unfold sort_items. induction es as [|[e v] es IH]; simpl; [reflexivity|]. rewrite IH. clear IH.
  induction (isort ileb es) as [|[e' v'] l IH]; simpl; [reflexivity|].
  unfold ileb at 1 3; simpl. destruct (Nat.leb e e'); simpl; [reflexivity|]. rewrite IH; reflexivity.
Qed.

Lemma keys_sort_items {V} (es : ents V) : keys (sort_items es) = nsort (keys es).
Proof.
  unfold sort_items, keys, nsort. induction es as [|[e v] es IH]; simpl; [reflexivity|].
  rewrite <- IH. clear IH. induction (isort ileb es) as [|[e' v'] l IH]; simpl; [reflexivity|].
  unfold ileb at 1; simpl. destruct (Nat.leb e e'); simpl; [reflexivity|]. rewrite IH; reflexivity.
Qed.

Lemma connectivity_lookup t d0 d1 : proper_dict t ->
  clookup (connectivity t) (d0, d1) =
  match dlookup (DI d0) t with
  | Some es => if Nat.leb d1 d0 && negb (Nat.eqb (length es) 0)
               then Some (map (fun x => of_dim d1 (sub_entities_of t (snd x))) (sort_items es)) else None
  | None => None
  end.
Proof.
  intros [ND _]. rewrite connectivity_unfold, dims_lookup; [|rewrite keys_sub; auto|left; reflexivity].
  rewrite dlookup_sub. destruct (dlookup (DI d0) t) as [es|]; simpl; auto.
  rewrite map_length, sort_items_map, map_map.
  destruct (_ && _); auto. f_equal. apply map_ext. intros [e v]; reflexivity.
Qed.

Lemma connectivity_spec t d0 d1 es : proper_dict t ->
  dlookup (DI d0) t = Some es -> es <> [] -> d1 <= d0 ->
  exists L, clookup (connectivity t) (d0, d1) = Some L /\ length L = length es /\
    forall k e v, nth_error (nsort (keys es)) k = Some e -> elookup e es = Some v ->
      exists l, nth_error L k = Some l /\ StronglySorted lt l /\
        forall e1, In e1 l <-> contained t v (DI d1, e1).
Proof.
  intros Hp Hd Hne Hle. rewrite connectivity_lookup by auto. rewrite Hd.
  assert (E1 : Nat.leb d1 d0 = true) by (apply Nat.leb_le; auto).
  assert (E2 : Nat.eqb (length es) 0 = false) by (destruct es; [congruence|reflexivity]).
  rewrite E1, E2. simpl. eexists. split; [reflexivity|].
  split; [rewrite map_length; unfold sort_items; apply isort_length|].
  intros k e v Hk He.
  assert (NDe : NoDup (keys es)).
  { destruct Hp as [ND1 ND2]. apply dlookup_in in Hd; eauto. }
  rewrite <- keys_sort_items in Hk. unfold keys in Hk.
  destruct (nth_error (sort_items es) k) as [[e' v']|] eqn:Hs.
  2:{ rewrite nth_error_map, Hs in Hk. discriminate. }
  rewrite nth_error_map, Hs in Hk. simpl in Hk. inversion Hk; subst e'.
  assert (v' = v).
  { apply nth_error_In in Hs. unfold sort_items in Hs. apply isort_in in Hs.
    apply elookup_in in Hs; auto. congruence. }
  subst v'. exists (of_dim d1 (sub_entities_of t v)). split; [|split].
  - rewrite nth_error_map, Hs. reflexivity.
  - apply filter_dim_sorted; [apply sub_entities_of_sorted|apply sub_entities_of_NoDup; auto].
  - intros e1. apply of_dim_in; auto.
Qed.

(** ** closure dofs *)
Lemma last_default {A} (l : list A) d d' : l <> [] -> last l d = last l d'.
Proof.
  induction l as [|x l IH]; intros H; [congruence|]. destruct l; [reflexivity|].
  change (last (a :: l) d = last (a :: l) d'). apply IH; congruence.
Qed.

Lemma gather_ok ids subs : forall d acc,
  (forall x, In x subs -> exists l, lookup ids (fst x) (snd x) = Some l) ->
  gather ids subs d acc =
  Ok (last (map (fun x => Some (fst x)) subs) d, acc ++ flat_map (dofs_on ids) subs).
Proof.
  induction subs as [|[d' se] subs IH]; intros d acc H; simpl.
  - rewrite app_nil_r; reflexivity.
  - destruct (H (d', se)) as (l & Hl); simpl; auto. simpl in Hl. rewrite Hl.
    rewrite IH by (intros x Hx; apply H; simpl; auto).
    unfold dofs_on at 2. simpl. rewrite Hl. simpl. rewrite <- app_assoc. f_equal. f_equal.
    destruct subs as [|x subs]; [reflexivity|]. simpl map.
    apply last_default. discriminate.
Qed.

Lemma last_sorted_dim t d e v :
  proper_dict t -> graded t -> lookup t d e = Some v ->
  forall dd, last (map (fun x => Some (fst x)) (sub_entities_of t v)) dd = Some d.
Proof.
  intros Hp Hg Hl dd.
  assert (Hin : In (d, e) (sub_entities_of t v)).
  { apply sub_entities_of_in; auto. exists v. split; auto. intros x; auto. }
  pose proof (sub_entities_of_sorted t v) as Hs.
  assert (Hall : forall x, In x (sub_entities_of t v) -> dleb (fst x) d = true).
  { intros x Hx. apply sub_entities_of_in in Hx; auto. destruct x as [d' e']. eapply Hg; eauto. }
  revert Hin Hs Hall. generalize (sub_entities_of t v); intros l. revert dd.
  induction l as [|x l IH]; intros dd Hin Hs Hall; [destruct Hin|].
  destruct l as [|y l].
  - destruct Hin as [->|[]]; reflexivity.
  - change (last (map (fun x => Some (fst x)) (y :: l)) dd = Some d).
    inversion Hs as [|? ? Hs' Hf]; subst.
    destruct Hin as [->|Hin].
    + (* (d,e) is first: all later ones have dimension >= d, hence = d *)
      assert (Hall' : forall z, In z (y :: l) -> fst z = d).
      { intros z Hz. rewrite Forall_forall in Hf. specialize (Hf z Hz).
        apply dleb_antisym; [apply Hall; simpl in *; auto|].
        unfold leT, deleb in Hf. unfold dleb. simpl in Hf. destruct (dcmp d (fst z)); auto; discriminate. }
      clear - Hall'. revert y Hall'. induction l as [|z l IHl]; intros y Hall'.
      * simpl. f_equal. apply Hall'; simpl; auto.
      * change (last (map (fun x => Some (fst x)) (z :: l)) dd = Some d). apply IHl.
        intros w Hw. apply Hall'; simpl in *; auto.
    + apply IH; auto. intros z Hz; apply Hall; simpl in *; auto.
Qed.

Lemma elookup_eset {V} e v (es : ents V) e' :
  elookup e' (eset e v es) = if Nat.eqb e' e then Some v else elookup e' es.
Proof.
  induction es as [|[a b] es IH]; simpl.
  - destruct (Nat.eqb e' e); reflexivity.
  - destruct (Nat.eqb_spec e a) as [->|Hne]; simpl.
    + destruct (Nat.eqb e' a); reflexivity.
    + rewrite IH. destruct (Nat.eqb_spec e' a) as [->|]; auto.
      destruct (Nat.eqb_spec a e); [congruence|reflexivity].
Qed.

Lemma dset_in_some {V} d e (v : V) t : In d (keys t) ->
  exists t', dset_in d e v t = Some t' /\ keys t' = keys t /\
    (forall d' e', lookup t' d' e' = if deqb d' d && Nat.eqb e' e then Some v else lookup t d' e').
Proof.
  induction t as [|[d0 es] t IH]; simpl; intros H; [destruct H|].
  destruct (deqb d d0) eqn:E.
  - apply deqb_eq in E; subst d0. eexists. split; [reflexivity|]. split; [reflexivity|].
    intros d' e'. unfold lookup; simpl. destruct (deqb d' d) eqn:E'; simpl; auto.
    apply elookup_eset.
  - destruct H as [->|H]; [rewrite deqb_refl in E; discriminate|].
    destruct (IH H) as (t' & H1 & H2 & H3). rewrite H1. eexists. split; [reflexivity|].
    split; [simpl; f_equal; exact H2|].
    intros d' e'. unfold lookup in *; simpl. destruct (deqb d' d0) eqn:E'; [|apply H3].
    apply deqb_eq in E'; subst d'.
    assert (deqb d0 d = false).
    { apply deqb_neq. intros ->. rewrite deqb_refl in E; discriminate. }
    rewrite H0. reflexivity.
Qed.

Definition closed_ids (ids : dict (list nat)) (t : topo) (v : list nat) : list nat :=
  nsort (flat_map (dofs_on ids) (sub_entities_of t v)).

Lemma closure_entities_ok t ids dim : forall (es : ents (list nat)) dprev acc,
  proper_dict t -> graded t -> covers t ids ->
  (forall e v, In (e, v) es -> lookup t dim e = Some v) -> NoDup (keys es) -> In dim (keys acc) ->
  exists dl acc',
    closure_entities ids (map (fun '(e, v) => (e, sub_entities_of t v)) es) dprev acc = Ok (dl, acc') /\
    keys acc' = keys acc /\
    (forall d' e', lookup acc' d' e' =
       if deqb d' dim then match elookup e' es with
                           | Some v => Some (closed_ids ids t v)
                           | None => lookup acc d' e' end
       else lookup acc d' e').
Proof.
  induction es as [|[e v] es IH]; intros dprev acc Hp Hg Hc Hes ND Hin.
  - simpl. exists dprev, acc. split; [reflexivity|]. split; [reflexivity|].
    intros; destruct (deqb d' dim); reflexivity.
  - cbn [map closure_entities]. inversion ND as [|? ? Hni ND']; subst.
    assert (Hl : lookup t dim e = Some v) by (apply Hes; simpl; auto).
    rewrite gather_ok.
    2:{ intros x Hx. apply sub_entities_of_in in Hx as (v' & Hv' & _); auto. eapply Hc; eauto. }
    rewrite (last_sorted_dim t dim e v Hp Hg Hl).
    destruct (dset_in_some dim e (nsort ([] ++ flat_map (dofs_on ids) (sub_entities_of t v))) acc Hin)
      as (acc1 & E1 & K1 & L1).
    rewrite E1.
    destruct (IH (Some dim) acc1 Hp Hg Hc) as (dl & acc' & E2 & K2 & L2); auto.
    { intros; apply Hes; simpl; auto. }
    { rewrite K1; auto. }
    exists dl, acc'. split; [exact E2|]. split; [congruence|].
    intros d' e'. rewrite L2, !L1. simpl elookup.
    destruct (deqb d' dim) eqn:Ed; simpl; auto.
    destruct (Nat.eqb_spec e' e) as [->|Hne]; simpl.
    + destruct (elookup e es) as [v'|] eqn:Ee; [|reflexivity].
      exfalso. apply Hni. apply elookup_in in Ee; auto. apply in_map_iff. exists (e, v'); auto.
    + reflexivity.
Qed.

Lemma lookup_snoc {V} (acc : dict V) dim d' e' : ~ In dim (keys acc) ->
  lookup (acc ++ [(dim, [])]) d' e' = lookup acc d' e'.
Proof.
  intros Hni. unfold lookup. induction acc as [|[d es] acc IH]; simpl.
  - destruct (deqb d' dim); reflexivity.
  - destruct (deqb d' d); auto. apply IH. simpl in Hni; tauto.
Qed.

Lemma closure_dims_ok t ids : forall (ts : topo) dprev acc,
  proper_dict t -> graded t -> covers t ids ->
  (forall d es, In (d, es) ts -> In (d, es) t) -> NoDup (keys ts) ->
  (forall d, In d (keys ts) -> ~ In d (keys acc)) ->
  exists acc',
    closure_dims ids (map (fun '(dim, es) =>
         (dim, map (fun '(e, v) => (e, sub_entities_of t v)) es)) ts) dprev acc = Ok acc' /\
    keys acc' = keys acc ++ keys ts /\
    (forall d' e', lookup acc' d' e' =
       match dlookup d' ts with
       | Some es => match elookup e' es with
                    | Some v => Some (closed_ids ids t v) | None => None end
       | None => lookup acc d' e' end).
Proof.
  induction ts as [|[dim es] ts IH]; intros dprev acc Hp Hg Hc Hts ND Hdis.
  - simpl. exists acc. rewrite app_nil_r. split; [reflexivity|]. split; reflexivity.
  - cbn [map closure_dims]. inversion ND as [|? ? Hni ND']; subst.
    assert (Hin : In (dim, es) t) by (apply Hts; simpl; auto).
    assert (NDe : NoDup (keys es)) by (destruct Hp; eauto).
    destruct (closure_entities_ok t ids dim es dprev (acc ++ [(dim, [])]) Hp Hg Hc)
      as (dl & acc1 & E1 & K1 & L1); auto.
    { intros e v Hev. apply lookup_in; eauto. }
    { unfold keys. rewrite map_app. apply in_or_app; right; simpl; auto. }
    rewrite E1.
    assert (Hna : ~ In dim (keys acc)) by (apply Hdis; simpl; auto).
    assert (K1' : keys acc1 = keys acc ++ [dim]) by (rewrite K1; unfold keys; rewrite map_app; reflexivity).
    destruct (IH dl acc1 Hp Hg Hc) as (acc' & E2 & K2 & L2); auto.
    { intros; apply Hts; simpl; auto. }
    { intros d Hd. rewrite K1'. intros Hx. apply in_app_or in Hx as [Hx|[->|[]]]; [|contradiction].
      eapply Hdis; simpl; eauto. }
    exists acc'. split; [exact E2|]. split.
    { rewrite K2, K1'. rewrite <- app_assoc. reflexivity. }
    intros d' e'. rewrite L2. cbn [dlookup]. destruct (deqb d' dim) eqn:Ed.
    + apply deqb_eq in Ed; subst d'.
      assert (Hn : dlookup dim ts = None).
      { destruct (dlookup dim ts) as [x|] eqn:E; auto. apply dlookup_in in E; auto.
        exfalso; apply Hni. apply in_map_iff. exists (dim, x); auto. }
      rewrite Hn, L1, deqb_refl. destruct (elookup e' es); auto.
      rewrite lookup_snoc by auto.
      unfold lookup. destruct (dlookup dim acc) as [x|] eqn:E; auto.
      exfalso. apply Hna. clear - E. unfold keys. induction acc as [|[a b] acc IHa]; [discriminate|].
      simpl in *. destruct (deqb dim a) eqn:Ea; [apply deqb_eq in Ea; auto|auto].
    + destruct (dlookup d' ts); auto. rewrite L1, Ed. apply lookup_snoc; auto.
Qed.

Lemma closure_ids_spec t ids :
  proper_dict t -> graded t -> covers t ids ->
  exists r, make_entity_closure_ids t ids = Ok r /\
    (forall d e, lookup t d e = None -> lookup r d e = None) /\
    (forall d e v, lookup t d e = Some v ->
       exists l subs, lookup r d e = Some l /\ StronglySorted (leT Nat.leb) l /\
         NoDup subs /\ (forall x, In x subs <-> contained t v x) /\
         Permutation l (flat_map (dofs_on ids) subs)).
Proof.
  intros Hp Hg Hc.
  destruct (closure_dims_ok t ids t None [] Hp Hg Hc) as (r & E & K & L); auto.
  { destruct Hp; auto. }
  exists r. split; [exact E|]. split.
  - intros d e Hl. rewrite L. unfold lookup in Hl. destruct (dlookup d t); auto. rewrite Hl; auto.
  - intros d e v Hl. exists (closed_ids ids t v), (sub_entities_of t v).
    split; [|split; [apply nsort_sorted|split; [apply sub_entities_of_NoDup; auto|split]]].
    + rewrite L. unfold lookup in Hl. destruct (dlookup d t); [|discriminate]. rewrite Hl; auto.
    + intros x. apply sub_entities_of_in; auto.
    + symmetry. apply nsort_perm.
Qed.
