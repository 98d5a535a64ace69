(** Every concrete cell has a well-formed, graded topology. *)
From Coq Require Import Sorted Permutation.
From Verif Require Import Base ModelIndex Sorting ModelCell SpecCell SpecCart ProofsIndex ProofsCell ProofsCart.

Definition good (nv : nat) (t : topo) : Prop :=
  NoDup (keys t) /\
  (forall d es, In (d, es) t -> keys es = seq 0 (length es)) /\
  (forall d es e v, In (d, es) t -> In (e, v) es -> v <> [] /\ NoDup v /\ Forall (fun w => w < nv) v) /\
  (forall d es e v d' es' e' v', In (d, es) t -> In (e, v) es -> In (d', es') t -> In (e', v') es' ->
     incl v' v -> dleb d' d = true).

Lemma good_proper nv t : good nv t -> proper_dict t.
Proof.
  intros (H1 & H2 & _). split; auto. intros d es H. rewrite (H2 d es H). apply seq_NoDup.
Qed.
Lemma good_graded nv t : good nv t -> graded t.
Proof.
  intros Hg. pose proof (good_proper _ _ Hg) as Hp. destruct Hg as (_ & _ & _ & H).
  intros d e v d' e' Hl (v' & Hl' & Hi). simpl in *.
  apply lookup_in in Hl as (es & A & B); auto. apply lookup_in in Hl' as (es' & A' & B'); auto.
  eapply H; [exact A|exact B|exact A'|exact B'|exact Hi].
Qed.

(** decision procedure for concrete topologies *)
Fixpoint nodupb {A} (eqb : A -> A -> bool) (l : list A) : bool :=
  match l with [] => true | x :: l' => negb (existsb (eqb x) l') && nodupb eqb l' end.
Lemma nodupb_NoDup {A} (eqb : A -> A -> bool) (He : forall x, eqb x x = true) l : nodupb eqb l = true -> NoDup l.
Proof.
  induction l as [|x l IH]; simpl; intros H; constructor.
  - apply andb_true_iff in H as [H _]. intros Hin.
    assert (existsb (eqb x) l = true) by (apply existsb_exists; eauto). rewrite H0 in H; discriminate.
  - apply andb_true_iff in H as [_ H]; auto.
Qed.
Definition goodb (nv : nat) (t : topo) : bool :=
  nodupb deqb (keys t) &&
  forallb (fun x => if list_eq_dec Nat.eq_dec (keys (snd x)) (seq 0 (length (snd x))) then true else false) t &&
  forallb (fun x => forallb (fun y => negb (Nat.eqb (length (snd y)) 0) && nodupb Nat.eqb (snd y) &&
                                     forallb (fun w => Nat.ltb w nv) (snd y)) (snd x)) t &&
  forallb (fun x => forallb (fun y => forallb (fun x' => forallb (fun y' =>
     negb (subsetb (snd y') (snd y)) || dleb (fst x') (fst x)) (snd x')) t) (snd x)) t.
Lemma goodb_good nv t : goodb nv t = true -> good nv t.
Proof.
  unfold goodb. rewrite !andb_true_iff. intros [[[H1 H2] H3] H4].
  rewrite !forallb_forall in *. repeat split.
  - eapply nodupb_NoDup; [apply deqb_refl|auto].
  - intros d es Hin. specialize (H2 _ Hin). simpl in H2. destruct (list_eq_dec _ _ _); auto; discriminate.
  - specialize (H3 _ H). rewrite forallb_forall in H3. specialize (H3 _ H0). simpl in H3.
    rewrite !andb_true_iff in H3. destruct H3 as [[A _] _]. intros ->. discriminate.
  - specialize (H3 _ H). rewrite forallb_forall in H3. specialize (H3 _ H0). simpl in H3.
    rewrite !andb_true_iff in H3. destruct H3 as [[_ A] _]. eapply nodupb_NoDup; [apply Nat.eqb_refl|auto].
  - specialize (H3 _ H). rewrite forallb_forall in H3. specialize (H3 _ H0). simpl in H3.
    rewrite !andb_true_iff in H3. destruct H3 as [_ A]. rewrite forallb_forall in A.
    apply Forall_forall. intros w Hw. apply Nat.ltb_lt; auto.
  - intros d es e v d' es' e' v' A B A' B' Hi.
    specialize (H4 _ A). rewrite forallb_forall in H4. specialize (H4 _ B).
    rewrite forallb_forall in H4. specialize (H4 _ A'). rewrite forallb_forall in H4. specialize (H4 _ B').
    simpl in H4. apply subsetb_incl in Hi. rewrite Hi in H4. auto.
Qed.

(** ** product topologies *)
Lemma lexlt_lleb a b : lexlt a b -> lleb a b = true.
Proof.
  induction 1 as [x y l1 l2 H|x l1 l2 H IH]; simpl.
  - apply Nat.ltb_lt in H. rewrite H; auto.
  - rewrite Nat.ltb_irrefl; auto.
Qed.
Lemma SSorted_fst {A} (l : list (list nat * A)) :
  StronglySorted lexlt (map fst l) -> StronglySorted (leT (fun x y => lleb (fst x) (fst y))) l.
Proof.
  induction l as [|x l IH]; simpl; intros H; constructor; inversion H as [|? ? Hs Hf]; subst; auto.
  apply Forall_forall. intros y Hy. rewrite Forall_forall in Hf. unfold leT. apply lexlt_lleb. apply Hf.
  apply in_map; auto.
Qed.

Lemma nsort_seq a n : nsort (seq a n) = seq a n.
Proof.
  apply nsort_id. pose proof (SSorted_seq a n) as H. induction H as [|x l Hs IH Hf]; constructor; auto.
  eapply Forall_impl; [|exact Hf]. intros; simpl in *; lia.
Qed.

Definition enum_ok {V} (es : ents V) : Prop := keys es = seq 0 (length es).

Lemma tp_entities_eq shape (topds : list (ents (list nat))) :
  Forall enum_ok topds ->
  tp_entities shape topds =
  map (fun xs => (map fst xs, map (ravel shape) (cart (map snd xs)))) (cart topds).
Proof.
  intros H. unfold tp_entities.
  replace (map (fun topd => nsort (keys topd)) topds) with (map (map fst) topds).
  2:{ apply map_ext_in. intros es He. rewrite Forall_forall in H. pose proof (H es He) as E.
      unfold enum_ok in E. rewrite E, nsort_seq. rewrite <- E. reflexivity. }
  rewrite cart_map, map_map. apply map_ext_in. intros xs Hxs. f_equal. f_equal. f_equal.
  apply in_cart in Hxs. clear -H Hxs. induction Hxs as [|l x ls xs Hx Hxs IH]; simpl; auto.
  inversion H as [|? ? H1 H2]; subst. rewrite IH by auto. f_equal.
  destruct x as [e v]; simpl. rewrite (proj2 (elookup_in l e v ltac:(rewrite H1; apply seq_NoDup)) Hx).
  reflexivity.
Qed.

Lemma tp_entry_eq shape (topds : list (ents (list nat))) :
  Forall enum_ok topds ->
  enumerate (map snd (isort (fun x y => lleb (fst x) (fst y)) (tp_entities shape topds)))
  = enumerate (map (fun vss => map (ravel shape) (cart vss)) (cart (map (map snd) topds))).
Proof.
  intros H. rewrite isort_id.
  - rewrite tp_entities_eq by auto. rewrite cart_map, !map_map. reflexivity.
  - apply SSorted_fst. unfold tp_entities. rewrite map_map. simpl. rewrite map_id.
    apply cart_lex. apply Forall_forall. intros l Hl. apply in_map_iff in Hl as (es & <- & He).
    rewrite Forall_forall in H. rewrite (H es He), nsort_seq. apply SSorted_seq.
Qed.

Lemma keys_enumerate_from {A} (l : list A) : forall k, keys (enumerate_from k l) = seq k (length l).
Proof. induction l as [|x l IH]; intros k; simpl; f_equal; auto. Qed.
Lemma length_enumerate_from {A} (l : list A) : forall k, length (enumerate_from k l) = length l.
Proof. induction l as [|x l IH]; intros k; simpl; f_equal; auto. Qed.
Lemma enum_ok_enumerate {A} (l : list A) : enum_ok (enumerate l).
Proof. unfold enum_ok, enumerate. rewrite keys_enumerate_from, length_enumerate_from; auto. Qed.
Lemma elookup_enumerate_from {A} (l : list A) : forall k e,
  elookup e (enumerate_from k l) = if Nat.leb k e then nth_error l (e - k) else None.
Proof.
  induction l as [|x l IH]; intros k e; cbn [enumerate_from elookup].
  - destruct (Nat.leb k e); auto. destruct (e - k); auto.
  - destruct (Nat.eqb_spec e k) as [->|Hne].
    + rewrite Nat.leb_refl, Nat.sub_diag. reflexivity.
    + rewrite IH. destruct (Nat.leb_spec k e), (Nat.leb_spec (S k) e); try lia; auto.
      replace (e - k) with (S (e - S k)) by lia. reflexivity.
Qed.
Lemma elookup_enumerate {A} (l : list A) e : elookup e (enumerate l) = nth_error l e.
Proof. unfold enumerate. rewrite elookup_enumerate_from. simpl. rewrite Nat.sub_0_r; auto. Qed.
Lemma enum_ok_lookup {V} (es : ents V) e : enum_ok es -> elookup e es = nth_error (map snd es) e.
Proof.
  intros H. destruct (elookup e es) as [v|] eqn:E.
  - apply elookup_in in E; [|rewrite H; apply seq_NoDup].
    apply In_nth_error in E as (k & Hk). 
    assert (k = e).
    { assert (Hk' : nth_error (keys es) k = Some e) by (unfold keys; rewrite nth_error_map, Hk; auto).
      rewrite H in Hk'. assert (k < length es) by (apply nth_error_Some; congruence).
      rewrite nth_error_nth' with (d := 0) in Hk' by (rewrite seq_length; auto).
      rewrite seq_nth in Hk' by auto. simpl in Hk'. congruence. }
    subst. rewrite nth_error_map, Hk; auto.
  - destruct (nth_error (map snd es) e) as [v|] eqn:E2; auto.
    rewrite nth_error_map in E2. destruct (nth_error es e) as [[e' v']|] eqn:E3; [|discriminate].
    assert (e' = e).
    { assert (Hk' : nth_error (keys es) e = Some e') by (unfold keys; rewrite nth_error_map, E3; auto).
      rewrite H in Hk'. assert (e < length es) by (apply nth_error_Some; congruence).
      rewrite nth_error_nth' with (d := 0) in Hk' by (rewrite seq_length; auto).
      rewrite seq_nth in Hk' by auto. simpl in Hk'. congruence. }
    subst. apply nth_error_In in E3. apply elookup_in in E3; [congruence|rewrite H; apply seq_NoDup].
Qed.

(** selecting the entities of the given dimension from every factor *)
Definition sel (ts : list topo) (dims : list dimT) : list (ents (list nat)) :=
  map (fun '(t, d) => option_list (dlookup d t)) (combine ts dims).

Lemma sel_in ts dims : Forall (fun t => NoDup (keys t)) ts ->
  Forall2 (fun t d => In d (keys t)) ts dims ->
  Forall2 (fun td es => In (snd td, es) (fst td)) (combine ts dims) (sel ts dims).
Proof.
  intros ND H. unfold sel. induction H as [|t d ts dims Hd H IH]; simpl; constructor.
  - simpl. inversion ND; subst. unfold keys in Hd. apply in_map_iff in Hd as ([d' es] & E & Hin). simpl in E; subst.
    rewrite (proj2 (dlookup_in t d es ltac:(auto))) by auto. exact Hin.
  - apply IH. inversion ND; auto.
Qed.

Lemma sel_enum_ok nvs ts dims : Forall2 good nvs ts ->
  Forall2 (fun t d => In d (keys t)) ts dims -> Forall enum_ok (sel ts dims).
Proof.
  intros Hg H. revert nvs Hg. induction H as [|t d ts dims Hd H IH]; intros nvs Hg; simpl; constructor.
  - inversion Hg as [|nv ? ? ? G1 G2]; subst. apply in_map_iff in Hd as ([d' es] & E & Hin). simpl in E; subst.
    destruct G1 as (ND & He & _). rewrite (proj2 (dlookup_in t d es ND) Hin). simpl. eapply He; eauto.
  - inversion Hg; subst. eapply IH; eauto.
Qed.

Lemma tp_keys shape ts D : In D (keys (tp_topology shape ts)) <->
  exists dims, D = DT dims /\ Forall2 (fun t d => In d (keys t)) ts dims.
Proof.
  unfold tp_topology, keys at 1. rewrite map_map. simpl. rewrite in_map_iff. split.
  - intros (dims & <- & H). exists dims. split; auto. apply in_cart in H.
    remember (map _ ts) as l eqn:El. revert ts El. induction H; intros ts El; destruct ts; try discriminate; constructor.
    + simpl in El. inversion El; subst; auto.
    + apply IHForall2. inversion El; auto.
  - intros (dims & -> & H). exists dims. split; auto. apply in_cart.
    induction H; simpl; constructor; auto.
Qed.

Lemma tp_NoDup_keys shape ts : Forall (fun t => NoDup (keys t)) ts -> NoDup (keys (tp_topology shape ts)).
Proof.
  intros H. unfold tp_topology, keys at 1. rewrite map_map. simpl.
  assert (G : NoDup (cart (map (fun t : topo => keys t) ts))).
  { induction H as [|t ts Ht H IH]; simpl; [repeat constructor; auto|].
    apply NoDup_flat_map; auto.
    - intros x _. clear -IH. induction IH; simpl; constructor; auto.
      intros Hin. apply in_map_iff in Hin as (y & E & Hy). inversion E; subst; auto.
    - intros x y z _ _ Hx Hy. apply in_map_iff in Hx as (a & <- & _), Hy as (b & E & _). inversion E; auto. }
  induction G; simpl; constructor; auto. intros Hin. apply in_map_iff in Hin as (y & E & Hy). inversion E; subst; auto.
Qed.

Lemma tp_dlookup shape nvs ts dims : Forall2 good nvs ts ->
  Forall2 (fun t d => In d (keys t)) ts dims ->
  dlookup (DT dims) (tp_topology shape ts) =
  Some (enumerate (map (fun vss => map (ravel shape) (cart vss)) (cart (map (map snd) (sel ts dims))))).
Proof.
  intros Hg H. apply dlookup_in.
  - apply tp_NoDup_keys. clear -Hg. induction Hg as [|nv t nvs ts (G & _)]; constructor; auto.
  - unfold tp_topology. apply in_map_iff. exists dims. split.
    + f_equal. change (map (fun '(t, d) => option_list (dlookup d t)) (combine ts dims)) with (sel ts dims).
      apply tp_entry_eq. eapply sel_enum_ok; eauto.
    + apply in_cart. clear -H. induction H; simpl; constructor; auto.
Qed.

Lemma Forall2_map_l {A B C} (f : A -> B) (P : B -> C -> Prop) l l' :
  Forall2 P (map f l) l' <-> Forall2 (fun a c => P (f a) c) l l'.
Proof.
  split.
  - revert l'; induction l as [|x l IH]; intros l' H; simpl in H; inversion H; subst; constructor; auto.
  - induction 1; simpl; constructor; auto.
Qed.
Lemma Forall2_map_r {A B C} (f : B -> C) (P : A -> C -> Prop) l l' :
  Forall2 P l (map f l') <-> Forall2 (fun a b => P a (f b)) l l'.
Proof.
  split.
  - revert l; induction l' as [|x l' IH]; intros l H; simpl in H; inversion H; subst; constructor; auto.
  - induction 1; simpl; constructor; auto.
Qed.

Lemma in_shape_of_cart nvs (vss : list (list nat)) vi :
  Forall2 (fun nv v => Forall (fun w => w < nv) v) nvs vss -> In vi (cart vss) -> in_shape nvs vi.
Proof.
  intros H1 H2. apply in_cart in H2. revert nvs H1.
  induction H2 as [|v w vss vi Hw H2 IH]; intros nvs H1; inversion H1 as [|nv ? nvs' ? A B]; subst; constructor.
  - rewrite Forall_forall in A; auto.
  - apply IH; auto.
Qed.

Lemma ravel_cart_in nvs vss w : Forall2 (fun nv v => Forall (fun w => w < nv) v) nvs vss ->
  In w (map (ravel nvs) (cart vss)) -> w < nprod nvs.
Proof.
  intros H Hw. apply in_map_iff in Hw as (vi & <- & Hvi). apply in_shape_ravel. eapply in_shape_of_cart; eauto.
Qed.

Lemma cart_incl_components {A} (l1 l2 : list (list A)) : length l1 = length l2 ->
  Forall (fun l => l <> []) l1 ->
  incl (cart l1) (cart l2) -> Forall2 (fun a b => incl a b) l1 l2.
Proof.
  revert l2; induction l1 as [|a l1 IH]; intros [|b l2] HL Hne Hi; simpl in HL; try discriminate; constructor.
  - intros x Hx. inversion Hne as [|? ? H1 H2]; subst.
    assert (exists r, In r (cart l1)) as (r & Hr).
    { clear -H2. induction H2 as [|l ls Hl H IH]; simpl; [exists []; simpl; auto|].
      destruct IH as (r & Hr). destruct l as [|y l]; [congruence|]. exists (y :: r). simpl.
      apply in_or_app; left. apply in_map; auto. }
    assert (Hin : In (x :: r) (cart (b :: l2))).
    { apply Hi. apply in_cart. apply in_cart in Hr. constructor; auto. }
    apply in_cart in Hin. inversion Hin; auto.
  - apply IH; auto; [inversion Hne; auto|]. intros r Hr.
    inversion Hne as [|? ? H1 H2]; subst. destruct a as [|x a]; [congruence|].
    assert (Hin : In (x :: r) (cart (b :: l2))).
    { apply Hi. apply in_cart. apply in_cart in Hr. constructor; simpl; auto. }
    apply in_cart in Hin. inversion Hin; subst. apply in_cart; auto.
Qed.

Lemma lcmp_le_components ds' ds :
  Forall2 (fun a b => dleb a b = true) ds' ds -> dleb (DT ds') (DT ds) = true.
Proof.
  unfold dleb. rewrite dcmp_DT. induction 1 as [|a b ds' ds Hab H IH]; simpl; auto.
  destruct (dcmp a b) eqn:E; auto; discriminate.
Qed.

Lemma enumerate_In {A} (l : list A) e v : In (e, v) (enumerate l) <-> nth_error l e = Some v.
Proof.
  rewrite <- elookup_in by (rewrite enum_ok_enumerate; apply seq_NoDup).
  rewrite elookup_enumerate. tauto.
Qed.

(** the vertex-tuples of a factor selection *)
Lemma sel_vss nvs ts dims vss : Forall2 good nvs ts ->
  Forall2 (fun t d => In d (keys t)) ts dims -> In vss (cart (map (map snd) (sel ts dims))) ->
  Forall2 (fun nv v => v <> [] /\ NoDup v /\ Forall (fun w => w < nv) v) nvs vss /\
  Forall2 (fun td v => exists es e, In (snd td, es) (fst td) /\ In (e, v) es) (combine ts dims) vss.
Proof.
  intros Hg H. revert nvs vss Hg. induction H as [|t d ts dims Hd H IH]; intros nvs vss Hg Hin.
  - inversion Hg; subst. simpl in Hin. destruct Hin as [<-|[]]. split; constructor.
  - inversion Hg as [|nv ? nvs' ? G1 G2]; subst. apply in_cart in Hin. simpl in Hin.
    inversion Hin as [|? v ? vss' Hv Hvss]; subst. 
    destruct (IH nvs' vss' G2) as [A B]; [apply in_cart; auto|].
    apply in_map_iff in Hd as ([d' es] & E & Hes). simpl in E; subst d'.
    destruct G1 as (ND & He & Hv' & _).
    rewrite (proj2 (dlookup_in t d es ND) Hes) in Hv. simpl in Hv.
    apply in_map_iff in Hv as ([e v'] & E & Hev). simpl in E; subst v'.
    split; simpl; constructor; auto; simpl; eauto.
Qed.

Lemma NoDup_map_in {A B} (f : A -> B) l : NoDup l ->
  (forall x y, In x l -> In y l -> f x = f y -> x = y) -> NoDup (map f l).
Proof.
  induction 1 as [|x l Hni ND IH]; simpl; intros H; constructor.
  - intros Hin. apply in_map_iff in Hin as (y & E & Hy). apply Hni.
    rewrite (H x y); auto; simpl; auto.
  - apply IH. intros; apply H; simpl; auto.
Qed.
Lemma cart_NoDup {A} (ls : list (list A)) : Forall (@NoDup A) ls -> NoDup (cart ls).
Proof.
  induction 1 as [|l ls Hl H IH]; simpl; [repeat constructor; auto|].
  apply NoDup_flat_map; auto.
  - intros x _. apply NoDup_map_in; auto. intros a b _ _ E; inversion E; auto.
  - intros x y z _ _ Hx Hy. apply in_map_iff in Hx as (a & <- & _), Hy as (b & E & _). inversion E; auto.
Qed.

Lemma good_tp nvs ts : Forall2 good nvs ts -> good (nprod nvs) (tp_topology nvs ts).
Proof.
  intros Hg.
  assert (ND : Forall (fun t => NoDup (keys t)) ts).
  { clear -Hg. induction Hg as [|nv t nvs ts (G & _)]; constructor; auto. }
  assert (NDk : NoDup (keys (tp_topology nvs ts))) by (apply tp_NoDup_keys; auto).
  assert (CH : forall D es, In (D, es) (tp_topology nvs ts) -> exists dims, D = DT dims /\
             Forall2 (fun t d => In d (keys t)) ts dims /\
             es = enumerate (map (fun vss => map (ravel nvs) (cart vss)) (cart (map (map snd) (sel ts dims))))).
  { intros D es Hin. assert (HD : In D (keys (tp_topology nvs ts))) by (apply in_map_iff; exists (D, es); auto).
    apply tp_keys in HD as (dims & -> & Hd). exists dims. split; auto. split; auto.
    apply (dlookup_in _ _ _ NDk) in Hin. rewrite (tp_dlookup nvs nvs ts dims Hg Hd) in Hin. congruence. }
  split; [|split; [|split]]; auto.
  - intros D es Hin. apply CH in Hin as (dims & -> & Hd & ->). apply enum_ok_enumerate.
  - intros D es e v Hin Hev. apply CH in Hin as (dims & -> & Hd & ->). apply enumerate_In in Hev.
    apply nth_error_In in Hev. apply in_map_iff in Hev as (vss & <- & Hvss).
    destruct (sel_vss nvs ts dims vss Hg Hd Hvss) as [A _]. split; [|split].
    + intros E. apply map_eq_nil in E. clear -A E.
      induction A as [|nv v nvs vss (Hv & _) A IH]; simpl in *; [discriminate|].
      destruct v as [|w v]; [congruence|]. simpl in E. apply app_eq_nil in E as [E _].
      apply map_eq_nil in E. auto.
    + apply NoDup_map_in.
      * apply cart_NoDup. clear -A. induction A as [|nv v nvs vss (_ & Hv & _) A IH]; constructor; auto.
      * assert (A' : Forall2 (fun nv v => Forall (fun w => w < nv) v) nvs vss).
        { clear -A. induction A as [|nv v nvs vss (_ & _ & Hv) A IH]; constructor; auto. }
        intros x y Hx Hy E. eapply ravel_inj; eauto using in_shape_of_cart.
    + apply Forall_forall. intros w Hw. eapply ravel_cart_in; [|exact Hw].
      clear -A. induction A as [|nv v nvs vss (_ & _ & Hv) A IH]; constructor; auto.
  - intros D es e v D' es' e' v' Hin Hev Hin' Hev' Hincl.
    apply CH in Hin as (dims & -> & Hd & ->). apply CH in Hin' as (dims' & -> & Hd' & ->).
    apply enumerate_In, nth_error_In, in_map_iff in Hev as (vss & <- & Hvss).
    apply enumerate_In, nth_error_In, in_map_iff in Hev' as (vss' & <- & Hvss').
    destruct (sel_vss nvs ts dims vss Hg Hd Hvss) as [A B].
    destruct (sel_vss nvs ts dims' vss' Hg Hd' Hvss') as [A' B'].
    assert (LV : Forall2 (fun nv v => Forall (fun w => w < nv) v) nvs vss).
    { clear -A. induction A as [|nv v nvs vss (_ & _ & Hv) A IH]; constructor; auto. }
    assert (LV' : Forall2 (fun nv v => Forall (fun w => w < nv) v) nvs vss').
    { clear -A'. induction A' as [|nv v nvs vss (_ & _ & Hv) A IH]; constructor; auto. }
    assert (Hc : incl (cart vss') (cart vss)).
    { intros x Hx. assert (Hr : In (ravel nvs x) (map (ravel nvs) (cart vss))) by (apply Hincl, in_map; auto).
      apply in_map_iff in Hr as (y & E & Hy).
      rewrite (ravel_inj nvs x y); eauto using in_shape_of_cart. }
    apply cart_incl_components in Hc.
    + apply lcmp_le_components.
      clear -Hg Hd Hd' B B' Hc. revert dims dims' vss vss' Hd Hd' B B' Hc.
      induction Hg as [|nv t nvs ts G1 G2 IH]; intros dims dims' vss vss' Hd Hd' B B' Hc;
        inversion Hd; subst; inversion Hd'; subst; constructor.
      * simpl in B, B'. inversion B as [|? ? ? ? HB1 HB2]; subst. inversion B' as [|? ? ? ? HB1' HB2']; subst.
        inversion Hc; subst. simpl in *.
        destruct G1 as (_ & _ & _ & G1).
        destruct HB1 as (es & e & A1 & A2), HB1' as (es' & e' & A1' & A2').
        eapply G1; [exact A1|exact A2|exact A1'|exact A2'|auto].
      * simpl in B, B'. inversion B; subst. inversion B'; subst. inversion Hc; subst. eapply IH; eauto.
    + clear -A A'. revert vss' A'. induction A; intros vss' A'; inversion A'; subst; simpl; auto.
    + clear -A'. induction A' as [|nv v nvs vss (Hv & _) A IH]; constructor; auto.
Qed.

Fixpoint cell_ind' (P : cell -> Prop)
  (HB : forall c, (forall cs, c <> TensorProductCell cs) -> P c)
  (HT : forall cs, Forall P cs -> P (TensorProductCell cs)) (c : cell) : P c.
Proof.
  destruct c; try (apply HB; intros; discriminate).
  apply HT. induction cells as [|c cs IH]; constructor; [apply cell_ind'; assumption|exact IH].
Defined.

Theorem good_cell c : good (num_vertices c) (topology c).
Proof.
  induction c as [c Hc|cs IH] using cell_ind'.
  - destruct c; try (apply goodb_good; vm_compute; reflexivity).
    exfalso; eapply Hc; reflexivity.
  - cbn [num_vertices topology]. apply good_tp. induction IH; simpl; constructor; auto.
Qed.

Lemma vertices_length K c : length (vertices K c) = num_vertices c.
Proof.
  induction c as [c Hc|cs IH] using cell_ind'.
  - destruct c; try reflexivity. exfalso; eapply Hc; reflexivity.
  - cbn [num_vertices vertices]. unfold tp_vertices. rewrite map_length, cart_length, map_map.
    f_equal. apply map_ext_in. intros c Hc. rewrite Forall_forall in IH; auto.
Qed.
