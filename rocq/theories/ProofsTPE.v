(** Tensor product elements: numbering and tabulation. *)
From Coq Require Import Permutation.
From Verif Require Import Base ModelIndex ModelCell ModelArray ModelConcat ModelTPE SpecIndex SpecCell SpecCart SpecConcat
  ProofsIndex ProofsCell ProofsCart ProofsTopo ProofsArray ProofsConcat ProofsIds ProofsTP.

(** ** numbering *)
Definition pair_dofs (n : nat) (lA lB : list nat) : list nat :=
  flat_map (fun x => map (fun y => x * n + y) lB) lA.
Definition tpe_ents (n : nat) (esA esB : ents (list nat)) : list (list nat) :=
  flat_map (fun '(_, lA) => map (fun '(_, lB) => pair_dofs n lA lB) esB) esA.

Lemma tpe_ids_dlookup n A B dA dB esA esB : NoDup (keys A) -> NoDup (keys B) ->
  dlookup dA A = Some esA -> dlookup dB B = Some esB ->
  dlookup (DT [dA; dB]) (tpe_entity_ids n A B) = Some (enumerate (tpe_ents n esA esB)).
Proof.
  intros NA NB HA HB. unfold tpe_entity_ids.
  assert (G : forall B', NoDup (keys B') ->
     dlookup (DT [dA; dB]) (map (fun '(curBdim, esB) => (DT [dA; curBdim], enumerate (tpe_ents n esA esB))) B') =
     match dlookup dB B' with Some esB => Some (enumerate (tpe_ents n esA esB)) | None => None end).
  { induction B' as [|[d es] B' IH]; intros ND; simpl; auto. inversion ND; subst.
    assert (E : deqb (DT [dA; dB]) (DT [dA; d]) = deqb dB d).
    { destruct (deqb dB d) eqn:E; [apply deqb_eq in E; subst; apply deqb_refl|].
      apply deqb_neq. intros H; inversion H; subst. rewrite deqb_refl in E; discriminate. }
    rewrite E. destruct (deqb dB d); auto. }
  induction A as [|[d es] A IH]; simpl in *; [discriminate|]. inversion NA as [|? ? Hni NA']; subst.
  destruct (deqb dA d) eqn:E.
  - apply deqb_eq in E; subst d. inversion HA; subst es.
    assert (D : forall (l m : list (dimT * ents (list nat))) x v, dlookup x l = Some v -> dlookup x (l ++ m) = Some v).
    { clear. induction l as [|[d e] l IH]; intros m x v; simpl; [discriminate|]. destruct (deqb x d); auto. }
    apply D. specialize (G B NB). rewrite HB in G. exact G.
  - assert (D : forall (l m : list (dimT * ents (list nat))) x, (forall y, In y (keys l) -> x <> y) -> dlookup x (l ++ m) = dlookup x m).
    { clear. induction l as [|[d e] l IH]; intros m x H; simpl; auto.
      rewrite deqb_neq by (apply H; simpl; auto). apply IH. intros; apply H; simpl; auto. }
    rewrite D; [apply IH; auto|]. intros y Hy Ey. subst y. apply in_map_iff in Hy as ([d' e'] & E1 & Hy).
    apply in_map_iff in Hy as ([d2 e2] & E2 & Hy). cbn [fst] in E1. subst d'. inversion E2; subst.
    rewrite deqb_refl in E; discriminate.
Qed.

Lemma tpe_ids_keys n A B : keys (tpe_entity_ids n A B) =
  flat_map (fun a => map (fun b => DT [a; b]) (keys B)) (keys A).
Proof.
  unfold tpe_entity_ids, keys. rewrite map_flat_map, flat_map_map. apply flat_map_ext_in.
  intros [d es] _. rewrite !map_map. apply map_ext. intros [d' es']; auto.
Qed.

Lemma tpe_ids_proper n A B : NoDup (keys A) -> NoDup (keys B) -> proper_dict (tpe_entity_ids n A B).
Proof.
  intros NA NB. split.
  - rewrite tpe_ids_keys. apply NoDup_flat_map; auto.
    + intros a _. apply NoDup_map_in; auto. intros x y _ _ H; inversion H; auto.
    + intros a a' z _ _ H H'. apply in_map_iff in H as (b & <- & _), H' as (b' & E & _). inversion E; auto.
  - intros d es H. unfold tpe_entity_ids in H. apply in_flat_map in H as ([dA esA] & _ & H).
    apply in_map_iff in H as ([dB esB] & E & _). inversion E; subst. rewrite enum_ok_enumerate. apply seq_NoDup.
Qed.

Lemma tpe_ents_length n esA esB : length (tpe_ents n esA esB) = length esA * length esB.
Proof.
  unfold tpe_ents. apply flat_map_const_length. intros [e l] _. apply map_length.
Qed.
Lemma tpe_ents_nth n esA esB i j eA lA eB lB : nth_error esA i = Some (eA, lA) -> nth_error esB j = Some (eB, lB) ->
  nth_error (tpe_ents n esA esB) (row_major [length esA; length esB] [i; j]) = Some (pair_dofs n lA lB).
Proof.
  intros Hi Hj. unfold row_major. cbn [combine fold_left]. simpl.
  assert (j < length esB) by (apply nth_error_Some; congruence).
  unfold tpe_ents. rewrite (nth_flat_map _ (length esB) esA i j (eA, lA)); auto.
  - rewrite nth_error_map, Hj. reflexivity.
  - intros [e l] _. apply map_length.
Qed.

Lemma flat_map_swap {A B C} (g : A -> B -> list C) la lb :
  Permutation (flat_map (fun b => flat_map (fun a => g a b) la) lb) (flat_map (fun a => flat_map (g a) lb) la).
Proof.
  induction lb as [|b lb IH]; simpl.
  - clear. induction la as [|a la IH]; simpl; auto.
  - eapply perm_trans; [apply Permutation_app_head; exact IH|]. symmetry. apply flat_map_app_perm.
Qed.
Lemma flat_map_perm_ext {A B} (f g : A -> list B) l : (forall x, In x l -> Permutation (f x) (g x)) ->
  Permutation (flat_map f l) (flat_map g l).
Proof.
  induction l as [|a l IH]; simpl; intros H; auto. apply Permutation_app; auto.
Qed.
Lemma flat_map_flat_map {A B C} (f : B -> list C) (g : A -> list B) l :
  flat_map f (flat_map g l) = flat_map (fun x => flat_map f (g x)) l.
Proof. induction l as [|a l IH]; simpl; auto. rewrite flat_map_app, IH. auto. Qed.

Lemma all_dofs_snd (t : dict (list nat)) : all_dofs t = flat_map (fun de => flat_map snd (snd de)) t.
Proof. unfold all_dofs. apply flat_map_ext_in. intros [d es] _. reflexivity. Qed.

Lemma flat_map_id' {A} (l : list (list A)) : flat_map (fun x => x) l = concat l.
Proof. apply flat_map_concat_map || (rewrite flat_map_concat_map, map_id; reflexivity). Qed.

Lemma tpe_all_dofs_eq n (A B : dict (list nat)) : all_dofs (tpe_entity_ids n A B) =
  flat_map (fun a => flat_map (fun b => flat_map (fun ea => flat_map (fun eb =>
    flat_map (fun x => map (fun y => x * n + y) (snd eb)) (snd ea)) (snd b)) (snd a)) B) A.
Proof.
  rewrite all_dofs_snd. unfold tpe_entity_ids. rewrite flat_map_flat_map. apply flat_map_ext_in. intros [dA esA] _.
  rewrite flat_map_map. apply flat_map_ext_in. intros [dB esB] _. cbn [snd].
  assert (E : forall l : list (list nat), flat_map snd (enumerate l) = concat l).
  { unfold enumerate. generalize 0. intros k l. revert k. induction l as [|x l IH]; intros k; simpl; auto. rewrite IH; auto. }
  rewrite E, <- (flat_map_id' (flat_map _ _)), flat_map_flat_map. apply flat_map_ext_in. intros [eA lA] _. cbn [snd].
  rewrite flat_map_map. apply flat_map_ext_in. intros [eB lB] _. reflexivity.
Qed.

Lemma tpe_all_dofs n A B :
  Permutation (all_dofs (tpe_entity_ids n A B)) (pair_dofs n (all_dofs A) (all_dofs B)).
Proof.
  rewrite tpe_all_dofs_eq, !all_dofs_snd. unfold pair_dofs. rewrite flat_map_flat_map.
  apply flat_map_perm_ext. intros a _. rewrite flat_map_flat_map.
  eapply perm_trans.
  - apply flat_map_perm_ext. intros b _. apply flat_map_perm_ext. intros ea _. apply flat_map_swap.
  - eapply perm_trans; [apply (flat_map_swap (fun ea b => flat_map (fun x => flat_map (fun eb : nat * list nat => map (fun y => x * n + y) (snd eb)) (snd b)) (snd ea)))|].
    apply flat_map_perm_ext. intros ea _.
    eapply perm_trans; [apply (flat_map_swap (fun x (b : dimT * ents (list nat)) => flat_map (fun eb : nat * list nat => map (fun y => x * n + y) (snd eb)) (snd b)))|].
    apply flat_map_perm_ext. intros x _. rewrite map_flat_map. apply flat_map_perm_ext. intros b _.
    rewrite map_flat_map. apply Permutation_refl.
Qed.

Lemma pair_dofs_seq n m : pair_dofs n (seq 0 m) (seq 0 n) = seq 0 (m * n).
Proof.
  unfold pair_dofs. induction m as [|m IH]; auto. rewrite seq_S, flat_map_app, IH. simpl. rewrite app_nil_r.
  replace (n + m * n) with (m * n + n) by lia. rewrite seq_app. f_equal. simpl.
  generalize (m * n). clear. induction n as [|n IH]; intros k; auto. rewrite !seq_S, map_app, IH. reflexivity.
Qed.
Lemma pair_dofs_perm n lA lA' lB lB' : Permutation lA lA' -> Permutation lB lB' ->
  Permutation (pair_dofs n lA lB) (pair_dofs n lA' lB').
Proof.
  intros H1 H2. unfold pair_dofs. eapply perm_trans; [apply Permutation_flat_map_l; exact H1|].
  apply flat_map_perm_ext. intros x _. apply Permutation_map; auto.
Qed.
Lemma tpe_partitions A B nA nB : partitions A nA -> partitions B nB -> partitions (tpe_entity_ids nB A B) (nA * nB).
Proof.
  intros HA HB. unfold partitions in *. rewrite <- pair_dofs_seq.
  eapply perm_trans; [apply tpe_all_dofs|]. apply pair_dofs_perm; auto.
Qed.

(** ** dual nodes *)
Lemma tpe_row_ok {K} (zero : K) sd a : forall Bs l, tpe_row zero sd a Bs = Ok l ->
  length l = length Bs /\ forall j b, nth_error Bs j = Some b -> exists n, nth_error l j = Some n /\ tpe_node zero sd a b = Ok n.
Proof.
  induction Bs as [|b Bs IH]; intros l H; simpl in H.
  - inversion H; subst. split; auto. intros [|j] b; discriminate.
  - destruct (tpe_node zero sd a b) as [n|] eqn:E; [|discriminate].
    destruct (tpe_row zero sd a Bs) as [l'|]; [|discriminate]. inversion H; subst.
    destruct (IH l' eq_refl) as [L N]. split; [simpl; auto|]. intros [|j] b' Hj; simpl in *; [inversion Hj; subst; eauto|].
    apply N; auto.
Qed.
Lemma tpe_nodes_ok {K} (zero : K) sd Bs : forall As l, tpe_nodes zero sd As Bs = Ok l ->
  length l = length As * length Bs /\
  forall i j a b, nth_error As i = Some a -> nth_error Bs j = Some b ->
    exists n, nth_error l (i * length Bs + j) = Some n /\ tpe_node zero sd a b = Ok n.
Proof.
  induction As as [|a As IH]; intros l H; simpl in H.
  - inversion H; subst. split; auto. intros [|i]; discriminate.
  - destruct (tpe_row zero sd a Bs) as [r|] eqn:Er; [|discriminate].
    destruct (tpe_nodes zero sd As Bs) as [l'|]; [|discriminate]. inversion H; subst.
    destruct (tpe_row_ok zero sd a Bs r Er) as [Lr Nr]. destruct (IH l' eq_refl) as [L N].
    split; [rewrite app_length; simpl; lia|]. intros i j a' b Hi Hj.
    assert (Hlt : j < length Bs) by (apply nth_error_Some; congruence).
    destruct i as [|i]; simpl in Hi.
    + inversion Hi; subst. simpl. rewrite nth_error_app1 by lia. apply Nr; auto.
    + rewrite nth_error_app2 by (simpl; lia).
      replace (S i * length Bs + j - length r) with (i * length Bs + j) by (simpl; lia). apply N; auto.
Qed.
Lemma tpe_nodes_refuses {K} (zero : K) sd As Bs :
  (forall l, tpe_nodes zero sd As Bs <> Ok l) -> tpe_nodes zero sd As Bs = Err NotImplementedError /\
  exists a b, In a As /\ In b Bs /\ tpe_node zero sd a b = Err NotImplementedError.
Proof.
  assert (N : forall a b e, tpe_node zero sd a b = Err e -> e = NotImplementedError).
  { intros a b e. unfold tpe_node. destruct a; try discriminate; destruct b; try congruence; try (destruct (Nat.ltb _ _); congruence). }
  assert (R : forall a Bs, (exists l, tpe_row zero sd a Bs = Ok l) \/
    (tpe_row zero sd a Bs = Err NotImplementedError /\ exists b, In b Bs /\ tpe_node zero sd a b = Err NotImplementedError)).
  { intros a Bs'. induction Bs' as [|b Bs' IH]; simpl; [left; eauto|].
    destruct (tpe_node zero sd a b) as [n|e] eqn:E.
    - destruct IH as [[l ->]|[-> (b' & H1 & H2)]]; [left; eauto|right; split; auto; exists b'; auto].
    - right. pose proof (N _ _ _ E). subst e. split; auto. exists b; split; simpl; auto. }
  intros H. induction As as [|a As IH]; simpl in *; [exfalso; eapply H; eauto|].
  destruct (R a Bs) as [[r Er]|[Er (b & H1 & H2)]]; rewrite Er in *; [|split; auto; exists a, b; auto].
  destruct (tpe_nodes zero sd As Bs) as [l|e] eqn:E; [exfalso; eapply H; eauto|].
  destruct IH as [E' (a' & b & H1 & H2 & H3)]; [congruence|]. rewrite E'. split; auto. exists a', b; auto.
Qed.

(** ** tabulation *)
Lemma unravel_eq s idx k : in_shape s idx -> ravel s idx = k -> unravel s k = idx.
Proof. intros H <-. apply unravel_ravel; auto. Qed.
Ltac inshape := repeat (constructor; try lia); auto.

Section Tab.
  Context {K : Type} (mul : K -> K -> K).

  Lemma tpe_entry_scalar dA dB npts (a b : array K) : 
    ashape a = [dA; npts] -> ashape b = [dB; npts] ->
    exists r, tpe_entry mul 0 0 npts a b = Ok r /\ ashape r = [dA * dB; npts] /\
      forall i j p, i < dA -> j < dB -> p < npts -> aget r [i * dB + j; p] = mul (aget a [i; p]) (aget b [j; p]).
  Proof.
    destruct a as [sa ga], b as [sb gb]. cbn [ashape]. intros -> ->.
    cbn [tpe_entry]. eexists. split; [reflexivity|]. split.
    - cbn. rewrite !Nat.mul_1_r. reflexivity.
    - intros i j p Hi Hj Hp. cbn [transpose stack flat outer last_slice ashape aget removelast place nth length
        hd tl seq map combine find Nat.eqb].
      rewrite (unravel_eq _ [i; j]); [|inshape; cbn; lia|cbn; lia].
      cbn [aget]. rewrite (unravel_eq _ [i]), (unravel_eq _ [j]); [reflexivity|inshape|cbn; lia|inshape|cbn; lia].
  Qed.

  Lemma tpe_entry_vectorA dA dB npts (a b : array K) : 0 < npts ->
    ashape a = [dA; 2; npts] -> ashape b = [dB; npts] -> 
    exists r, tpe_entry mul 1 0 npts a b = Ok r /\ ashape r = [dA * dB; 2; npts] /\
      forall i j c p, i < dA -> j < dB -> c < 2 -> p < npts ->
        aget r [i * dB + j; c; p] = mul (aget a [i; c; p]) (aget b [j; p]).
  Proof.
    destruct a as [sa ga], b as [sb gb]. cbn [ashape]. intros Hn -> ->.
    cbn [tpe_entry ashape stack outer last_slice removelast].
    assert (E1 : nprod [dA; 2] = dA * 2) by (cbn; lia).
    assert (E2 : nprod [dB] = dB) by (cbn; lia).
    rewrite E1, E2. rewrite Nat.mod_mul by lia. cbn [Nat.eqb]. rewrite Nat.div_mul by lia.
    unfold reshape at 1. cbn [ashape stack outer last_slice removelast aget]. rewrite ?E1, ?E2.
    assert (E3 : nprod [npts; dA * 2; dB] = nprod [npts; dA; 2; dB]) by (cbn; ring).
    rewrite E3, Nat.eqb_refl. unfold reshape_last. cbn [transpose ashape map nth].
    assert (E4 : nprod [npts; 2; dA; dB] = (dA * dB) * nprod [npts; 2]) by (cbn; ring).
    assert (E5 : Nat.eqb (nprod [npts; 2]) 0 = false) by (apply Nat.eqb_neq; cbn; lia).
    assert (E6 : nprod [npts; 2] <> 0) by (cbn; lia).
    rewrite E4, E5, Nat.mod_mul, Nat.div_mul by auto. cbn [Nat.eqb app].
    unfold reshape. cbn [transpose map nth ashape].
    assert (E7 : nprod [npts; 2; dA; dB] = nprod [npts; 2; dA * dB]) by (cbn; ring).
    rewrite E7, Nat.eqb_refl. eexists. split; [reflexivity|]. split; [reflexivity|].
    intros i j c p Hi Hj Hc Hp. cbn [transpose nth aget place length seq map combine find Nat.eqb ashape].
    rewrite (unravel_eq [npts; 2; dA; dB] [p; c; i; j]); [|inshape|cbn; ring]. cbn [place length seq map combine find Nat.eqb].
    rewrite (unravel_eq [npts; dA * 2; dB] [p; i * 2 + c; j]); [|inshape|cbn; ring]. cbn [hd tl aget].
    rewrite (unravel_eq [dA; 2] [i; c]), (unravel_eq [dB] [j]); [reflexivity|inshape|cbn; ring|inshape|cbn; ring].
  Qed.

  Lemma tpe_entry_vectorB dA dB npts (a b : array K) : 0 < npts ->
    ashape a = [dA; npts] -> ashape b = [dB; 2; npts] -> 
    exists r, tpe_entry mul 0 1 npts a b = Ok r /\ ashape r = [dA * dB; 2; npts] /\
      forall i j c p, i < dA -> j < dB -> c < 2 -> p < npts ->
        aget r [i * dB + j; c; p] = mul (aget a [i; p]) (aget b [j; c; p]).
  Proof.
    destruct a as [sa ga], b as [sb gb]. cbn [ashape]. intros Hn -> ->.
    cbn [tpe_entry ashape stack outer last_slice removelast].
    assert (E1 : nprod [dB; 2] = dB * 2) by (cbn; lia).
    assert (E2 : nprod [dA] = dA) by (cbn; lia).
    rewrite E1, E2. rewrite Nat.mod_mul by lia. cbn [Nat.eqb]. rewrite Nat.div_mul by lia.
    unfold reshape at 1. cbn [ashape stack outer last_slice removelast aget]. rewrite ?E1, ?E2.
    assert (E3 : nprod [npts; dA; dB * 2] = nprod [npts; dA; dB; 2]) by (cbn; ring).
    rewrite E3, Nat.eqb_refl. cbn [ashape].
    assert (E4 : nprod [npts; dA; dB; 2] = (dA * dB) * (npts * 2)) by (cbn; ring).
    rewrite E4, Nat.div_mul by lia. unfold reshape. cbn [ashape].
    assert (E7 : nprod [npts; dA; dB; 2] = nprod [npts; dA * dB; 2]) by (cbn; ring).
    rewrite E7, Nat.eqb_refl. eexists. split; [reflexivity|]. split; [reflexivity|].
    intros i j c p Hi Hj Hc Hp. cbn [transpose aget place length seq map combine find Nat.eqb ashape nth].
    rewrite (unravel_eq [npts; dA; dB; 2] [p; i; j; c]); [|inshape|cbn; ring].
    rewrite (unravel_eq [npts; dA; dB * 2] [p; i; j * 2 + c]); [|inshape|cbn; ring]. cbn [hd tl aget].
    rewrite (unravel_eq [dB; 2] [j; c]), (unravel_eq [dA] [i]); [reflexivity|inshape|cbn; ring|inshape|cbn; ring].
  Qed.
End Tab.

Section Keys.
  Context {K : Type} (mul : K -> K -> K).
  Lemma tpe_keys_spec sdA sdB vA vB npts Atab Btab (P : list nat -> array K -> Prop) :
    forall alphas acc,
    (forall al, In al alphas -> exists a b r, get_key (firstn sdA al) Atab = Ok a /\
        get_key (firstn sdB (skipn sdA al)) Btab = Ok b /\ tpe_entry mul vA vB npts a b = Ok r /\ P al r) ->
    exists r, tpe_keys mul sdA sdB vA vB npts Atab Btab alphas acc = Ok r /\
      forall al, (In al alphas -> exists t, tlookup al r = Some t /\ P al t) /\
                 (~ In al alphas -> tlookup al r = tlookup al acc).
  Proof.
    induction alphas as [|al alphas IH]; intros acc H; simpl.
    - exists acc. split; auto. intros; split; [tauto|auto].
    - destruct (H al) as (a & b & r & -> & -> & -> & Hr); [simpl; auto|].
      destruct (IH (tset al r acc)) as (r' & -> & IH'); [intros; apply H; simpl; auto|].
      exists r'. split; auto. intros al'. destruct (IH' al') as [I1 I2]. split.
      + intros [<-|Hin]; [|auto]. destruct (in_dec (list_eq_dec Nat.eq_dec) al alphas) as [Hin|Hin]; [auto|].
        rewrite (I2 Hin), tlookup_tset, keq_refl. eauto.
      + intros Hni. rewrite I2 by tauto. rewrite tlookup_tset. destruct (keq al' al) eqn:E; auto.
        apply keq_eq in E. subst. tauto.
  Qed.

  Lemma alphas_in m order al : 1 <= m ->
    (In al (flat_map (fun i => mis m i) (seq 0 (S order))) <-> length al = m /\ nsum al <= order).
  Proof.
    intros Hm. rewrite in_flat_map. split.
    - intros (i & Hi & H). apply in_seq in Hi. apply mis_in in H; auto. destruct H. split; auto. lia.
    - intros [H1 H2]. exists (nsum al). split; [apply in_seq; lia|]. apply mis_in; auto. split; auto.
  Qed.

  Lemma split_alpha sdA sdB (al be : list nat) : length al = sdA -> length be = sdB ->
    firstn sdA (al ++ be) = al /\ firstn sdB (skipn sdA (al ++ be)) = be.
  Proof.
    intros <- <-. rewrite firstn_app, Nat.sub_diag, firstn_all, skipn_app, Nat.sub_diag, skipn_all. simpl.
    rewrite firstn_all, app_nil_r. auto.
  Qed.
End Keys.
