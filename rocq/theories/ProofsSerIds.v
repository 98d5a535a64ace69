(** Entity dofs of the serendipity element. *)
From Coq Require Import Permutation.
From Verif Require Import Base Sorting ModelCell SpecCell SpecConcat ProofsCell ProofsTopo ProofsFlatten PropsCell ModelSerIds.

Lemma zrange_nat c n : zrange (Z.of_nat c) (Z.of_nat c + Z.of_nat n) = seq c n.
Proof.
  unfold zrange, range. replace (Z.to_nat _) with n by lia. rewrite Nat.sub_0_r.
  revert c; induction n as [|n IH]; intros c; [reflexivity|]. cbn [seq map]. f_equal; [lia|].
  rewrite <- (IH (S c)), <- seq_shift, map_map. apply map_ext. intros k. lia.
Qed.
Lemma number_z_nat n es : forall cur, number_z (Z.of_nat n) es (Z.of_nat cur) =
  (map (fun '(i, e) => (e, seq (cur + i * n) n)) (combine (seq 0 (length es)) es), Z.of_nat (cur + length es * n)).
Proof.
  induction es as [|e es IH]; intros cur.
  - cbn. f_equal. lia.
  - cbn [number_z]. rewrite <- Nat2Z.inj_add, IH. cbn [length seq combine map]. f_equal.
    + f_equal; [|].
      * rewrite Nat2Z.inj_add, zrange_nat. f_equal. f_equal. lia.
      * rewrite <- seq_shift. generalize (seq 0 (length es)) as l. clear.
        intros l. revert l. induction es as [|x es IH]; intros [|i l]; cbn; try reflexivity. f_equal; [|apply IH].
        f_equal. f_equal. lia.
    + f_equal. lia.
Qed.

(** first number and size of the block of entity (d, e) *)
Definition size_of (degree nI d : nat) : nat :=
  match d with 0 => 1 | 1 => degree - 1 | 2 => tr degree | _ => nI end.
Definition first_of (dim degree nI d : nat) : nat :=
  let n1 := degree - 1 in let n2 := tr degree in
  match dim, d with
  | 2, 0 => 0 | 2, 1 => 4 | 2, _ => 4 + 4 * n1
  | _, 0 => 0 | _, 1 => 8 | _, 2 => 8 + 12 * n1 | _, _ => 8 + 12 * n1 + 6 * n2
  end.
Definition total (dim degree nI : nat) : nat :=
  match dim with
  | 2 => 4 + 4 * (degree - 1) + tr degree
  | _ => 8 + 12 * (degree - 1) + 6 * tr degree + nI
  end.
Definition block (dim degree nI : nat) (x : nat * nat) : list nat :=
  seq (first_of dim degree nI (fst x) + snd x * size_of degree nI (fst x)) (size_of degree nI (fst x)).
Definition cube (c : cell) : Prop := c = UFCQuadrilateral \/ c = UFCHexahedron.

Lemma seq_block a a' n m R : a = a' -> R = seq (a' + n) m -> seq a n ++ R = seq a' (n + m).
Proof. intros -> ->. now rewrite seq_app. Qed.
Lemma deqb_DI a b : deqb (DI a) (DI b) = Nat.eqb a b.
Proof. destruct (Nat.eqb_spec a b) as [->|H]; [now apply deqb_eq|]. destruct (deqb (DI a) (DI b)) eqn:E; [|reflexivity]. apply deqb_eq in E. congruence. Qed.

Lemma flat_ids_ok flat degree nI : cube flat -> 1 <= degree ->
  let r := flat_ids flat degree nI in let dim := spatial_dimension flat in
  snd r = Z.of_nat (total dim degree nI) /\
  (forall x, In x (flat_entities flat) -> lookup (fst r) (DI (fst x)) (snd x) = Some (block dim degree nI x)) /\
  flat_map (block dim degree nI) (flat_entities flat) = seq 0 (total dim degree nI).
Proof.
  intros Hc Hd. unfold flat_ids.
  replace (Z.of_nat degree - 1)%Z with (Z.of_nat (degree - 1)) by lia.
  set (n1 := degree - 1). set (n2 := tr degree).
  assert (E1 : forall es, number_z 1 es 0 = number_z (Z.of_nat 1) es (Z.of_nat 0)) by reflexivity.
  rewrite E1.
  assert (Q0 : count UFCQuadrilateral 0 = [0;1;2;3]) by reflexivity.
  assert (Q1 : count UFCQuadrilateral 1 = [0;1;2;3]) by reflexivity.
  assert (Q2 : count UFCQuadrilateral 2 = [0]) by reflexivity.
  assert (H0 : count UFCHexahedron 0 = [0;1;2;3;4;5;6;7]) by reflexivity.
  assert (H1 : count UFCHexahedron 1 = [0;1;2;3;4;5;6;7;8;9;10;11]) by reflexivity.
  assert (H2 : count UFCHexahedron 2 = [0;1;2;3;4;5]) by reflexivity.
  assert (H3 : count UFCHexahedron 3 = [0]) by reflexivity.
  assert (Tq : total 2 degree nI = 4 + 4 * n1 + n2) by reflexivity.
  assert (Th : total 3 degree nI = 8 + 12 * n1 + 6 * n2 + nI) by reflexivity.
  destruct Hc as [-> | ->].
  - rewrite Q0, Q1, Q2, !number_z_nat. change (spatial_dimension UFCQuadrilateral) with 2. cbn [Nat.eqb fst snd]. split; [|split].
    + rewrite Tq. cbn [length]. lia.
    + unfold flat_entities. cbn [spatial_dimension range seq flat_map Nat.sub]. rewrite Q0, Q1, Q2. cbn [map app].
      intros x Hx. repeat (destruct Hx as [<-|Hx]; [unfold lookup; cbn [length seq combine map dlookup fst snd]; rewrite !deqb_DI; cbn [Nat.eqb elookup]; apply f_equal; unfold block; cbn [fst snd first_of size_of seq]; fold n1 n2; first [f_equal; lia | repeat f_equal; lia]|]). destruct Hx.
    + unfold flat_entities. cbn [spatial_dimension range seq flat_map Nat.sub]. rewrite Q0, Q1, Q2. cbn [map app flat_map].
      unfold block; cbn [fst snd first_of size_of]. fold n1 n2. rewrite Tq, app_nil_r, <- ?app_assoc.
      replace (4 + 4 * n1 + n2) with (1 + (1 + (1 + (1 + (n1 + (n1 + (n1 + (n1 + n2)))))))) by lia.
      repeat (apply seq_block; [lia|]). f_equal; lia.
  - rewrite H0, H1, H2, !number_z_nat. change (spatial_dimension UFCHexahedron) with 3. cbn [Nat.eqb fst snd]. split; [|split].
    + rewrite Th. cbn [length]. lia.
    + rewrite zrange_nat. unfold flat_entities. cbn [spatial_dimension range seq flat_map Nat.sub]. rewrite H0, H1, H2, H3. cbn [map app].
      intros x Hx. repeat (destruct Hx as [<-|Hx]; [unfold lookup; cbn [length seq combine map dlookup fst snd]; rewrite !deqb_DI; cbn [Nat.eqb elookup]; apply f_equal; unfold block; cbn [fst snd first_of size_of seq]; fold n1 n2; first [f_equal; lia | repeat f_equal; lia]|]). destruct Hx.
    + unfold flat_entities. cbn [spatial_dimension range seq flat_map Nat.sub]. rewrite H0, H1, H2, H3. cbn [map app flat_map].
      unfold block; cbn [fst snd first_of size_of]. fold n1 n2. rewrite Th, app_nil_r, <- ?app_assoc.
      replace (8 + 12 * n1 + 6 * n2 + nI) with (1 + (1 + (1 + (1 + (1 + (1 + (1 + (1 + (n1 + (n1 + (n1 + (n1 + (n1 + (n1 + (n1 + (n1 + (n1 + (n1 + (n1 + (n1 + (n2 + (n2 + (n2 + (n2 + (n2 + (n2 + nI)))))))))))))))))))))))))) by lia.
      repeat (apply seq_block; [lia|]). f_equal; lia.
Qed.

(** The cells handled: the two UFC cubes and their products. *)
Definition line (c : cell) : Prop := c = UFCInterval \/ c = DefaultLine.
Inductive ser_cell : cell -> Prop :=
| sc_quad : ser_cell UFCQuadrilateral
| sc_hex : ser_cell UFCHexahedron
| sc_2 a b : line a -> line b -> ser_cell (TensorProductCell [a; b])
| sc_3 a b c : line a -> line b -> line c -> ser_cell (TensorProductCell [a; b; c])
| sc_qi a : line a -> ser_cell (TensorProductCell [UFCQuadrilateral; a])
| sc_iq a : line a -> ser_cell (TensorProductCell [a; UFCQuadrilateral]).

(** the flat entity stored under each entity of the cell, in dictionary order *)
Definition order (c flat : cell) : list (nat * nat) :=
  flat_map (fun '(d, _) =>
    flat_map (fun x => match ulookup (compute_unflattening_map (topology c)) (fst x) (snd x) with
                       | Some (d', e) => if deqb d' d then [x] else []
                       | None => []
                       end) (flat_entities flat)) (sort_dims (topology c)).
Definition paireqb (a b : nat * nat) : bool := Nat.eqb (fst a) (fst b) && Nat.eqb (snd a) (snd b).
Fixpoint remove1 (a : nat * nat) (l : list (nat * nat)) : option (list (nat * nat)) :=
  match l with [] => None | x :: l' => if paireqb a x then Some l' else option_map (cons x) (remove1 a l') end.
Fixpoint permb (a b : list (nat * nat)) : bool :=
  match a with
  | [] => match b with [] => true | _ => false end
  | x :: a' => match remove1 x b with Some b' => permb a' b' | None => false end
  end.
Lemma remove1_perm a l l' : remove1 a l = Some l' -> Permutation l (a :: l').
Proof.
  revert l'; induction l as [|x l IH]; intros l'; cbn; [discriminate|]. destruct (paireqb a x) eqn:E.
  - intros [= <-]. destruct a, x. unfold paireqb in E. cbn in E. apply andb_true_iff in E as (E1 & E2).
    apply Nat.eqb_eq in E1, E2. subst. reflexivity.
  - destruct (remove1 a l) as [r|]; cbn; [|discriminate]. intros [= <-]. rewrite (IH r eq_refl). apply perm_swap.
Qed.
Lemma permb_perm a b : permb a b = true -> Permutation a b.
Proof.
  revert b; induction a as [|x a IH]; intros b; cbn; [now destruct b|].
  destruct (remove1 x b) as [b'|] eqn:E; [|discriminate]. intros H. rewrite (remove1_perm _ _ _ E). constructor. now apply IH.
Qed.

Definition ids_checks (c flat : cell) : bool :=
  forallb (fun x => match ulookup (compute_unflattening_map (topology c)) (fst x) (snd x) with Some _ => true | None => false end) (flat_entities flat) &&
  permb (order c flat) (flat_entities flat) &&
  forallb (fun kv => existsb (paireqb (fst kv)) (flat_entities flat)) (compute_unflattening_map (topology c)).
Definition flat_of (c : cell) : cell := if Nat.eqb (spatial_dimension c) 2 then UFCQuadrilateral else UFCHexahedron.
Lemma ser_checks c : ser_cell c -> flatten_reference_cube c = Ok (flat_of c) /\ cube (flat_of c) /\ ids_checks c (flat_of c) = true /\
  (spatial_dimension c = 2 \/ spatial_dimension c = 3) /\ spatial_dimension (flat_of c) = spatial_dimension c.
Proof.
  intros H. destruct H;
  repeat match goal with H : line _ |- _ => destruct H as [-> | ->] end;
  (split; [reflexivity|]); (split; [first [now left|now right]|]); (split; [vm_compute; reflexivity|]); (split; [cbn; auto|reflexivity]).
Qed.

Section Unflatten.
  Variables (c flat : cell) (ids : dict (list nat)) (B : nat * nat -> list nat).
  Hypothesis Hck : ids_checks c flat = true.
  Hypothesis Hids : forall x, In x (flat_entities flat) -> lookup ids (DI (fst x)) (snd x) = Some (B x).
  Let m := compute_unflattening_map (topology c).
  Definition entries (d : dimT) : ents (list nat) :=
    flat_map (fun x => match ulookup m (fst x) (snd x) with
                       | Some (d', e) => if deqb d' d then [(e, option_list (lookup ids (DI (fst x)) (snd x)))] else []
                       | None => []
                       end) (flat_entities flat).
  Lemma unflatten_eq : unflatten_ids c flat ids = Ok (map (fun '(d, _) => (d, entries d)) (sort_dims (topology c))).
  Proof. unfold unflatten_ids. apply andb_true_iff in Hck as (H & _). apply andb_true_iff in H as (-> & _). reflexivity. Qed.
  Lemma unflatten_perm : Permutation (all_dofs (map (fun '(d, _) => (d, entries d)) (sort_dims (topology c)))) (flat_map B (flat_entities flat)).
  Proof.
    apply andb_true_iff in Hck as (H & _). apply andb_true_iff in H as (_ & P). apply permb_perm in P. rewrite <- (Permutation_flat_map B P).
    unfold order, all_dofs. clear -Hids. induction (sort_dims (topology c)) as [|[d es] t IH]; cbn [map flat_map]; [reflexivity|].
    rewrite flat_map_app. apply Permutation_app; [|exact IH]. clear IH.
    unfold entries. revert Hids. induction (flat_entities flat) as [|x l IH]; intros Hids; cbn [flat_map]; [reflexivity|].
    rewrite !flat_map_app. apply Permutation_app; [|apply IH; intros; apply Hids; now right].
    fold m. destruct (ulookup m (fst x) (snd x)) as [[d' e]|]; [|reflexivity]. destruct (deqb d' d); [|reflexivity].
    rewrite Hids by now left. cbn. now rewrite !app_nil_r.
  Qed.
  Lemma ulookup_flat fd fe y : ulookup m fd fe = Some y -> In (fd, fe) (flat_entities flat).
  Proof.
    intros H. apply andb_true_iff in Hck as (_ & P). rewrite forallb_forall in P. fold m in P.
    assert (Hm : In ((fd, fe), y) m).
    { clear -H. induction m as [|[[a b] x] m' IH]; cbn in *; [discriminate|].
      destruct (Nat.eqb_spec fd a) as [->|]; cbn in H; [|right; auto].
      destruct (Nat.eqb_spec fe b) as [->|]; [injection H as ->; now left|right; auto]. }
    specialize (P _ Hm). apply existsb_exists in P as (z & Hz & E). cbn in E. destruct z as [a b]. unfold paireqb in E. cbn in E.
    apply andb_true_iff in E as (E1 & E2). apply Nat.eqb_eq in E1, E2. now subst.
  Qed.
  Lemma entries_spec d e l : elookup e (entries d) = Some l <-> exists x, In x (flat_entities flat) /\ ulookup m (fst x) (snd x) = Some (d, e) /\ l = B x.
  Proof.
    destruct (C17_product_cells_admissible c) as (Hp & Hs).
    destruct (C17_flatten_unflatten _ (topology c) Hp Hs) as (_ & _ & _ & Hinj & _). fold m in Hinj.
    assert (G : forall L, incl L (flat_entities flat) -> elookup e (flat_map (fun x => match ulookup m (fst x) (snd x) with
                       | Some (d', e) => if deqb d' d then [(e, option_list (lookup ids (DI (fst x)) (snd x)))] else []
                       | None => []
                       end) L) = Some l <-> exists x, In x L /\ ulookup m (fst x) (snd x) = Some (d, e) /\ l = B x).
    { induction L as [|x L IH]; intros HL; cbn [flat_map].
      - split; [discriminate|]. now intros (x & [] & _).
      - assert (IH' := IH (fun y Hy => HL y (or_intror Hy))). clear IH.
        assert (Skip : ulookup m (fst x) (snd x) <> Some (d, e) -> (exists y, In y (x :: L) /\ ulookup m (fst y) (snd y) = Some (d, e) /\ l = B y) <->
          exists y, In y L /\ ulookup m (fst y) (snd y) = Some (d, e) /\ l = B y).
        { intros Hn. split; intros (y & Hy & E & F); [|exists y; split; [now right|auto]].
          destruct Hy as [<-|Hy]; [contradiction|]. now exists y. }
        destruct (ulookup m (fst x) (snd x)) as [[d' e']|] eqn:E.
        + destruct (deqb d' d) eqn:D; cbn [app].
          * apply deqb_eq in D as ->. cbn [elookup]. destruct (Nat.eqb_spec e e') as [<-|Hne].
            -- rewrite Hids by (apply HL; now left). cbn [option_list]. split.
               ++ intros [= <-]. exists x. split; [now left|auto].
               ++ intros (y & _ & Ey & ->). destruct (Hinj _ _ _ _ _ E Ey) as (E1 & E2).
                  destruct x, y; cbn in *; now subst.
            -- rewrite Skip by congruence. exact IH'.
          * rewrite Skip; [exact IH'|]. intros [= -> ->]. rewrite (proj2 (deqb_eq d d) eq_refl) in D. discriminate.
        + cbn [app]. rewrite Skip by discriminate. exact IH'. }
    apply G. apply incl_refl.
  Qed.
  Lemma uids_dlookup d (t : topo) : dlookup d (map (fun '(d, _) => (d, entries d)) t) = option_map (fun _ => entries d) (dlookup d t).
  Proof. induction t as [|[d' es] t IH]; [reflexivity|]. cbn [map dlookup]. destruct (deqb d d') eqn:E; [apply deqb_eq in E as ->; reflexivity|exact IH]. Qed.
  Lemma dlookup_sort d : dlookup d (sort_dims (topology c)) = dlookup d (topology c).
  Proof.
    destruct (good_cell c) as (ND & _). unfold sort_dims.
    pose proof (isort_perm (fun x y : dimT * ents (list nat) => dleb (fst x) (fst y)) (topology c)) as P.
    assert (ND' : NoDup (keys (isort (fun x y : dimT * ents (list nat) => dleb (fst x) (fst y)) (topology c)))).
    { unfold keys. eapply Permutation_NoDup; [|exact ND]. apply Permutation_map. first [exact P|symmetry; exact P]. }
    destruct (dlookup d (topology c)) as [es|] eqn:E.
    - apply dlookup_in; [exact ND'|]. apply dlookup_in in E; [|exact ND]. eapply Permutation_in; [|exact E]. first [exact P|symmetry; exact P].
    - destruct (dlookup d (isort _ _)) as [es|] eqn:E'; [|reflexivity]. apply dlookup_in in E'; [|exact ND'].
      assert (H : In (d, es) (topology c)) by (eapply Permutation_in; [|exact E']; first [exact P|symmetry; exact P]).
      apply dlookup_in in H; [|exact ND]. congruence.
  Qed.
  Definition uids : dict (list nat) := map (fun '(d, _) => (d, entries d)) (sort_dims (topology c)).
  Lemma uids_lookup d e l : lookup uids d e = Some l <-> exists x, In x (flat_entities flat) /\ ulookup m (fst x) (snd x) = Some (d, e) /\ l = B x.
  Proof.
    unfold lookup, uids. rewrite uids_dlookup, dlookup_sort.
    destruct (C17_product_cells_admissible c) as (Hp & Hs).
    destruct (C17_flatten_unflatten _ (topology c) Hp Hs) as (_ & _ & H3 & _). fold m in H3.
    destruct (dlookup d (topology c)) as [es|] eqn:E; cbn [option_map]; [apply entries_spec|].
    split; [discriminate|]. intros (x & _ & Hx & _). destruct (H3 _ _ _ _ Hx) as (_ & v & Hv). unfold lookup in Hv. rewrite E in Hv. discriminate.
  Qed.
  Lemma uids_same : same_entities uids (topology c).
  Proof.
    destruct (C17_product_cells_admissible c) as (Hp & Hs).
    destruct (C17_flatten_unflatten _ (topology c) Hp Hs) as (_ & H2 & H3 & _). fold m in H2, H3.
    intros d e. destruct (lookup uids d e) as [l|] eqn:E.
    - apply uids_lookup in E as (x & _ & Hx & _). destruct (H3 _ _ _ _ Hx) as (_ & v & Hv). rewrite Hv. easy.
    - destruct (lookup (topology c) d e) as [v|] eqn:Ev; [|easy]. exfalso.
      destruct (H2 d e (ex_intro _ v Ev)) as (fe & Hf).
      assert (lookup uids d e = Some (B (tuple_sum d, fe))); [|congruence].
      apply uids_lookup. exists (tuple_sum d, fe). split; [eapply ulookup_flat; exact Hf|auto].
  Qed.
End Unflatten.
