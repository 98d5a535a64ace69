(** Merging coefficient arrays and derivative matrices. *)
From Verif Require Import Base ModelIndex ModelCell ModelArray ModelConcat SpecCell SpecCart SpecConcat
  ProofsArray ProofsConcat.

Section Merge.
  Context {K : Type} (zero : K).
  (** a coefficient array: members x value shape x expansion functions *)
  Definition coeff_shape (c : array K) (m : nat) (vs : list nat) (n : nat) : Prop :=
    ashape c = m :: vs ++ [n].

  Lemma coeff_parts c m vs n : coeff_shape c m vs n ->
    lead (ashape c) = m /\ expdim (ashape c) = n /\ vshape_of (ashape c) = vs.
  Proof.
    intros H. unfold coeff_shape in H. rewrite H. unfold lead, expdim, vshape_of. simpl.
    split; auto. split.
    - destruct (vs ++ [n]) eqn:E; [destruct vs; discriminate|]. rewrite <- E. apply last_last.
    - apply removelast_last.
  Qed.
  Lemma expdim_idx r cidx j : expdim (r :: cidx ++ [j]) = j.
  Proof.
    unfold expdim. simpl. destruct (cidx ++ [j]) eqn:E; [destruct cidx; discriminate|]. rewrite <- E. apply last_last.
  Qed.

  Lemma merge_from_get vs : forall cs new counter,
    Forall (fun c => coeff_shape c (lead (ashape c)) vs (expdim (ashape c))) cs ->
    ashape (merge_coeffs_from new counter cs) = ashape new /\
    (forall r cidx j, (forall i, i < length cs -> ~ (counter + block_start (map (fun c => lead (ashape c)) cs) i <= r
        < counter + block_start (map (fun c => lead (ashape c)) cs) (S i))) ->
      aget (merge_coeffs_from new counter cs) (r :: cidx ++ [j]) = aget new (r :: cidx ++ [j])) /\
    (forall i c k cidx j, nth_error cs i = Some c -> k < lead (ashape c) ->
      aget (merge_coeffs_from new counter cs)
        (counter + block_start (map (fun c => lead (ashape c)) cs) i + k :: cidx ++ [j]) =
      if Nat.ltb j (expdim (ashape c)) then aget c (k :: cidx ++ [j])
      else aget new (counter + block_start (map (fun c => lead (ashape c)) cs) i + k :: cidx ++ [j])).
  Proof.
    induction cs as [|c0 cs IH]; intros new counter Hf.
    - simpl. repeat split; auto. intros [|i]; discriminate.
    - inversion Hf as [|? ? _ Hf']; subst.
      destruct (IH (assign_coeffs new counter c0) (counter + lead (ashape c0)) Hf') as (I1 & I2 & I3).
      cbn [merge_coeffs_from]. split; [rewrite I1; reflexivity|]. split.
      + intros r cidx j Hout. rewrite I2.
        * unfold assign_coeffs. cbn [aget]. unfold lead at 1 2. cbn [hd].
          destruct (Nat.leb counter r && Nat.ltb r (counter + lead (ashape c0))) eqn:E; auto.
          apply andb_true_iff in E as [A B]. apply Nat.leb_le in A. apply Nat.ltb_lt in B.
          exfalso. apply (Hout 0); [simpl; lia|]. unfold block_start; simpl. lia.
        * intros i Hi. pose proof (Hout (S i) ltac:(simpl; lia)) as H. cbn [map] in H.
          rewrite !block_start_cons in H. lia.
      + intros [|i] c k cidx j Hi Hk.
        * simpl in Hi. inversion Hi; subst c. clear Hi.
          replace (block_start (map (fun c => lead (ashape c)) (c0 :: cs)) 0) with 0 by reflexivity.
          rewrite Nat.add_0_r. rewrite I2.
          -- unfold assign_coeffs. cbn [aget]. rewrite expdim_idx. change (lead ((counter + k) :: cidx ++ [j])) with (counter + k). cbn [tl].
             rewrite (proj2 (Nat.leb_le counter (counter + k))), (proj2 (Nat.ltb_lt _ _)) by lia.
             simpl. rewrite Nat.add_comm, Nat.add_sub. reflexivity.
          -- intros i _ H. lia.
        * simpl in Hi. cbn [map]. rewrite block_start_cons.
          replace (counter + (lead (ashape c0) + block_start (map (fun c => lead (ashape c)) cs) i) + k)
            with (counter + lead (ashape c0) + block_start (map (fun c => lead (ashape c)) cs) i + k) by lia.
          rewrite (I3 i c k cidx j Hi Hk). destruct (Nat.ltb j (expdim (ashape c))); auto.
          unfold assign_coeffs. cbn [aget]. unfold lead at 1 4. cbn [hd].
          match goal with |- (if ?b then _ else _) = _ => assert (E : b = false) end; [|rewrite E; auto].
          apply andb_false_iff. left. apply andb_false_iff. right. apply Nat.ltb_ge. lia.
  Qed.

  Lemma merge_coeffs_spec cs vs : cs <> [] ->
    Forall (fun c => exists m n, coeff_shape c m vs n) cs ->
    exists r, merge_coeffs zero cs = Ok r /\
      coeff_shape r (nsum (map (fun c => lead (ashape c)) cs)) vs (list_max (map (fun c => expdim (ashape c)) cs)) /\
      forall i c k cidx j, nth_error cs i = Some c -> k < lead (ashape c) ->
        aget r (block_start (map (fun c => lead (ashape c)) cs) i + k :: cidx ++ [j]) =
        if Nat.ltb j (expdim (ashape c)) then aget c (k :: cidx ++ [j]) else zero.
  Proof.
    intros Hne Hf.
    assert (Hv : forall c, In c cs -> vshape_of (ashape c) = vs).
    { intros c Hc. rewrite Forall_forall in Hf. destruct (Hf c Hc) as (m & n & H).
      apply coeff_parts in H. tauto. }
    assert (Hf' : Forall (fun c => coeff_shape c (lead (ashape c)) vs (expdim (ashape c))) cs).
    { apply Forall_forall. intros c Hc. rewrite Forall_forall in Hf. destruct (Hf c Hc) as (m & n & H).
      destruct (coeff_parts _ _ _ _ H) as (-> & -> & _). auto. }
    destruct cs as [|c0 cs0] eqn:Ecs; [congruence|]. rewrite <- Ecs in *. unfold merge_coeffs.
    assert (E : merge_coeffs zero cs = if forallb (fun c => keq (vshape_of (ashape c)) (vshape_of (ashape c0))) cs
      then Ok (merge_coeffs_from
                 (zeros zero (nsum (map (fun c => lead (ashape c)) cs) :: vshape_of (ashape c0)
                              ++ [list_max (map (fun c => expdim (ashape c)) cs)])) 0 cs)
      else Err AssertionError) by (rewrite Ecs; reflexivity).
    fold (merge_coeffs zero cs). rewrite E.
    assert (Hb : forallb (fun c => keq (vshape_of (ashape c)) (vshape_of (ashape c0))) cs = true).
    { apply forallb_forall. intros c Hc. apply keq_eq. rewrite !Hv; auto. rewrite Ecs; simpl; auto. }
    rewrite Hb. eexists. split; [reflexivity|]. rewrite (Hv c0) by (rewrite Ecs; simpl; auto).
    destruct (merge_from_get vs cs (zeros zero (nsum (map (fun c => lead (ashape c)) cs) :: vs
        ++ [list_max (map (fun c => expdim (ashape c)) cs)])) 0 Hf') as (I1 & _ & I3).
    split; [unfold coeff_shape; rewrite I1; reflexivity|].
    intros i c k cidx j Hi Hk. pose proof (I3 i c k cidx j Hi Hk) as H. simpl in H. rewrite H. reflexivity.
  Qed.

  Lemma merge_coeffs_refuses cs c c' : In c cs -> In c' cs -> vshape_of (ashape c) <> vshape_of (ashape c') ->
    merge_coeffs zero cs = Err AssertionError.
  Proof.
    intros H H' Hne. destruct cs as [|c0 cs0] eqn:E; [destruct H|]. unfold merge_coeffs. rewrite <- E in *.
    destruct (forallb _ cs) eqn:Eb; auto. rewrite forallb_forall in Eb. exfalso. apply Hne.
    rewrite (proj1 (keq_eq _ _) (Eb _ H)), (proj1 (keq_eq _ _) (Eb _ H')). auto.
  Qed.

  Context (close : K -> K -> bool).
  Lemma best_fold : forall (xs : list (nat * list (@dmatT K))) x, In (fold_left best xs x) (x :: xs) /\
    (forall y, In y (x :: xs) -> fst y <= fst (fold_left best xs x)).
  Proof.
    induction xs as [|y xs IH]; intros x; simpl.
    - split; auto. intros y [->|[]]; auto.
    - destruct (IH (best x y)) as [A B]. split.
      + destruct A as [A|A]; [|simpl; auto]. rewrite <- A. unfold best. destruct (Nat.ltb _ _); auto.
      + assert (Hx : fst x <= fst (best x y) /\ fst y <= fst (best x y)).
        { unfold best. destruct (Nat.ltb_spec (fst y) (fst x)); lia. }
        pose proof (B (best x y) ltac:(simpl; auto)) as Hb. intros z [->|[->|Hz]]; [lia|lia|].
        apply B; simpl; auto.
  Qed.

  Lemma merge_dmats_spec (dss : list (list (@dmatT K))) : dss <> [] ->
    (exists big, merge_dmats close dss = Ok big /\ In big dss /\
       (forall ds, In ds dss -> length (hd [] ds) <= length (hd [] big)) /\
       (forall ds x d b i j u v, In ds dss -> nth_error ds x = Some d -> nth_error big x = Some b ->
          (exists r, nth_error d i = Some r /\ nth_error r j = Some u) ->
          (exists r, nth_error b i = Some r /\ nth_error r j = Some v) -> close u v = true)) \/
    (merge_dmats close dss = Err AssertionError /\
       exists big ds, In big dss /\ In ds dss /\ (forall ds', In ds' dss -> length (hd [] ds') <= length (hd [] big)) /\
         exists x d b i j u v, nth_error ds x = Some d /\ nth_error big x = Some b /\
          (exists r, nth_error d i = Some r /\ nth_error r j = Some u) /\
          (exists r, nth_error b i = Some r /\ nth_error r j = Some v) /\ close u v = false).
  Proof.
    intros Hne. unfold merge_dmats.
    destruct dss as [|d0 dss0] eqn:E; [congruence|]. cbn [map].
    set (xs := map (fun ds => (length (hd [] ds), ds)) dss0). set (x0 := (length (hd [] d0), d0)).
    change (fold_left best xs (length (hd [] d0), d0)) with (fold_left best xs x0).
    destruct (best_fold xs x0) as [A B]. destruct (fold_left best xs x0) as [n big].
    assert (A' : In (n, big) (map (fun ds : list (@dmatT K) => (length (hd [] ds), ds)) (d0 :: dss0))) by exact A.
    apply in_map_iff in A' as (ds0 & E0 & A'). inversion E0; subst ds0. subst n.
    assert (B' : forall ds, In ds (d0 :: dss0) -> length (hd [] ds) <= length (hd [] big)).
    { intros ds H. apply (B (length (hd [] ds), ds)).
      change (In (length (hd [] ds), ds) (map (fun ds : list (@dmatT K) => (length (hd [] ds), ds)) (d0 :: dss0))).
      apply in_map_iff. eauto. }
    assert (N : forall {A B} (l : list A) (m : list B) i a b, nth_error l i = Some a -> nth_error m i = Some b ->
       In (a, b) (combine l m)).
    { clear. intros A B l m i a b Ha Hb. revert m i Ha Hb. induction l as [|x l IH]; intros m [|i] Ha Hb; destruct m; try discriminate; simpl in *.
      - inversion Ha; inversion Hb; auto.
      - right; eauto. }
    assert (N' : forall {A B} (l : list A) (m : list B) a b, In (a, b) (combine l m) ->
       exists i, nth_error l i = Some a /\ nth_error m i = Some b).
    { clear. intros A B l. induction l as [|x l IH]; intros [|y m] a b H; simpl in H; try contradiction.
      destruct H as [H|H]; [inversion H; subst; exists 0; auto|]. apply IH in H as (i & H1 & H2). exists (S i); auto. }
    match goal with |- context [if ?b then Ok big else _] => destruct b eqn:Eb end.

    - change (forallb (fun ds : list (@dmatT K) => forallb (fun '(d, b) => sub_close close d b) (combine ds big)) (d0 :: dss0) = true) in Eb.
      left. exists big. split; auto. split; auto. split; auto.
      intros ds x d b i j u v Hds Hd Hb (r & Hr & Hu) (r' & Hr' & Hv).
      rewrite forallb_forall in Eb. apply Eb in Hds. rewrite forallb_forall in Hds.
      specialize (Hds _ (N _ _ _ _ _ _ _ Hd Hb)). cbv beta iota in Hds. unfold sub_close in Hds.
      rewrite forallb_forall in Hds. specialize (Hds _ (N _ _ _ _ _ _ _ Hr Hr')). cbv beta iota in Hds.
      rewrite forallb_forall in Hds. exact (Hds _ (N _ _ _ _ _ _ _ Hu Hv)).
    - change (forallb (fun ds : list (@dmatT K) => forallb (fun '(d, b) => sub_close close d b) (combine ds big)) (d0 :: dss0) = false) in Eb.
      right. split; auto. exists big.
      assert (F : forall {A} (p : A -> bool) l, forallb p l = false -> exists a, In a l /\ p a = false).
      { clear. intros A p l. induction l as [|a l IH]; simpl; [discriminate|]. destruct (p a) eqn:E; simpl; [|exists a; auto].
        intros H. apply IH in H as (x & H1 & H2). exists x; auto. }
      apply F in Eb as (ds & Hds & Eb). apply F in Eb as ([d b] & Hdb & Eb). apply N' in Hdb as (x & Hd & Hb).
      apply F in Eb as ([r r'] & Hrr & Eb). apply N' in Hrr as (i & Hr & Hr').
      apply F in Eb as ([u v] & Huv & Eb). apply N' in Huv as (j & Hu & Hv).
      exists ds. split; auto. split; auto. split; auto. exists x, d, b, i, j, u, v. repeat split; eauto.
  Qed.
End Merge.

(** padding preserves the functions *)
Section Sums.
  Context {K : fieldT}.
  Add Field Kf : (f_th K).
  Lemma fsum_zero {A} (f : A -> K) l : (forall x, In x l -> f x = f0) -> fsum (map f l) = f0.
  Proof.
    induction l as [|a l IH]; intros H; simpl; auto. rewrite H, IH by (simpl; auto; intros; apply H; simpl; auto). ring.
  Qed.
  Lemma fsum_app (l1 l2 : list K) : fsum (l1 ++ l2) = fadd (fsum l1) (fsum l2).
  Proof. induction l1 as [|a l IH]; simpl; [ring|]. rewrite IH. ring. Qed.
  Lemma fsum_pad (f : nat -> K) n m : n <= m ->
    fsum (map (fun j => if Nat.ltb j n then f j else f0) (seq 0 m)) = fsum (map f (seq 0 n)).
  Proof.
    intros H. replace m with (n + (m - n)) by lia. rewrite seq_app, map_app, fsum_app.
    rewrite (fsum_zero _ (seq (0 + n) (m - n))).
    - assert (E : map (fun j => if Nat.ltb j n then f j else f0) (seq 0 n) = map f (seq 0 n)).
      { apply map_ext_in. intros j Hj. apply in_seq in Hj. rewrite (proj2 (Nat.ltb_lt j n)) by lia. auto. }
      rewrite E. ring.
    - intros x Hx. apply in_seq in Hx. rewrite (proj2 (Nat.ltb_ge x n)) by lia. auto.
  Qed.
End Sums.
