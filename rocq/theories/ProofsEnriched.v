(** Stacking in [EnrichedElement.tabulate] for every value shape: the proofs of
    ProofsConcat with the assignment abstracted, and the refusals. *)
From Verif Require Import Base ModelIndex ModelCell ModelArray ModelConcat SpecCell SpecCart SpecConcat
  ProofsCell ProofsCart ProofsArray ProofsConcat.

Section Tab.
  Context {K : Type} (zero : K).
  Notation table := (list (list nat * array K)).
  Variable g : array K -> list nat -> K.
  (** assigning [t] to rows i0 .. i0 + n - 1 works and stores [g t] *)
  Definition lands (D : nat) (rest : list nat) (i0 n : nat) (t : array K) : Prop :=
    forall arr, ashape arr = D :: rest ->
    exists r, assign_slice arr [(i0, i0 + n)] t = Ok r /\ ashape r = D :: rest /\
      forall idx, in_shape (D :: rest) idx ->
        aget r idx = if in_ranges [(i0, i0 + n)] idx then g t (shift_idx [(i0, i0 + n)] idx) else aget arr idx.

  Lemma genr_keys_ok D rest i0 n : i0 + n <= D ->
    forall (tab : table) out,
    NoDup (map fst tab) -> (forall d t, In (d, t) tab -> lands D rest i0 n t) ->
    shaped (D :: rest) out ->
    exists out', enriched_keys zero (D :: rest) i0 (i0 + n) tab out = Ok out' /\
      shaped (D :: rest) out' /\
      (forall d, tlookup d out' <> None <-> tlookup d out <> None \/ tlookup d tab <> None) /\
      (forall d r idx, r < D -> in_shape rest idx -> ~ (i0 <= r < i0 + n) -> oget zero out' d (r :: idx) = oget zero out d (r :: idx)) /\
      (forall d k idx, k < n -> in_shape rest idx ->
         oget zero out' d (i0 + k :: idx) =
         match tlookup d tab with Some t => g t (k :: idx) | None => oget zero out d (i0 + k :: idx) end).
  Proof.
    intros HD tab. induction tab as [|[d0 t] tab IH]; intros out ND Hsh Hout.
    - simpl. exists out. split; [reflexivity|]. split; auto. split; [|split]; intros; auto.
      split; auto. intros [H|H]; auto.
    - cbn [enriched_keys]. inversion ND as [|? ? Hni ND']; subst.
      set (arr := match tlookup d0 out with Some a => a | None => zeros zero (D :: rest) end).
      assert (Sarr : ashape arr = D :: rest) by (apply shaped_arr; auto).
      destruct (Hsh d0 t (or_introl eq_refl) arr Sarr) as (a' & Ea & Sa & Ga).
      rewrite Ea.
      destruct (IH (tset d0 a' out)) as (out' & E' & S' & K' & G1' & G2'); auto.
      { intros d' t0 Hin. eapply Hsh; simpl; eauto. }
      { intros d a. rewrite tlookup_tset. destruct (keq d d0); [|apply Hout]. intros H; inversion H; subst. congruence. }
      exists out'. split; [exact E'|]. split; [exact S'|]. split; [|split].
      + intros d. rewrite K', tlookup_tset. cbn [tlookup]. destruct (keq d d0); [|tauto].
        split; intros; [right; discriminate|left; discriminate].
      + intros d r idx Hr Hi Hnot. rewrite G1' by auto. unfold oget. rewrite tlookup_tset.
        destruct (keq d d0) eqn:E; auto. apply keq_eq in E; subst d.
        rewrite Ga by (constructor; auto).
        destruct (in_ranges _ _) eqn:Er.
        * exfalso. apply Hnot. cbn [in_ranges] in Er. rewrite !andb_true_iff, !Nat.leb_le, !Nat.ltb_lt in Er. tauto.
        * unfold arr. rewrite oget_arr. reflexivity.
      + intros d k idx Hk Hi. rewrite G2' by auto. cbn [tlookup].
        destruct (keq d d0) eqn:E.
        * apply keq_eq in E; subst d0.
          rewrite (proj2 (tlookup_none d tab)) by auto. unfold oget. rewrite tlookup_tset, keq_refl.
          rewrite Ga by (constructor; [lia|auto]).
          assert (Er : in_ranges [(i0, i0 + n)] (i0 + k :: idx) = true).
          { cbn [in_ranges]. rewrite !andb_true_iff, !Nat.leb_le, !Nat.ltb_lt. repeat split; lia. }
          rewrite Er. cbn [shift_idx]. replace (i0 + k - i0) with k by lia. reflexivity.
        * destruct (tlookup d tab); auto. unfold oget. rewrite tlookup_tset, E. reflexivity.
  Qed.

  Lemma genr_elements_ok D rest : forall els i0 out,
    Forall (fun e => NoDup (map fst (c_table e)) /\
                     forall d t i0, In (d, t) (c_table e) -> lands D rest i0 (c_dim e) t) els ->
    i0 + nsum (map c_dim els) <= D ->
    shaped (D :: rest) out ->
    exists out', enriched_elements zero (D :: rest) i0 els out = Ok out' /\
      shaped (D :: rest) out' /\
      (forall d, tlookup d out' <> None <-> tlookup d out <> None \/ exists e, In e els /\ tlookup d (c_table e) <> None) /\
      (forall d r idx, r < i0 -> in_shape rest idx -> oget zero out' d (r :: idx) = oget zero out d (r :: idx)) /\
      (forall d i e k idx, nth_error els i = Some e -> k < c_dim e -> in_shape rest idx ->
         let row := i0 + block_start (map c_dim els) i + k in
         oget zero out' d (row :: idx) =
         match tlookup d (c_table e) with Some t => g t (k :: idx) | None => oget zero out d (row :: idx) end).
  Proof.
    induction els as [|e els IH]; intros i0 out Hw HD Hout.
    - simpl. exists out. split; [reflexivity|]. split; auto. split; [|split]; intros; auto.
      + split; auto. intros [H|(e & [] & _)]; auto.
      + exfalso. match goal with H : nth_error [] ?i = Some _ |- _ => destruct i; simpl in H; discriminate H end.
    - cbn [enriched_elements map nsum fold_right] in *. inversion Hw as [|? ? (W3 & W4) Hw']; subst.
      fold (nsum (map c_dim els)) in HD.
      destruct (genr_keys_ok D rest i0 (c_dim e)) with (tab := c_table e) (out := out)
        as (out1 & E1 & S1 & K1 & A1 & B1); auto; try lia.
      { intros d t Hin. eapply W4; eauto. }
      rewrite E1.
      destruct (IH (i0 + c_dim e) out1) as (out' & E' & S' & K' & A' & B'); auto; try lia.
      exists out'. split; [exact E'|]. split; [exact S'|]. split; [|split].
      + intros d. rewrite K', K1. split.
        * intros [[H|H]|(e' & H1 & H2)]; auto; right; [exists e; simpl; auto|exists e'; simpl; auto].
        * intros [H|(e' & [->|H1] & H2)]; eauto.
      + intros d r idx Hr Hi. rewrite A' by (auto; lia). apply A1; auto; lia.
      + intros d i e' k idx He' Hk Hi. destruct i as [|i].
        * simpl in He'. inversion He'; subst e'. unfold block_start. simpl. rewrite !Nat.add_0_r.
          rewrite A' by (auto; lia). apply B1; auto.
        * simpl in He'. rewrite block_start_cons, !Nat.add_assoc.
          rewrite (B' d i e' k idx) by auto. destruct (tlookup d (c_table e')); auto.
          pose proof (block_fits _ _ _ (nth_error_map_some c_dim els i e' He')) as Hfit.
          apply A1; auto; lia.
  Qed.

End Tab.
