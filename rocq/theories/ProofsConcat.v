From Coq Require Import Sorted Permutation.
From Verif Require Import Base ModelIndex ModelCell ModelArray ModelConcat SpecCell SpecCart SpecConcat
  ProofsCell ProofsCart ProofsArray.

Lemma block_start_cons x l i : block_start (x :: l) (S i) = x + block_start l i.
Proof. reflexivity. Qed.

Section Tab.
  Context {K : Type} (zero : K).
  Notation table := (list (list nat * array K)).
  Definition oget (out : table) d idx : K :=
    match tlookup d out with Some a => aget a idx | None => zero end.
  Definition shaped (shape : list nat) (out : table) : Prop :=
    forall d a, tlookup d out = Some a -> ashape a = shape.

  Lemma shaped_arr shape out d : shaped shape out ->
    ashape (match tlookup d out with Some a => a | None => zeros zero shape end) = shape.
  Proof. intros H. destruct (tlookup d out) eqn:E; auto. eapply H; eauto. Qed.
  Lemma oget_arr shape out d idx :
    aget (match tlookup d out with Some a => a | None => zeros zero shape end) idx = oget out d idx.
  Proof. unfold oget. destruct (tlookup d out); auto. Qed.

  (** ** mixed *)
  Lemma mixed_keys_ok D C npts i0 c0 n vs : i0 + n <= D -> c0 + nprod vs <= C -> 0 < n -> 0 < nprod vs ->
    forall (tab : table) out,
    NoDup (map fst tab) -> (forall d t, In (d, t) tab -> ashape t = n :: vs ++ [npts]) ->
    shaped [D; C; npts] out ->
    exists out', mixed_keys zero [D; C; npts] i0 (i0 + n) c0 (c0 + nprod vs) tab out = Ok out' /\
      shaped [D; C; npts] out' /\
      (forall d, tlookup d out' <> None <-> tlookup d out <> None \/ tlookup d tab <> None) /\
      (forall d r c p, r < D -> c < C -> p < npts ->
         (~ (i0 <= r < i0 + n /\ c0 <= c < c0 + nprod vs) -> oget out' d [r; c; p] = oget out d [r; c; p])) /\
      (forall d k cidx p, k < n -> in_shape vs cidx -> p < npts ->
         oget out' d [i0 + k; c0 + ravel vs cidx; p] =
         match tlookup d tab with Some t => aget t (k :: cidx ++ [p])
                                | None => oget out d [i0 + k; c0 + ravel vs cidx; p] end).
  Proof.
    intros HD HC Hn Hv tab. induction tab as [|[d0 t] tab IH]; intros out ND Hsh Hout.
    - simpl. exists out. split; [reflexivity|]. split; auto. split; [|split]; intros; auto.
      split; auto. intros [H|H]; auto.
    - cbn [mixed_keys]. inversion ND as [|? ? Hni ND']; subst.
      replace (i0 + n - i0) with n by lia. replace (c0 + nprod vs - c0) with (nprod vs) by lia.
      destruct (reshape_middle t n vs npts Hn Hv) as (t' & Et & St & Gt); [apply (Hsh d0); simpl; auto|].
      rewrite Et.
      set (arr := match tlookup d0 out with Some a => a | None => zeros zero [D; C; npts] end).
      assert (Sarr : ashape arr = [D; C; npts]) by (apply shaped_arr; auto).
      destruct (assign_slice_same arr [(i0, i0 + n); (c0, c0 + nprod vs)] t') as (a' & Ea & Sa & Ga).
      { rewrite Sarr, St. cbn [slice_shape]. repeat f_equal; lia. }
      rewrite Ea.
      destruct (IH (tset d0 a' out)) as (out' & E' & S' & K' & G1' & G2'); auto.
      { intros d' t0 Hin. eapply Hsh; simpl; eauto. }
      { intros d a. rewrite tlookup_tset. destruct (keq d d0); [|apply Hout]. intros H; inversion H; subst. congruence. }
      exists out'. split; [exact E'|]. split; [exact S'|]. split; [|split].
      + intros d. rewrite K', tlookup_tset. cbn [tlookup]. destruct (keq d d0); [|tauto].
        split; intros; [right; discriminate|left; discriminate].
      + intros d r c p Hr Hc Hp Hnot. rewrite G1' by auto. unfold oget. rewrite tlookup_tset.
        destruct (keq d d0) eqn:E; auto. apply keq_eq in E; subst d.
        rewrite Ga by (rewrite Sarr; repeat constructor; auto).
        destruct (in_ranges _ _) eqn:Er.
        * exfalso. apply Hnot. cbn [in_ranges] in Er. rewrite !andb_true_iff, !Nat.leb_le, !Nat.ltb_lt in Er. tauto.
        * unfold arr. rewrite oget_arr. reflexivity.
      + intros d k cidx p Hk Hc Hp. rewrite G2' by auto. cbn [tlookup].
        assert (Hl : ravel vs cidx < nprod vs) by (apply in_shape_ravel; auto).
        destruct (keq d d0) eqn:E.
        * apply keq_eq in E; subst d0.
          rewrite (proj2 (tlookup_none d tab)) by auto. unfold oget. rewrite tlookup_tset, keq_refl.
          rewrite Ga by (rewrite Sarr; repeat constructor; lia).
          assert (Er : in_ranges [(i0, i0 + n); (c0, c0 + nprod vs)] [i0 + k; c0 + ravel vs cidx; p] = true).
          { cbn [in_ranges]. rewrite !andb_true_iff, !Nat.leb_le, !Nat.ltb_lt. repeat split; lia. }
          rewrite Er. cbn [shift_idx]. replace (i0 + k - i0) with k by lia.
          replace (c0 + ravel vs cidx - c0) with (ravel vs cidx) by lia. apply Gt; auto.
        * destruct (tlookup d tab); auto. unfold oget. rewrite tlookup_tset, E. reflexivity.
  Qed.

  Lemma mixed_elements_ok D C npts : forall els i0 c0 out,
    Forall (well_shaped npts) els ->
    i0 + nsum (map c_dim els) <= D -> c0 + nsum (map (fun e => nprod (c_vshape e)) els) <= C ->
    shaped [D; C; npts] out ->
    exists out', mixed_elements zero [D; C; npts] i0 c0 els out = Ok out' /\
      shaped [D; C; npts] out' /\
      (forall d, tlookup d out' <> None <-> tlookup d out <> None \/ exists e, In e els /\ tlookup d (c_table e) <> None) /\
      (forall d r c p, r < D -> c < C -> p < npts ->
         (forall i e, nth_error els i = Some e ->
            ~ (i0 + block_start (map c_dim els) i <= r < i0 + block_start (map c_dim els) i + c_dim e /\
               c0 + block_start (map (fun e => nprod (c_vshape e)) els) i <= c
               < c0 + block_start (map (fun e => nprod (c_vshape e)) els) i + nprod (c_vshape e))) ->
         oget out' d [r; c; p] = oget out d [r; c; p]) /\
      (forall d i e k cidx p, nth_error els i = Some e -> k < c_dim e -> in_shape (c_vshape e) cidx -> p < npts ->
         let idx := [i0 + block_start (map c_dim els) i + k;
                     c0 + block_start (map (fun e => nprod (c_vshape e)) els) i + ravel (c_vshape e) cidx; p] in
         oget out' d idx =
         match tlookup d (c_table e) with Some t => aget t (k :: cidx ++ [p]) | None => oget out d idx end).
  Proof.
    induction els as [|e els IH]; intros i0 c0 out Hw HD HC Hout.
    - simpl. exists out. split; [reflexivity|]. split; auto. split; [|split]; intros; auto.
      + split; auto. intros [H|(e & [] & _)]; auto.
      + exfalso. match goal with H : nth_error [] ?i = Some _ |- _ => destruct i; simpl in H; discriminate H end.
    - cbn [mixed_elements map nsum fold_right] in *. inversion Hw as [|? ? (W1 & W2 & W3 & W4) Hw']; subst.
      fold (nsum (map c_dim els)) in HD. fold (nsum (map (fun e => nprod (c_vshape e)) els)) in HC.
      destruct (mixed_keys_ok D C npts i0 c0 (c_dim e) (c_vshape e)) with (tab := c_table e) (out := out)
        as (out1 & E1 & S1 & K1 & A1 & B1); auto; try lia.
      rewrite E1.
      destruct (IH (i0 + c_dim e) (c0 + nprod (c_vshape e)) out1) as (out' & E' & S' & K' & A' & B'); auto; try lia.
      exists out'. split; [exact E'|]. split; [exact S'|]. split; [|split].
      + intros d. rewrite K', K1. split.
        * intros [[H|H]|(e' & H1 & H2)]; auto; right; [exists e; simpl; auto|exists e'; simpl; auto].
        * intros [H|(e' & [->|H1] & H2)]; eauto.
      + intros d r c p Hr Hc Hp Hnot. rewrite A'; auto.
        * apply A1; auto. intros Hin. apply (Hnot 0 e eq_refl). unfold block_start; simpl. lia.
        * intros i e' He' Hin. apply (Hnot (S i) e' He'). rewrite !block_start_cons. lia.
      + intros d i e' k cidx p He' Hk Hc Hp. destruct i as [|i].
        * simpl in He'. inversion He'; subst e'. unfold block_start. simpl. rewrite !Nat.add_0_r.
          assert (Hl : ravel (c_vshape e) cidx < nprod (c_vshape e)) by (apply in_shape_ravel; auto).
          rewrite A'; [apply B1; auto|lia|lia|auto|]. intros i e' He'2 Hin. lia.
        * simpl in He'. rewrite !block_start_cons, !Nat.add_assoc.
          rewrite (B' d i e' k cidx p) by auto. destruct (tlookup d (c_table e')); auto.
          assert (Hi : block_start (map c_dim els) i + c_dim e' <= nsum (map c_dim els) /\
            block_start (map (fun e => nprod (c_vshape e)) els) i + nprod (c_vshape e')
            <= nsum (map (fun e => nprod (c_vshape e)) els)).
          { clear -He'. unfold block_start. revert i He'. induction els as [|x els IH]; intros [|i] He'; try discriminate.
            - inversion He'; subst. simpl. lia.
            - simpl in He'. apply IH in He'. simpl. lia. }
          assert (Hl : ravel (c_vshape e') cidx < nprod (c_vshape e')) by (apply in_shape_ravel; auto).
          apply A1; try lia; auto.
  Qed.

  Lemma block_fits sizes i x : nth_error sizes i = Some x -> block_start sizes i + x <= nsum sizes.
  Proof.
    unfold block_start. revert i; induction sizes as [|y s IH]; intros [|i] H; try discriminate.
    - inversion H; subst. simpl. lia.
    - simpl in H. apply IH in H. simpl. lia.
  Qed.
  Lemma block_disjoint sizes : forall i j x y r, nth_error sizes i = Some x -> nth_error sizes j = Some y ->
    block_start sizes i <= r < block_start sizes i + x -> block_start sizes j <= r < block_start sizes j + y -> i = j.
  Proof.
    induction sizes as [|z s IH]; intros [|i] [|j] x y r Hi Hj H1 H2; try discriminate; auto.
    - rewrite block_start_cons in H2. unfold block_start in H1; simpl in H1, Hi. inversion Hi; subst. lia.
    - rewrite block_start_cons in H1. unfold block_start in H2; simpl in H2, Hj. inversion Hj; subst. lia.
    - f_equal. rewrite block_start_cons in *. apply (IH i j x y (r - z)); auto; lia.
  Qed.
  Lemma nth_error_map_some {A B} (f : A -> B) l i x : nth_error l i = Some x -> nth_error (map f l) i = Some (f x).
  Proof. intros H. rewrite nth_error_map, H. reflexivity. Qed.

  Lemma mixed_tabulate_spec els npts : Forall (well_shaped npts) els ->
    exists out, mixed_tabulate zero els npts = Ok out /\
      (forall d, tlookup d out <> None <-> exists e, In e els /\ tlookup d (c_table e) <> None) /\
      forall d arr, tlookup d out = Some arr ->
        ashape arr = [nsum (map c_dim els); nsum (map (fun e => nprod (c_vshape e)) els); npts] /\
        forall i e k p, nth_error els i = Some e -> k < c_dim e -> p < npts ->
          let row := block_start (map c_dim els) i + k in
          let c0 := block_start (map (fun e => nprod (c_vshape e)) els) i in
          (forall cidx, in_shape (c_vshape e) cidx ->
             aget arr [row; c0 + row_major (c_vshape e) cidx; p] =
             match tlookup d (c_table e) with Some t => aget t (k :: cidx ++ [p]) | None => zero end) /\
          (forall c, c < nsum (map (fun e => nprod (c_vshape e)) els) ->
             ~ (c0 <= c < c0 + nprod (c_vshape e)) -> aget arr [row; c; p] = zero).
  Proof.
    intros Hw. unfold mixed_tabulate.
    destruct (mixed_elements_ok (nsum (map c_dim els)) (nsum (map (fun e => nprod (c_vshape e)) els)) npts els 0 0 [])
      as (out & E & S & HK & A & B); auto; try lia.
    { intros d a H; discriminate. }
    exists out. split; [exact E|]. split.
    { intros d. rewrite HK. simpl. split; [intros [H|H]; [congruence|auto]|auto]. }
    intros d arr Harr. split; [eapply S; eauto|]. intros i e k p He Hk Hp.
    set (row := block_start (map c_dim els) i + k).
    set (c0 := block_start (map (fun e => nprod (c_vshape e)) els) i).
    assert (G : forall idx, aget arr idx = oget out d idx) by (intros; unfold oget; rewrite Harr; auto).
    split.
    - intros cidx Hc. rewrite G. rewrite <- row_major_ravel by (apply in_shape_length; auto).
      pose proof (B d i e k cidx p He Hk Hc Hp) as H. simpl in H. unfold row, c0. rewrite H.
      unfold oget; simpl. reflexivity.
    - intros c Hc Hnot. rewrite G.
      pose proof (block_fits _ _ _ (nth_error_map_some c_dim els i e He)) as Hfit.
      rewrite A; [reflexivity|unfold row; lia|auto|auto|].
      intros j e' He' [H1 H2]. simpl in H1, H2.
      assert (j = i).
      { apply (block_disjoint (map c_dim els) j i (c_dim e') (c_dim e) row); auto using nth_error_map_some.
        unfold row; lia. }
      subst j. assert (e' = e) by congruence. subst e'. apply Hnot. unfold c0. lia.
  Qed.

  (** ** enriched *)
  Definition eshape (D nc npts : nat) : list nat := if Nat.eqb nc 1 then [D; npts] else [D; nc; npts].
  (** table shape for which numpy assignment is exact: scalars or vectors *)
  Definition esrc (vs : list nat) : Prop := vs = [] \/ exists n, vs = [n] /\ n <> 1.

  Lemma eshape_src D vs npts : esrc vs -> eshape D (nprod vs) npts = D :: vs ++ [npts].
  Proof.
    intros [->|(n & -> & Hn)]; unfold eshape; simpl; auto.
    rewrite Nat.mul_1_r. destruct (Nat.eqb_spec n 1); [congruence|reflexivity].
  Qed.

  Lemma enriched_keys_ok D rest i0 n : i0 + n <= D ->
    forall (tab : table) out,
    NoDup (map fst tab) -> (forall d t, In (d, t) tab -> ashape t = n :: rest) ->
    shaped (D :: rest) out ->
    exists out', enriched_keys zero (D :: rest) i0 (i0 + n) tab out = Ok out' /\
      shaped (D :: rest) out' /\
      (forall d, tlookup d out' <> None <-> tlookup d out <> None \/ tlookup d tab <> None) /\
      (forall d r idx, r < D -> in_shape rest idx -> ~ (i0 <= r < i0 + n) -> oget out' d (r :: idx) = oget out d (r :: idx)) /\
      (forall d k idx, k < n -> in_shape rest idx ->
         oget out' d (i0 + k :: idx) =
         match tlookup d tab with Some t => aget t (k :: idx) | None => oget out d (i0 + k :: idx) end).
  Proof.
    intros HD tab. induction tab as [|[d0 t] tab IH]; intros out ND Hsh Hout.
    - simpl. exists out. split; [reflexivity|]. split; auto. split; [|split]; intros; auto.
      split; auto. intros [H|H]; auto.
    - cbn [enriched_keys]. inversion ND as [|? ? Hni ND']; subst.
      set (arr := match tlookup d0 out with Some a => a | None => zeros zero (D :: rest) end).
      assert (Sarr : ashape arr = D :: rest) by (apply shaped_arr; auto).
      destruct (assign_slice_same arr [(i0, i0 + n)] t) as (a' & Ea & Sa & Ga).
      { rewrite Sarr. rewrite (Hsh d0 t) by (simpl; auto). cbn [slice_shape].
        replace (i0 + n - i0) with n by lia. reflexivity. }
      rewrite Ea.
      destruct (IH (tset d0 a' out)) as (out' & E' & S' & K' & G1' & G2'); auto.
      { intros d' t0 Hin. eapply Hsh; simpl; eauto. }
      { intros d a. rewrite tlookup_tset. destruct (keq d d0); [|apply Hout]. intros H; inversion H; subst. congruence. }
      exists out'. split; [exact E'|]. split; [exact S'|]. split; [|split].
      + intros d. rewrite K', tlookup_tset. cbn [tlookup]. destruct (keq d d0); [|tauto].
        split; intros; [right; discriminate|left; discriminate].
      + intros d r idx Hr Hi Hnot. rewrite G1' by auto. unfold oget. rewrite tlookup_tset.
        destruct (keq d d0) eqn:E; auto. apply keq_eq in E; subst d.
        rewrite Ga by (rewrite Sarr; constructor; auto).
        destruct (in_ranges _ _) eqn:Er.
        * exfalso. apply Hnot. cbn [in_ranges] in Er. rewrite !andb_true_iff, !Nat.leb_le, !Nat.ltb_lt in Er. tauto.
        * unfold arr. rewrite oget_arr. reflexivity.
      + intros d k idx Hk Hi. rewrite G2' by auto. cbn [tlookup].
        destruct (keq d d0) eqn:E.
        * apply keq_eq in E; subst d0.
          rewrite (proj2 (tlookup_none d tab)) by auto. unfold oget. rewrite tlookup_tset, keq_refl.
          rewrite Ga by (rewrite Sarr; constructor; [lia|auto]).
          assert (Er : in_ranges [(i0, i0 + n)] (i0 + k :: idx) = true).
          { cbn [in_ranges]. rewrite !andb_true_iff, !Nat.leb_le, !Nat.ltb_lt. repeat split; lia. }
          rewrite Er. cbn [shift_idx]. replace (i0 + k - i0) with k by lia. reflexivity.
        * destruct (tlookup d tab); auto. unfold oget. rewrite tlookup_tset, E. reflexivity.
  Qed.

  Lemma enriched_elements_ok D rest : forall els i0 out,
    Forall (fun e => NoDup (map fst (c_table e)) /\
                     forall d t, In (d, t) (c_table e) -> ashape t = c_dim e :: rest) els ->
    i0 + nsum (map c_dim els) <= D ->
    shaped (D :: rest) out ->
    exists out', enriched_elements zero (D :: rest) i0 els out = Ok out' /\
      shaped (D :: rest) out' /\
      (forall d, tlookup d out' <> None <-> tlookup d out <> None \/ exists e, In e els /\ tlookup d (c_table e) <> None) /\
      (forall d r idx, r < i0 -> in_shape rest idx -> oget out' d (r :: idx) = oget out d (r :: idx)) /\
      (forall d i e k idx, nth_error els i = Some e -> k < c_dim e -> in_shape rest idx ->
         let row := i0 + block_start (map c_dim els) i + k in
         oget out' d (row :: idx) =
         match tlookup d (c_table e) with Some t => aget t (k :: idx) | None => oget out d (row :: idx) end).
  Proof.
    induction els as [|e els IH]; intros i0 out Hw HD Hout.
    - simpl. exists out. split; [reflexivity|]. split; auto. split; [|split]; intros; auto.
      + split; auto. intros [H|(e & [] & _)]; auto.
      + exfalso. match goal with H : nth_error [] ?i = Some _ |- _ => destruct i; simpl in H; discriminate H end.
    - cbn [enriched_elements map nsum fold_right] in *. inversion Hw as [|? ? (W3 & W4) Hw']; subst.
      fold (nsum (map c_dim els)) in HD.
      destruct (enriched_keys_ok D rest i0 (c_dim e)) with (tab := c_table e) (out := out)
        as (out1 & E1 & S1 & K1 & A1 & B1); auto; try lia.
      rewrite E1.
      destruct (IH (i0 + c_dim e) out1) as (out' & E' & S' & K' & A' & B'); auto; try lia.
      exists out'. split; [exact E'|]. split; [exact S'|]. split; [|split].
      + intros d. rewrite K', K1. split.
        * intros [[H|H]|(e' & H1 & H2)]; auto; right; [exists e; simpl; auto|exists e'; simpl; auto].
        * intros [H|(e' & [->|H1] & H2)]; eauto.
      + intros d r idx Hr Hi. rewrite A' by (auto; lia). apply A1; auto; lia.
      + intros d i e' k idx He' Hk Hi. destruct i as [|i].
        * simpl in He'. inversion He'; subst e'. unfold block_start. simpl. rewrite !Nat.add_0_r.
          rewrite A' by (auto; lia). apply B1; auto.
        * simpl in He'. rewrite block_start_cons, !Nat.add_assoc.
          rewrite (B' d i e' k idx) by auto. destruct (tlookup d (c_table e')); auto.
          pose proof (block_fits _ _ _ (nth_error_map_some c_dim els i e' He')) as Hfit.
          apply A1; auto; lia.
  Qed.

  Lemma enriched_tabulate_spec els vs npts : esrc vs ->
    Forall (fun e => c_vshape e = vs) els -> Forall (well_shaped npts) els ->
    exists out, enriched_tabulate zero els vs npts = Ok out /\
      (forall d, tlookup d out <> None <-> exists e, In e els /\ tlookup d (c_table e) <> None) /\
      forall d arr, tlookup d out = Some arr ->
        ashape arr = nsum (map c_dim els) :: vs ++ [npts] /\
        forall i e k idx, nth_error els i = Some e -> k < c_dim e -> in_shape (vs ++ [npts]) idx ->
          aget arr (block_start (map c_dim els) i + k :: idx) =
          match tlookup d (c_table e) with Some t => aget t (k :: idx) | None => zero end.
  Proof.
    intros Hs Hv Hw. unfold enriched_tabulate. pose proof (eshape_src (nsum (map c_dim els)) vs npts Hs) as He.
    unfold eshape in He. rewrite He.
    destruct (enriched_elements_ok (nsum (map c_dim els)) (vs ++ [npts]) els 0 []) as (out & E & S & HK & A & B); try lia.
    { clear -Hv Hw. induction Hw as [|e els (W1 & W2 & W3 & W4) Hw IH]; constructor; inversion Hv; subst; auto. }
    { intros d a H; discriminate. }
    exists out. split; [exact E|]. split.
    { intros d. rewrite HK. simpl. split; [intros [H|H]; [congruence|auto]|auto]. }
    intros d arr Harr. split; [eapply S; eauto|]. intros i e k idx Hi Hk Hidx.
    pose proof (B d i e k idx Hi Hk Hidx) as H. simpl in H. unfold oget in H at 1. rewrite Harr in H. rewrite H.
    unfold oget. simpl. reflexivity.
  Qed.
End Tab.
