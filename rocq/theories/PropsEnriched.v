(** C09: [EnrichedElement.tabulate] for every value shape.  Together with
    C09_enriched_tabulation_stacks (scalars and vectors of length other than one)
    the three theorems cover every list of constituents. *)
From Verif Require Import Base ModelIndex ModelCell ModelArray ModelConcat SpecCell SpecCart SpecConcat
  ProofsCell ProofsCart ProofsArray ProofsConcat ProofsEnriched PropsConcat.

(** ** specification *)
(** scalar, or vector valued with two or more components *)
Definition scalar_or_vector (vs : list nat) : Prop := vs = [] \/ exists n, vs = [n] /\ n <> 1.
(** (1, ..., 1, k) *)
Definition ones_then (m k : nat) : list nat := repeat 1 m ++ [k].

Section Proofs.
  Context {K : Type} (zero : K).
  Notation table := (list (list nat * array K)).

  Lemma strip_ones_inv n : forall s s', strip_ones n s = Some s' -> s = repeat 1 n ++ s'.
  Proof.
    induction n as [|n IH]; intros s s'; [cbn; congruence|]. destruct s as [|[|[|a]] s]; cbn; try discriminate.
    intros H. f_equal. now apply IH.
  Qed.
  Lemma strip_ones_repeat n : forall s, strip_ones n (repeat 1 n ++ s) = Some s.
  Proof. induction n as [|n IH]; intros s; [reflexivity|]. cbn. apply IH. Qed.
  Lemma nprod_one vs : nprod vs = 1 -> vs = repeat 1 (length vs).
  Proof.
    induction vs as [|a vs IH]; cbn; auto. fold (nprod vs). intros H. apply Nat.eq_mul_1 in H as (-> & H). f_equal. auto.
  Qed.
  Lemma repeat_snoc m : repeat 1 (S m) = repeat 1 m ++ [1].
  Proof. induction m as [|m IH]; [reflexivity|]. cbn in *. now rewrite <- IH. Qed.

  (** which tables numpy accepts *)
  Definition tail_shape (vs : list nat) (npts : nat) : list nat := if Nat.eqb (nprod vs) 1 then [npts] else [nprod vs; npts].
  Lemma fits vs npts n (t b : array K) : ashape t = n :: vs ++ [npts] -> 0 < nprod vs ->
    broadcast t (n :: tail_shape vs npts) = Ok b -> scalar_or_vector vs \/ (n = 1 /\ exists m k, vs = ones_then m k).
  Proof.
    intros E Hp. unfold broadcast, tail_shape, bcast_shape. rewrite E.
    destruct vs as [|v0 vs']; [left; now left|]. remember (v0 :: vs') as vs eqn:Evs.
    assert (HL : length vs = S (length vs')) by now subst.
    assert (Hl : length (n :: vs ++ [npts]) = 2 + length vs) by (cbn; rewrite app_length; cbn; lia).
    destruct (Nat.eqb_spec (nprod vs) 1) as [H1|H1].
    - intros H. right. apply nprod_one in H1.
      replace (length (n :: vs ++ [npts]) - length [n; npts]) with (length vs) in H by (rewrite Hl; cbn; lia).
      rewrite HL in H. cbn [strip_ones] in H. destruct n as [|[|n]]; try discriminate. split; [reflexivity|].
      exists (length vs'), 1. rewrite H1, HL. apply repeat_snoc.
    - intros H. destruct vs' as [|v1 vs'']; [left; right; exists v0; split; [exact Evs|]; subst; cbn in H1; lia|].
      right. replace (length (n :: vs ++ [npts]) - length [n; nprod vs; npts]) with (S (length vs'')) in H by (rewrite Hl, HL; cbn; lia).
      cbn [strip_ones] in H. destruct n as [|[|n]]; try discriminate.
      destruct (strip_ones (length vs'') (vs ++ [npts])) as [s|] eqn:Es; [|discriminate]. apply strip_ones_inv in Es.
      assert (Ls : length s = 3). { apply (f_equal (@length nat)) in Es. rewrite !app_length, repeat_length, HL in Es. cbn in Es. lia. }
      destruct s as [|a [|b0 [|c [|? ?]]]]; cbn in Ls; try lia. split; [reflexivity|].
      assert (Ev : vs = repeat 1 (length vs'') ++ [a; b0]).
      { apply (app_inj_tail vs (repeat 1 (length vs'') ++ [a; b0]) npts c). rewrite Es, <- app_assoc. reflexivity. }
      cbn [length Nat.sub repeat app] in H. unfold bcast_ok in H. cbn [combine forallb] in H.
      destruct (Nat.eqb_spec a 1) as [->|]; cbn [orb andb] in H; [|discriminate].
      exists (S (length vs'')), b0. unfold ones_then. rewrite repeat_snoc, <- app_assoc. exact Ev.
  Qed.

  Lemma broadcast_err (t : array K) tgt e : broadcast t tgt = Err e -> e = ValueError.
  Proof. unfold broadcast. destruct (bcast_shape _ _); [|congruence]. destruct (bcast_ok _ _); congruence. Qed.
  Lemma keys_err shape i0 i1 : forall (tab : table) out e, enriched_keys zero shape i0 i1 tab out = Err e -> e = ValueError.
  Proof.
    induction tab as [|[d t] tab IH]; intros out e; cbn [enriched_keys]; [discriminate|].
    unfold assign_slice at 1. destruct (broadcast _ _) eqn:B; [apply IH|]. intros [= <-]. eapply broadcast_err; eauto.
  Qed.
  Lemma elements_err shape : forall els i0 out e, enriched_elements zero shape i0 els out = Err e -> e = ValueError.
  Proof.
    induction els as [|x els IH]; intros i0 out e; cbn [enriched_elements]; [discriminate|].
    destruct (enriched_keys _ _ _ _ _ _) eqn:E; [apply IH|]. intros [= <-]. eapply keys_err; eauto.
  Qed.
  Lemma keys_inv D rest i0 i1 : forall (tab : table) out out', shaped (D :: rest) out ->
    enriched_keys zero (D :: rest) i0 i1 tab out = Ok out' ->
    shaped (D :: rest) out' /\ forall d t, In (d, t) tab -> exists b, broadcast t (i1 - i0 :: rest) = Ok b.
  Proof.
    induction tab as [|[d0 t0] tab IH]; intros out out' Hs; cbn [enriched_keys].
    - intros [= <-]. split; [exact Hs|]. intros d t [].
    - set (arr := match tlookup d0 out with Some a => a | None => _ end).
      assert (Sa : ashape arr = D :: rest) by (apply shaped_arr; auto).
      unfold assign_slice at 1. rewrite Sa. cbn [slice_shape].
      destruct (broadcast t0 (i1 - i0 :: rest)) as [b|] eqn:B; [|discriminate]. intros H. apply IH in H as (H1 & H2).
      + split; [exact H1|]. intros d t [[= <- <-]|Hin]; [eauto|eapply H2; eauto].
      + intros d a. rewrite tlookup_tset. destruct (keq d d0); [|apply Hs]. intros [= <-]. reflexivity.
  Qed.
  Lemma elements_inv D rest : forall els i0 out out', shaped (D :: rest) out ->
    enriched_elements zero (D :: rest) i0 els out = Ok out' ->
    forall e d t, In e els -> In (d, t) (c_table e) -> exists b, broadcast t (c_dim e :: rest) = Ok b.
  Proof.
    induction els as [|x els IH]; intros i0 out out' Hs; cbn [enriched_elements]; [intros _ e d t []|].
    destruct (enriched_keys _ _ _ _ _ _) as [out1|] eqn:E; [|discriminate]. apply keys_inv in E as (S1 & B1); [|exact Hs].
    intros H e d t [<-|Hin] Ht.
    - destruct (B1 d t Ht) as (b & Hb). exists b. replace (i0 + c_dim x - i0) with (c_dim x) in Hb by lia. exact Hb.
    - eapply IH; eauto.
  Qed.

  (** the degenerate shapes that do fit *)
  Definition gdeg (m : nat) (vs : list nat) (t : array K) (idx : list nat) : K :=
    aget t (repeat 0 (if Nat.eqb (nprod vs) 1 then length vs else m) ++ idx).
  Lemma lands_deg vs m k npts D i0 (t : array K) : vs = ones_then m k -> ashape t = 1 :: vs ++ [npts] ->
    lands (gdeg m vs) D (tail_shape vs npts) i0 1 t.
  Proof.
    intros Ev E arr Ea. unfold assign_slice, broadcast. rewrite Ea. cbn [slice_shape].
    replace (i0 + 1 - i0) with 1 by lia. unfold tail_shape, gdeg in *. unfold bcast_shape.
    assert (HL : length vs = S m) by (subst vs; unfold ones_then; rewrite app_length, repeat_length; cbn; lia).
    assert (Hl : length (ashape t) = 3 + m) by (rewrite E; cbn; rewrite app_length, HL; cbn; lia).
    assert (Hk : nprod vs = k). { subst vs. unfold ones_then. clear. unfold nprod. induction m as [|m IH]; cbn [repeat app fold_right] in *; lia. }
    destruct (Nat.eqb_spec (nprod vs) 1) as [H1|H1].
    - rewrite Hl. replace (3 + m - length [1; npts]) with (S m) by (cbn; lia).
      assert (Es : ashape t = repeat 1 (S m) ++ [1; npts]).
      { rewrite E, Ev. unfold ones_then. rewrite <- Hk, H1, <- repeat_snoc.
        replace [1; npts] with ([1] ++ [npts]) by reflexivity. rewrite app_assoc, <- repeat_snoc. reflexivity. }
      rewrite (f_equal (strip_ones (S m)) Es), strip_ones_repeat.
      unfold bcast_ok. cbn [length Nat.sub repeat app combine forallb Nat.eqb orb andb]. rewrite Nat.eqb_refl. cbn [orb andb].
      eexists. split; [reflexivity|]. split; [reflexivity|]. intros idx Hi. cbn [aget]. destruct (in_ranges _ idx) eqn:R; [|reflexivity].
      inversion Hi as [|? r ? [|p [|? ?]] Hr Hi']; subst; try (inversion Hi'; fail); [|inversion Hi' as [|? ? ? ? _ Hx]; inversion Hx].
      inversion Hi' as [|? ? ? ? Hp _]; subst. cbn [shift_idx in_ranges] in *. rewrite HL.
      cbn [length Nat.add Nat.sub skipn].
      unfold bcast_idx. cbn [combine map Nat.eqb]. apply andb_true_iff in R as (R & _).
      apply andb_true_iff in R as (R1 & R2). apply Nat.leb_le in R1. apply Nat.ltb_lt in R2. 
      replace (r - i0) with 0 by lia. cbn [repeat]. destruct (Nat.eqb_spec npts 1); [|reflexivity]. replace p with 0 by lia. reflexivity.
    - rewrite Hl. replace (3 + m - length [1; nprod vs; npts]) with m by (cbn; lia).
      assert (Es : ashape t = repeat 1 m ++ [1; nprod vs; npts]).
      { rewrite E, Ev at 1. unfold ones_then. rewrite <- Hk at 1. clear.
        replace [1; nprod vs; npts] with ([1] ++ ([nprod vs] ++ [npts])) by reflexivity.
        rewrite (app_assoc (repeat 1 m) [1]), <- repeat_snoc. cbn [repeat app]. now rewrite <- app_assoc. }
      rewrite (f_equal (strip_ones m) Es), strip_ones_repeat.
      unfold bcast_ok. cbn [length Nat.sub repeat app combine forallb Nat.eqb orb andb]. rewrite !Nat.eqb_refl. cbn [orb andb].
      eexists. split; [reflexivity|]. split; [reflexivity|]. intros idx Hi. cbn [aget]. destruct (in_ranges _ idx) eqn:R; [|reflexivity].
      inversion Hi as [|? r ? idx1 Hr Hi']; subst idx. inversion Hi' as [|? c ? idx2 Hc Hi'']; subst idx1.
      inversion Hi'' as [|? p ? idx3 Hp Hi3]; subst idx2. inversion Hi3; subst idx3. cbn [shift_idx in_ranges] in *.
      cbn [length Nat.add Nat.sub skipn].
      unfold bcast_idx. cbn [combine map]. change (Nat.eqb 1 1) with true. cbn iota. apply andb_true_iff in R as (R & _).
      apply andb_true_iff in R as (R1 & R2). apply Nat.leb_le in R1. apply Nat.ltb_lt in R2. 
      replace (r - i0) with 0 by lia.
      destruct (Nat.eqb_spec (nprod vs) 1); [contradiction|].
      destruct (Nat.eqb_spec npts 1); [|reflexivity]. replace p with 0 by lia. reflexivity.
  Qed.
End Proofs.

(** ** C09, refusals.  Any other value shape is refused with ValueError as soon
    as a constituent to be tabulated has two basis functions, or the shape is not
    (1, ..., 1, k). *)
Theorem C09_other_shapes_refused :
  forall (K : Type) (zero : K) (els : list (@constituent K)) (vs : list nat) (npts : nat),
    ~ scalar_or_vector vs ->
    Forall (fun e => c_vshape e = vs) els -> Forall (well_shaped npts) els ->
    (exists e, In e els /\ c_table e <> [] /\ (2 <= c_dim e \/ forall m k, vs <> ones_then m k)) ->
    enriched_tabulate zero els vs npts = Err ValueError.
Proof.
  intros K zero els vs npts Hn Hv Hw (e & He & Ht & Hd).
  destruct (enriched_tabulate zero els vs npts) as [out|x] eqn:E; unfold enriched_tabulate in E.
  - exfalso. destruct (c_table e) as [|[d t] tab] eqn:Et; [congruence|]. rewrite Forall_forall in Hv, Hw.
    pose proof (Hv e He) as Ev. destruct (Hw e He) as (W1 & W2 & W3 & W4).
    assert (F : exists b, broadcast t (c_dim e :: tail_shape vs npts) = Ok b).
    { unfold tail_shape. destruct (Nat.eqb (nprod vs) 1);
      (eapply (elements_inv zero); [|exact E|exact He|rewrite Et; now left]); intros ? ? H; discriminate H. }
    destruct F as (b & Hb). rewrite Ev in W2.
    apply fits in Hb; [|rewrite <- Ev; apply (W4 d); rewrite Et; now left|exact W2].
    destruct Hb as [Hb|(H1 & m & k & Hmk)]; [contradiction|]. destruct Hd as [Hd|Hd]; [lia|eapply Hd; eauto].
  - f_equal. destruct (Nat.eqb (nprod vs) 1); eapply elements_err; eauto.
Qed.
Print Assumptions C09_other_shapes_refused.

(** ** C09, the remaining case: value shape (1, ..., 1, k) and one basis function
    per constituent.  The rows are stacked, but the value axes are flattened to one
    of extent k, and dropped when k = 1. *)
Theorem C09_singleton_constituents :
  forall (K : Type) (zero : K) (els : list (@constituent K)) (m k npts : nat),
    Forall (fun e => c_vshape e = ones_then m k) els -> Forall (well_shaped npts) els ->
    Forall (fun e => c_table e <> [] -> c_dim e = 1) els ->
    exists out, enriched_tabulate zero els (ones_then m k) npts = Ok out /\
      (forall d, tlookup d out <> None <-> exists e, In e els /\ tlookup d (c_table e) <> None) /\
      forall d arr, tlookup d out = Some arr ->
        ashape arr = (if Nat.eqb k 1 then [nsum (map c_dim els); npts] else [nsum (map c_dim els); k; npts]) /\
        forall i e c p, nth_error els i = Some e -> c_table e <> [] -> c < k -> p < npts ->
          aget arr (block_start (map c_dim els) i :: (if Nat.eqb k 1 then [p] else [c; p])) =
          match tlookup d (c_table e) with Some t => aget t (repeat 0 (S m) ++ [c; p]) | None => zero end.
Proof.
  intros K zero els m k npts Hv Hw H1. set (vs := ones_then m k).
  assert (Hk : nprod vs = k). { unfold vs, ones_then. clear. unfold nprod. induction m as [|m IH]; cbn [repeat app fold_right] in *; lia. }
  assert (Hz : repeat 0 (S m) = repeat 0 m ++ [0]). { clear. induction m as [|m IH]; [reflexivity|]. cbn in *. now rewrite <- IH. }
  assert (HL : length vs = S m) by (unfold vs, ones_then; rewrite app_length, repeat_length; cbn; lia).
  destruct (genr_elements_ok zero (gdeg m vs) (nsum (map c_dim els)) (tail_shape vs npts) els 0 []) as (out & E & S & HK & A & B); try lia.
  { rewrite Forall_forall in *. intros e He. destruct (Hw e He) as (W1 & W2 & W3 & W4). split; [exact W3|].
    intros d t i0 Hin. assert (D1 : c_dim e = 1) by (apply (H1 e He); intros C; rewrite C in Hin; destruct Hin).
    pose proof (W4 d t Hin) as Hs. rewrite (Hv e He) in Hs. rewrite D1 in *. eapply lands_deg; [reflexivity|exact Hs]. }
  { intros d a H; discriminate. }
  exists out. unfold enriched_tabulate. split.
  { rewrite <- E. unfold tail_shape. fold vs. destruct (Nat.eqb (nprod vs) 1); reflexivity. }
  split. { intros d. rewrite HK. simpl. split; [intros [H|H]; [congruence|auto]|auto]. }
  intros d arr Harr. split.
  { rewrite (S d arr Harr). unfold tail_shape. rewrite Hk. destruct (Nat.eqb k 1); reflexivity. }
  intros i e c p Hi Hne Hc Hp.
  assert (D1 : c_dim e = 1) by (rewrite Forall_forall in H1; apply (H1 e); [eapply nth_error_In; eauto|exact Hne]).
  pose proof (B d i e 0 (if Nat.eqb k 1 then [p] else [c; p]) Hi ltac:(lia)) as H.
  cbn zeta in H. rewrite Nat.add_0_r in H. cbn [Nat.add] in H. unfold oget in H at 1. rewrite Harr in H.
  rewrite H; clear H.
  - unfold oget. cbn [tlookup]. destruct (tlookup d (c_table e)); [|reflexivity]. unfold gdeg. rewrite Hk.
    destruct (Nat.eqb_spec k 1) as [->|].
    + assert (c = 0) as -> by lia. rewrite HL. reflexivity.
    + rewrite Hz, <- app_assoc. reflexivity.
  - unfold tail_shape. rewrite Hk. destruct (Nat.eqb k 1); repeat constructor; auto.
Qed.
Print Assumptions C09_singleton_constituents.

(** 2 x 2 tensors are refused; two functions of value shape (1, 3) are stacked *)
Example C09_shapes_nonvacuous :
  enriched_tabulate 0 [tabc 2 [2; 2] 2 100; tabc 1 [2; 2] 2 200] [2; 2] 2 = Err ValueError /\
  Forall (well_shaped 2) [tabc 1 [1; 3] 2 100; tabc 1 [1; 3] 2 200] /\
  match enriched_tabulate 0 [tabc 1 [1; 3] 2 100; tabc 1 [1; 3] 2 200] [1; 3] 2 with
  | Ok [([0; 0], a)] => ashape a = [2; 3; 2] /\ map (aget a) [[0; 1; 0]; [1; 2; 1]] = [102; 205]
  | _ => False
  end.
Proof. split; [reflexivity|]. split; [repeat constructor; try apply tabc_ok; simpl; lia || (intros; auto)|]. split; reflexivity. Qed.
