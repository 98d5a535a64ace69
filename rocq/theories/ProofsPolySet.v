From Coq Require Import Sorted Permutation.
From Verif Require Import Base ModelIndex SpecIndex ProofsIndex ModelPolySet.

(** Writes produced by a list of turns, numbered from [c]. *)
Fixpoint numbered (c : nat) (turns : list (list (list nat) * nat)) : list write :=
  match turns with
  | [] => []
  | (ts, e) :: rest => map (fun t => (c, t, e)) ts ++ numbered (S c) rest
  end.

Lemma numbered_app c t1 t2 : numbered c (t1 ++ t2) = numbered c t1 ++ numbered (c + length t1) t2.
Proof.
  revert c; induction t1 as [|[ts e] t1 IH]; intros c; simpl.
  - rewrite Nat.add_0_r; reflexivity.
  - rewrite IH, app_assoc. do 2 f_equal. lia.
Qed.

Lemma inner_loop_numbered n ts c ws :
  inner_loop n ts (c, ws) = (c + n, ws ++ numbered c (map (fun e => (ts, e)) (range 0 n))).
Proof.
  unfold inner_loop. assert (G : forall l c ws,
    fold_left (fun (st : nat * list write) exp_bf =>
               let '(cur_bf, ws) := st in
               (S cur_bf, ws ++ map (fun t => (cur_bf, t, exp_bf)) ts)) l (c, ws)
    = (c + length l, ws ++ numbered c (map (fun e => (ts, e)) l))).
  { induction l as [|e l IH]; intros c' ws'; simpl.
    - rewrite Nat.add_0_r, app_nil_r; reflexivity.
    - rewrite IH, app_assoc. f_equal. lia. }
  rewrite G, length_range. f_equal. lia.
Qed.

Lemma in_numbered turns : forall c b t e,
  In (b, t, e) (numbered c turns) <->
  exists ts, nth_error turns (b - c) = Some (ts, e) /\ c <= b /\ In t ts.
Proof.
  induction turns as [|[ts0 e0] turns IH]; intros c b t e; simpl.
  - split; [intros []|]. intros (ts & H & _). destruct (b - c); discriminate.
  - rewrite in_app_iff, in_map_iff, IH. split.
    + intros [(t' & E & Ht)|(ts & H1 & H2 & H3)].
      * inversion E; subst. exists ts0. rewrite Nat.sub_diag. repeat split; auto.
      * exists ts. replace (b - c) with (S (b - S c)) by lia. simpl. repeat split; auto; lia.
    + intros (ts & H1 & H2 & H3). destruct (b - c) as [|k] eqn:E.
      * simpl in H1. inversion H1; subst. left. exists t. split; auto. f_equal. f_equal. lia.
      * right. exists ts. simpl in H1. replace (b - S c) with k by lia. repeat split; auto; lia.
Qed.

Lemma coeff_true L b idx e : coeff L b idx e = true <-> In (b, idx, e) (snd L).
Proof.
  unfold coeff. rewrite existsb_exists. split.
  - intros ([[b' i'] e'] & Hin & H). simpl in H.
    apply andb_true_iff in H as [H H3]. apply andb_true_iff in H as [H1 H2].
    apply Nat.eqb_eq in H1, H3. unfold eqb_list in H2. destruct list_eq_dec; subst; auto. discriminate.
  - intros H. exists (b, idx, e). split; auto. simpl. rewrite !Nat.eqb_refl. unfold eqb_list.
    destruct list_eq_dec; auto.
Qed.

(** ON sets *)
Definition on_turns (shape : list nat) (n : nat) : list (list (list nat) * nat) :=
  flat_map (fun idx => map (fun e => ([idx], e)) (range 0 n)) (index_iterator shape).

Lemma on_fold n l c ws :
  fold_left (fun st idx => inner_loop n [idx] st) l (c, ws)
  = (c + length l * n,
     ws ++ numbered c (flat_map (fun idx => map (fun e => ([idx], e)) (range 0 n)) l)).
Proof.
  revert c ws; induction l as [|i l IH]; intros c ws; cbn [fold_left length Nat.mul flat_map].
  - rewrite Nat.add_0_r. simpl. rewrite app_nil_r. reflexivity.
  - rewrite inner_loop_numbered, IH, numbered_app, map_length, length_range, Nat.sub_0_r, app_assoc.
    f_equal. lia.
Qed.

Lemma nth_error_blocks {A B} (l : list A) (f : A -> nat -> B) n b y :
  nth_error (flat_map (fun i => map (f i) (range 0 n)) l) b = Some y <->
  exists k i e, nth_error l k = Some i /\ e < n /\ b = k * n + e /\ y = f i e.
Proof.
  revert b; induction l as [|i l IH]; intros b; cbn [flat_map].
  - split.
    + destruct b; discriminate.
    + intros (k & i & e & H & _). destruct k; discriminate.
  - destruct (Nat.lt_ge_cases b n) as [Hb|Hb].
    + rewrite nth_error_app1 by (rewrite map_length, length_range; lia).
      assert (E : nth_error (map (f i) (range 0 n)) b = Some (f i b)).
      { apply map_nth_error. unfold range. rewrite Nat.sub_0_r.
        rewrite (nth_error_nth' _ 0) by (rewrite seq_length; lia). rewrite seq_nth by lia. reflexivity. }
      rewrite E. split.
      * intros H; inversion H; subst. exists 0, i, b. simpl. auto.
      * intros (k & i' & e & H1 & H2 & H3 & ->). destruct k as [|k].
        -- simpl in H1. inversion H1; subst. simpl. reflexivity.
        -- simpl in H3. lia.
    + rewrite nth_error_app2 by (rewrite map_length, length_range; lia).
      rewrite map_length, length_range, Nat.sub_0_r, IH. split.
      * intros (k & i' & e & H1 & H2 & H3 & ->). exists (S k), i', e. simpl. repeat split; auto. lia.
      * intros (k & i' & e & H1 & H2 & H3 & ->). destruct k as [|k].
        -- simpl in H3. lia.
        -- exists k, i', e. simpl in H1, H3. repeat split; auto. lia.
Qed.

Lemma on_layout_spec shape n b idx e :
  coeff (on_layout shape n) b idx e = true <->
  exists k, nth_error (match shape with [] => [[]] | _ => index_iterator shape end) k = Some idx
            /\ e < n /\ b = k * n + e.
Proof.
  rewrite coeff_true. unfold on_layout. destruct shape as [|s shape].
  - unfold on_num_members. simpl. rewrite in_map_iff, Nat.add_0_r. split.
    + intros (i & E & Hi). inversion E; subst. apply in_range in Hi. exists 0. simpl. repeat split; auto; lia.
    + intros (k & H1 & H2 & H3). destruct k as [|[|k]]; simpl in *; try discriminate.
      inversion H1; subst. exists e. split; auto. apply in_range; lia.
  - rewrite on_fold. simpl snd. rewrite in_numbered, Nat.sub_0_r. split.
    + intros (ts & H1 & _ & H3).
      apply (nth_error_blocks _ (fun i e => ([i], e))) in H1 as (k & i & e' & H4 & H5 & H6 & H7).
      inversion H7; subst. destruct H3 as [<-|[]]. exists k; auto.
    + intros (k & H1 & H2 & H3). exists [idx]. split; [|split; [lia|simpl; auto]].
      apply (nth_error_blocks _ (fun i e => ([i], e))). exists k, idx, e. auto.
Qed.

Lemma on_layout_count shape n : fst (on_layout shape n) = on_num_members shape n.
Proof.
  unfold on_layout, on_num_members. destruct shape as [|s shape]; [reflexivity|].
  rewrite on_fold. cbn [fst]. rewrite index_iterator_length by congruence. lia.
Qed.

(** Every member has exactly one nonzero entry, every (component, expansion
    function) pair is the nonzero entry of exactly one member. *)
Definition comps (shape : list nat) := match shape with [] => [[]] | _ => index_iterator shape end.

Lemma comps_in shape idx : In idx (comps shape) <-> component_of shape idx.
Proof.
  destruct shape as [|s shape]; cbn [comps].
  - split; [intros [<-|[]]; constructor|]. intros H; inversion H; simpl; auto.
  - apply index_iterator_in; congruence.
Qed.

Lemma comps_NoDup shape : NoDup (comps shape).
Proof.
  destruct shape as [|s shape]; [repeat constructor; intros []|].
  apply increasing_NoDup, index_iterator_sorted.
Qed.

Lemma comps_length shape n : length (comps shape) * n = on_num_members shape n.
Proof.
  unfold on_num_members. destruct shape as [|s shape]; [reflexivity|].
  unfold comps. rewrite index_iterator_length by congruence. reflexivity.
Qed.

Lemma blk_unique k e k' e' n : e < n -> e' < n -> k * n + e = k' * n + e' -> k = k' /\ e = e'.
Proof. intros H H' E. assert (k = k') by nia. nia. Qed.

Lemma on_layout_entry_unique shape n idx e :
  component_of shape idx -> e < n ->
  exists b, b < on_num_members shape n /\ coeff (on_layout shape n) b idx e = true /\
            (forall b', coeff (on_layout shape n) b' idx e = true -> b' = b).
Proof.
  intros Hc He. apply comps_in in Hc. apply In_nth_error in Hc as (k & Hk).
  exists (k * n + e). split; [|split].
  - rewrite <- comps_length. assert (k < length (comps shape)) by (apply nth_error_Some; congruence). nia.
  - apply on_layout_spec. exists k; auto.
  - intros b' Hb. apply on_layout_spec in Hb as (k' & H1 & H2 & ->). f_equal. f_equal.
    pose proof (comps_NoDup shape) as ND. rewrite NoDup_nth_error in ND.
    apply ND; [apply nth_error_Some; unfold comps; congruence|]. unfold comps in *; congruence.
Qed.

Lemma on_layout_member_unique shape n b :
  b < on_num_members shape n ->
  exists idx e, component_of shape idx /\ e < n /\
    forall idx' e', coeff (on_layout shape n) b idx' e' = true <-> (idx' = idx /\ e' = e).
Proof.
  intros Hb. rewrite <- comps_length in Hb.
  assert (Hn : n <> 0) by (intros ->; lia).
  set (k := b / n). set (e := b mod n).
  assert (E : b = k * n + e) by (unfold k, e; rewrite (Nat.div_mod b n Hn) at 1; lia).
  assert (He : e < n) by (apply Nat.mod_upper_bound; auto).
  assert (Hk : k < length (comps shape)) by nia. clearbody k e.
  destruct (nth_error (comps shape) k) as [idx|] eqn:Hn'; [|apply nth_error_None in Hn'; lia].
  exists idx, e. split; [apply comps_in; eapply nth_error_In; eauto|]. split; auto.
  intros idx' e'. rewrite on_layout_spec. split.
  - intros (k' & H1 & H2 & H3). rewrite E in H3. apply blk_unique in H3; auto.
    destruct H3; subst. unfold comps in Hn'. split; congruence.
  - intros (-> & ->). exists k. auto.
Qed.

(** Symmetric tensors *)
Definition sym_targets (idx : list nat) : list (list (list nat)) :=
  match idx with
  | [i; j] => if Nat.eqb i j then [[[i; j]]]
              else if Nat.ltb i j then [[[i; j]; [j; i]]] else []
  | _ => []
  end.

Lemma sym_fold n l c ws :
  fold_left
    (fun st idx =>
       match idx with
       | [i; j] => if Nat.eqb i j then inner_loop n [[i; j]] st
                   else if Nat.ltb i j then inner_loop n [[i; j]; [j; i]] st
                   else st
       | _ => st
       end) l (c, ws)
  = (c + length (flat_map sym_targets l) * n,
     ws ++ numbered c (flat_map (fun ts => map (fun e => (ts, e)) (range 0 n)) (flat_map sym_targets l))).
Proof.
  revert c ws; induction l as [|idx l IH]; intros c ws; cbn [fold_left flat_map].
  - simpl. rewrite Nat.add_0_r, app_nil_r. reflexivity.
  - assert (T : forall ts c ws,
      fold_left
    (fun st idx =>
       match idx with
       | [i; j] => if Nat.eqb i j then inner_loop n [[i; j]] st
                   else if Nat.ltb i j then inner_loop n [[i; j]; [j; i]] st
                   else st
       | _ => st
       end) l (inner_loop n ts (c, ws)) =
      (c + length (ts :: flat_map sym_targets l) * n,
       ws ++ numbered c (flat_map (fun ts => map (fun e => (ts, e)) (range 0 n)) (ts :: flat_map sym_targets l)))).
    { intros ts c' ws'. rewrite inner_loop_numbered, IH. cbn [flat_map length Nat.mul].
      rewrite numbered_app, map_length, length_range, Nat.sub_0_r, app_assoc. f_equal. lia. }
    unfold sym_targets at 1 3. destruct idx as [|i [|j [|? ?]]]; try (rewrite IH; reflexivity).
    destruct (Nat.eqb i j); [rewrite T; reflexivity|].
    destruct (Nat.ltb i j); [rewrite T; reflexivity|]. rewrite IH. reflexivity.
Qed.

Definition sym_groups (size : nat) := flat_map sym_targets (index_iterator [size; size]).

Lemma sym_row size i : i < size ->
  flat_map sym_targets (map (fun foo => [i] ++ foo) (index_iterator [size]))
  = [[i; i]] :: map (fun j => [[i; j]; [j; i]]) (range (S i) size).
Proof.
  intros Hi. simpl. rewrite map_map.
  assert (R : range 0 size = range 0 i ++ [i] ++ range (S i) size).
  { unfold range. rewrite !Nat.sub_0_r. rewrite <- (Nat.sub_add i size) at 1 by lia.
    rewrite Nat.add_comm, seq_app. f_equal. simpl.
    replace (size - i) with (S (size - S i)) by lia. reflexivity. }
  rewrite R, !map_app, !flat_map_app. simpl.
  rewrite Nat.eqb_refl.
  assert (L : forall l, (forall x, In x l -> x < i) -> flat_map sym_targets (map (fun x => [i; x]) l) = []).
  { induction l as [|x l IHl]; intros H; [reflexivity|]. simpl.
    assert (x < i) by (apply H; simpl; auto).
    destruct (Nat.eqb_spec i x); [lia|]. destruct (Nat.ltb_spec i x); [lia|]. simpl.
    apply IHl. intros; apply H; simpl; auto. }
  rewrite L by (intros x Hx; apply in_range in Hx; lia). simpl. f_equal.
  assert (U : forall l, (forall x, In x l -> i < x) ->
    flat_map sym_targets (map (fun x => [i; x]) l) = map (fun j => [[i; j]; [j; i]]) l).
  { induction l as [|x l IHl]; intros H; [reflexivity|]. simpl.
    assert (i < x) by (apply H; simpl; auto).
    destruct (Nat.eqb_spec i x); [lia|]. destruct (Nat.ltb_spec i x); [|lia]. simpl. f_equal.
    apply IHl. intros; apply H; simpl; auto. }
  apply U. intros x Hx; apply in_range in Hx; lia.
Qed.

Lemma sym_groups_rows size :
  sym_groups size = flat_map (fun i => [[i; i]] :: map (fun j => [[i; j]; [j; i]]) (range (S i) size)) (range 0 size).
Proof.
  unfold sym_groups. rewrite index_iterator_cons2.
  assert (G : forall l, (forall x, In x l -> x < size) ->
    flat_map sym_targets (flat_map (fun i => map (fun foo => [i] ++ foo) (index_iterator [size])) l)
    = flat_map (fun i => [[i; i]] :: map (fun j => [[i; j]; [j; i]]) (range (S i) size)) l).
  { induction l as [|x l IH]; intros H; [reflexivity|]. cbn [flat_map].
    rewrite flat_map_app, sym_row by (apply H; simpl; auto). f_equal.
    apply IH. intros; apply H; simpl; auto. }
  apply G. intros x Hx; apply in_range in Hx; lia.
Qed.

Lemma sym_groups_length size : length (sym_groups size) = (size * (size + 1)) / 2.
Proof.
  rewrite sym_groups_rows, flat_map_length'.
  assert (G : forall k, k <= size ->
    nsum (map (fun x => length ([[x; x]] :: map (fun j => [[x; j]; [j; x]]) (range (S x) size))) (range (size - k) size)) * 2
    = k * (k + 1)).
  { induction k as [|k IH]; intros Hk.
    - rewrite Nat.sub_0_r, range_nil by lia. reflexivity.
    - rewrite range_S by lia. replace (S (size - S k)) with (size - k) by lia.
      cbn [map]. unfold nsum in *; cbn [fold_right]. rewrite Nat.mul_add_distr_r, IH by lia.
      simpl length. rewrite map_length, length_range. nia. }
  specialize (G size (le_n size)). rewrite Nat.sub_diag in G.
  apply Nat.div_unique_exact; [lia|]. rewrite <- G. apply Nat.mul_comm.
Qed.

Lemma sym_groups_in size ts : In ts (sym_groups size) <->
  exists i j, i <= j /\ j < size /\ ts = (if Nat.eqb i j then [[i; i]] else [[i; j]; [j; i]]).
Proof.
  rewrite sym_groups_rows, in_flat_map. split.
  - intros (i & Hi & [<-|H]); apply in_range in Hi.
    + exists i, i. rewrite Nat.eqb_refl. repeat split; lia.
    + apply in_map_iff in H as (j & <- & Hj). apply in_range in Hj. exists i, j.
      destruct (Nat.eqb_spec i j); [lia|]. repeat split; lia.
  - intros (i & j & H1 & H2 & ->). exists i. split; [apply in_range; lia|].
    destruct (Nat.eqb_spec i j); [left; reflexivity|right].
    apply in_map_iff. exists j. split; auto. apply in_range; lia.
Qed.

(** unordered pair label of a group *)
Definition glabel (ts : list (list nat)) : list nat := hd [] ts.

Lemma sym_groups_labels_sorted size : increasing lexlt (map glabel (sym_groups size)).
Proof.
  rewrite sym_groups_rows, flat_map_concat_map, concat_map, map_map, <- flat_map_concat_map.
  unfold increasing. apply (SSorted_flat_map lt); [apply SSorted_range| |].
  - intros i Hi. simpl. rewrite map_map. simpl. constructor.
    + apply (SSorted_map lt); [apply SSorted_range|]. intros; apply lexlt_tail, lexlt_head; auto.
    + apply Forall_forall. intros x Hx. apply in_map_iff in Hx as (j & <- & Hj). apply in_range in Hj.
      apply lexlt_tail, lexlt_head. lia.
  - intros x y u v Hx Hy Hxy Hu Hv. simpl in Hu, Hv. rewrite map_map in Hu, Hv. simpl in Hu, Hv.
    assert (Eu : exists j, u = [x; j]).
    { destruct Hu as [<-|Hu]; [eauto|]. apply in_map_iff in Hu as (j & <- & _); eauto. }
    assert (Ev : exists j, v = [y; j]).
    { destruct Hv as [<-|Hv]; [eauto|]. apply in_map_iff in Hv as (j & <- & _); eauto. }
    destruct Eu as (j & ->), Ev as (j' & ->). apply lexlt_head; auto.
Qed.

Lemma sym_layout_spec size n b idx e :
  coeff (sym_layout size n) b idx e = true <->
  exists k ts, nth_error (sym_groups size) k = Some ts /\ In idx ts /\ e < n /\ b = k * n + e.
Proof.
  rewrite coeff_true. unfold sym_layout. rewrite sym_fold. cbn [snd app].
  rewrite in_numbered, Nat.sub_0_r. fold (sym_groups size). split.
  - intros (ts & H1 & _ & H3).
    apply (nth_error_blocks _ (fun ts e => (ts, e))) in H1 as (k & i & e' & H4 & H5 & H6 & H7).
    inversion H7; subst. exists k, i; auto.
  - intros (k & ts & H1 & H2 & H3 & H4). exists ts. split; [|split; [lia|auto]].
    apply (nth_error_blocks _ (fun ts e => (ts, e))). exists k, ts, e. auto.
Qed.

Lemma sym_layout_count size n : fst (sym_layout size n) = sym_num_members size n.
Proof.
  unfold sym_layout, sym_num_members. rewrite sym_fold. cbn [fst]. fold (sym_groups size).
  rewrite sym_groups_length. lia.
Qed.

Lemma sym_layout_symmetric size n b i j e :
  coeff (sym_layout size n) b [i; j] e = coeff (sym_layout size n) b [j; i] e.
Proof.
  assert (H : forall i j, coeff (sym_layout size n) b [i; j] e = true ->
                          coeff (sym_layout size n) b [j; i] e = true).
  { clear i j. intros i j H. apply sym_layout_spec in H as (k & ts & H1 & H2 & H3 & H4).
    apply sym_layout_spec. exists k, ts. repeat split; auto.
    apply nth_error_In, sym_groups_in in H1 as (i0 & j0 & _ & _ & ->).
    destruct (Nat.eqb i0 j0); simpl in *.
    - destruct H2 as [E|[]]; inversion E; subst; auto.
    - destruct H2 as [E|[E|[]]]; inversion E; subst; auto. }
  destruct (coeff (sym_layout size n) b [i; j] e) eqn:E1,
           (coeff (sym_layout size n) b [j; i] e) eqn:E2; auto.
  - apply H in E1; congruence.
  - apply H in E2; congruence.
Qed.

Lemma sym_layout_entry_unique size n i j e :
  i < size -> j < size -> e < n ->
  exists b, b < sym_num_members size n /\ coeff (sym_layout size n) b [i; j] e = true /\
            (forall b', coeff (sym_layout size n) b' [i; j] e = true -> b' = b).
Proof.
  intros Hi Hj He.
  set (lo := Nat.min i j). set (hi := Nat.max i j).
  assert (Hin : In (if Nat.eqb lo hi then [[lo; lo]] else [[lo; hi]; [hi; lo]]) (sym_groups size)).
  { apply sym_groups_in. exists lo, hi. repeat split; lia. }
  apply In_nth_error in Hin as (k & Hk).
  assert (Hlab : forall ts, In ts (sym_groups size) -> In [i; j] ts -> glabel ts = [lo; hi]).
  { intros ts Hts Hm. apply sym_groups_in in Hts as (i0 & j0 & H1 & H2 & ->).
    destruct (Nat.eqb_spec i0 j0); simpl in *.
    - destruct Hm as [E|[]]; inversion E; subst. unfold lo, hi. do 2 f_equal; lia.
    - destruct Hm as [E|[E|[]]]; inversion E; subst; unfold lo, hi; repeat f_equal; lia. }
  exists (k * n + e). split; [|split].
  - unfold sym_num_members. rewrite <- sym_groups_length.
    assert (k < length (sym_groups size)) by (apply nth_error_Some; congruence). nia.
  - apply sym_layout_spec. eexists k, _. split; [exact Hk|]. split; [|auto].
    unfold lo, hi. destruct (Nat.eqb_spec (Nat.min i j) (Nat.max i j)).
    + left. repeat f_equal; lia.
    + destruct (Nat.le_gt_cases i j).
      * left. repeat f_equal; lia.
      * right; left. repeat f_equal; lia.
  - intros b' Hb. apply sym_layout_spec in Hb as (k' & ts & H1 & H2 & H3 & ->). do 2 f_equal.
    pose proof (increasing_NoDup _ (sym_groups_labels_sorted size)) as ND.
    rewrite NoDup_nth_error in ND. apply ND.
    + rewrite map_length. apply nth_error_Some; congruence.
    + rewrite (map_nth_error glabel _ _ H1), (map_nth_error glabel _ _ Hk). f_equal.
      rewrite (Hlab ts); [|eapply nth_error_In; eauto|auto].
      destruct (Nat.eqb_spec lo hi) as [E|E]; simpl; [rewrite <- E|]; reflexivity.
Qed.

Lemma sym_layout_member size n b :
  b < sym_num_members size n ->
  exists i j e, i <= j /\ j < size /\ e < n /\
    forall idx' e', coeff (sym_layout size n) b idx' e' = true <->
                    ((idx' = [i; j] \/ idx' = [j; i]) /\ e' = e).
Proof.
  unfold sym_num_members. rewrite <- sym_groups_length. intros Hb.
  assert (Hn : n <> 0) by (intros ->; lia).
  set (k := b / n). set (e := b mod n).
  assert (E : b = k * n + e) by (unfold k, e; rewrite (Nat.div_mod b n Hn) at 1; lia).
  assert (He : e < n) by (apply Nat.mod_upper_bound; auto).
  assert (Hk : k < length (sym_groups size)) by nia. clearbody k e.
  destruct (nth_error (sym_groups size) k) as [ts|] eqn:Hts; [|apply nth_error_None in Hts; lia].
  pose proof (nth_error_In _ _ Hts) as Hin. apply sym_groups_in in Hin as (i & j & H1 & H2 & Ets).
  exists i, j, e. split; [lia|]. split; [lia|]. split; [exact He|].
  intros idx' e'. rewrite sym_layout_spec. split.
  - intros (k' & ts' & H4 & H5 & H6 & H7).
    rewrite E in H7. apply blk_unique in H7; auto. destruct H7; subst k' e'.
    rewrite Hts in H4; inversion H4; subst ts'. rewrite Ets in H5.
    destruct (Nat.eqb_spec i j); simpl in H5; subst; intuition congruence.
  - intros (H & ->). exists k, ts. split; [exact Hts|]. split; [|auto]. rewrite Ets.
    destruct (Nat.eqb_spec i j); simpl; subst; destruct H as [-> | ->]; auto.
Qed.
