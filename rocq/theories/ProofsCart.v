From Coq Require Import Sorted Permutation.
From Verif Require Import Base ModelIndex Sorting ModelCell SpecCart ProofsIndex.

Lemma flat_map_const_length {A B} (f : A -> list B) n l :
  (forall x, In x l -> length (f x) = n) -> length (flat_map f l) = length l * n.
Proof.
  induction l as [|x l IH]; simpl; intros H; auto. rewrite app_length, H, IH; auto.
Qed.

Lemma cart_length {A} (ls : list (list A)) : length (cart ls) = nprod (map (@length A) ls).
Proof.
  induction ls as [|l ls IH]; simpl; auto.
  rewrite flat_map_const_length with (n := length (cart ls)).
  - rewrite IH; reflexivity.
  - intros; apply map_length.
Qed.

Lemma nth_flat_map {A B} (f : A -> list B) n : forall l i j x,
  (forall y, In y l -> length (f y) = n) -> nth_error l i = Some x -> j < n ->
  nth_error (flat_map f l) (i * n + j) = nth_error (f x) j.
Proof.
  induction l as [|y l IH]; intros [|i] j x Hn Hi Hj; simpl in *; try discriminate.
  - inversion Hi; subst. rewrite nth_error_app1; auto. rewrite Hn; auto.
  - rewrite nth_error_app2; rewrite Hn; auto; [|lia].
    replace (n + i * n + j - n) with (i * n + j) by lia. apply IH; auto.
Qed.

Lemma in_shape_ravel shape idx : in_shape shape idx -> ravel shape idx < nprod shape.
Proof.
  induction 1 as [|s i shape idx Hi H IH]; simpl; [lia|]. fold (nprod shape) in *. nia.
Qed.

Lemma picks_in_shape {A} (ls : list (list A)) idx xs : picks ls idx xs -> in_shape (map (@length A) ls) idx.
Proof.
  induction 1; simpl; constructor; auto. apply nth_error_Some. congruence.
Qed.
Lemma picks_exists {A} (ls : list (list A)) idx : in_shape (map (@length A) ls) idx -> exists xs, picks ls idx xs.
Proof.
  revert idx; induction ls as [|l ls IH]; intros idx H; simpl in H; inversion H as [|? i ? idx' Hi H']; subst.
  - exists []; constructor.
  - destruct (IH _ H') as (xs & Hxs). apply nth_error_Some in Hi.
    destruct (nth_error l i) as [x|] eqn:E; [|congruence]. exists (x :: xs). constructor; auto.
Qed.
Lemma picks_fun {A} (ls : list (list A)) idx xs ys : picks ls idx xs -> picks ls idx ys -> xs = ys.
Proof.
  intros H; revert ys; induction H; intros ys H'; inversion H'; subst; auto. f_equal; auto; congruence.
Qed.

Lemma cart_picks {A} (ls : list (list A)) idx xs : picks ls idx xs ->
  nth_error (cart ls) (ravel (map (@length A) ls) idx) = Some xs.
Proof.
  induction 1 as [|l ls i idx x xs Hi H IH]; simpl; auto.
  rewrite <- cart_length. 
  rewrite nth_flat_map with (n := length (cart ls)) (x := x); auto.
  - rewrite nth_error_map, IH. reflexivity.
  - intros; apply map_length.
  - rewrite cart_length. apply in_shape_ravel. eapply picks_in_shape; eauto.
Qed.

Lemma nprod_pos_in_shape shape k : k < nprod shape -> Forall (fun s => 0 < s) shape.
Proof.
  intros H. assert (nprod shape <> 0) by lia. clear H. induction shape as [|s shape IH]; constructor.
  - destruct s; simpl in *; lia.
  - apply IH. simpl in H0. fold (nprod shape) in H0. nia.
Qed.

Lemma ravel_unravel shape : forall k, k < nprod shape ->
  in_shape shape (unravel shape k) /\ ravel shape (unravel shape k) = k.
Proof.
  induction shape as [|s shape IH]; intros k Hk; simpl.
  - split; [constructor|]. simpl in Hk; lia.
  - simpl in Hk. fold (nprod shape) in Hk. assert (nprod shape <> 0) by nia.
    destruct (IH (k mod nprod shape)) as [H1 H2]; [apply Nat.mod_upper_bound; auto|].
    split.
    + constructor; auto. apply Nat.div_lt_upper_bound; auto. lia.
    + rewrite H2. rewrite (Nat.div_mod k (nprod shape)) at 3; auto. lia.
Qed.

Lemma unravel_ravel shape idx : in_shape shape idx -> unravel shape (ravel shape idx) = idx.
Proof.
  induction 1 as [|s i shape idx Hi H IH]; simpl; auto.
  pose proof (in_shape_ravel _ _ H) as Hr.
  rewrite Nat.div_add_l by lia. rewrite (Nat.div_small (ravel shape idx)) by auto.
  rewrite (Nat.add_comm (i * nprod shape) (ravel shape idx)), Nat.mod_add by lia. rewrite Nat.mod_small by auto. rewrite IH. f_equal. lia.
Qed.

Lemma ravel_inj shape i j : in_shape shape i -> in_shape shape j -> ravel shape i = ravel shape j -> i = j.
Proof. intros Hi Hj E. rewrite <- (unravel_ravel shape i), <- (unravel_ravel shape j); congruence. Qed.

Lemma cart_nth_inv {A} (ls : list (list A)) k xs : nth_error (cart ls) k = Some xs ->
  picks ls (unravel (map (@length A) ls) k) xs /\ k < nprod (map (@length A) ls) /\
  ravel (map (@length A) ls) (unravel (map (@length A) ls) k) = k.
Proof.
  intros H. assert (Hk : k < nprod (map (@length A) ls)).
  { rewrite <- cart_length. apply nth_error_Some; congruence. }
  destruct (ravel_unravel _ _ Hk) as [H1 H2].
  destruct (picks_exists _ _ H1) as (ys & Hy). pose proof (cart_picks _ _ _ Hy) as E.
  rewrite H2 in E. split; [|auto]. rewrite H in E. inversion E; subst; auto.
Qed.

Lemma row_major_acc shape : forall idx acc, length idx = length shape ->
  fold_left (fun acc '(s, i) => acc * s + i) (combine shape idx) acc = acc * nprod shape + ravel shape idx.
Proof.
  induction shape as [|s shape IH]; intros [|i idx] acc H; simpl in *; try discriminate; [lia|].
  rewrite IH by lia. fold (nprod shape). nia.
Qed.
Lemma row_major_ravel shape idx : length idx = length shape -> ravel shape idx = row_major shape idx.
Proof. intros H. unfold row_major. rewrite row_major_acc; auto. Qed.
Lemma in_shape_length shape idx : in_shape shape idx -> length idx = length shape.
Proof. induction 1; simpl; auto. Qed.

Lemma in_cart {A} (ls : list (list A)) xs : In xs (cart ls) <-> Forall2 (fun l x => In x l) ls xs.
Proof.
  revert xs; induction ls as [|l ls IH]; intros xs; simpl.
  - split; [intros [<-|[]]; constructor|]. intros H; inversion H; auto.
  - rewrite in_flat_map. split.
    + intros (x & Hx & H). apply in_map_iff in H as (ys & <- & Hy). constructor; auto. apply IH; auto.
    + intros H; inversion H as [|? x ? ys Hx Hy]; subst. exists x. split; auto.
      apply in_map. apply IH; auto.
Qed.

Lemma cart_map {A B} (f : A -> B) ls : cart (map (map f) ls) = map (map f) (cart ls).
Proof.
  induction ls as [|l ls IH]; simpl; auto. rewrite IH. clear IH.
  induction l as [|x l IHl]; simpl; auto. rewrite map_app, <- IHl, !map_map. reflexivity.
Qed.

Lemma cart_lex ls : Forall (StronglySorted lt) ls -> StronglySorted lexlt (cart ls).
Proof.
  induction 1 as [|l ls Hl H IH]; simpl; [repeat constructor|].
  eapply SSorted_flat_map; [exact Hl| |].
  - intros x _. eapply SSorted_map; [exact IH|]. intros; apply lexlt_tail; auto.
  - intros x y u v _ _ Hxy Hu Hv. apply in_map_iff in Hu as (u' & <- & _), Hv as (v' & <- & _).
    constructor; auto.
Qed.

Lemma flat_map_map {A B C} (f : B -> list C) (g : A -> B) l : flat_map f (map g l) = flat_map (fun x => f (g x)) l.
Proof. induction l as [|x l IH]; simpl; congruence. Qed.
Lemma map_flat_map {A B C} (f : B -> C) (g : A -> list B) l : map f (flat_map g l) = flat_map (fun x => map f (g x)) l.
Proof. induction l as [|x l IH]; simpl; auto. rewrite map_app; congruence. Qed.
Lemma flat_map_ext_in {A B} (f g : A -> list B) l : (forall x, In x l -> f x = g x) -> flat_map f l = flat_map g l.
Proof. induction l as [|x l IH]; simpl; intros H; auto. rewrite H, IH; auto. Qed.

(** the cartesian product of [0..s-1] lists every multi-index in row-major order *)
Lemma cart_seq_ravel shape : map (ravel shape) (cart (map (seq 0) shape)) = seq 0 (nprod shape).
Proof.
  apply nth_ext with (d := 0) (d' := 0).
  - rewrite map_length, cart_length, seq_length, map_map. f_equal.
    rewrite <- (map_id shape) at 2. apply map_ext. intros; apply seq_length.
  - intros k Hk. rewrite map_length in Hk. 
    destruct (nth_error (cart (map (seq 0) shape)) k) as [xs|] eqn:E.
    2:{ apply nth_error_None in E. lia. }
    assert (El : map (@length nat) (map (seq 0) shape) = shape).
    { rewrite map_map. rewrite <- (map_id shape) at 2. apply map_ext. intros; apply seq_length. }
    apply cart_nth_inv in E as E'. destruct E' as (Hp & Hlt & Hr). rewrite El in *.
    rewrite seq_nth by auto. rewrite (nth_indep _ 0 (ravel shape [])) by (rewrite map_length; auto).
    rewrite map_nth. erewrite nth_error_nth by eauto. simpl. transitivity (ravel shape (unravel shape k)); [|exact Hr]. f_equal.
    clear - Hp. remember (unravel shape k) as idx. clear Heqidx. revert idx xs Hp.
    induction shape as [|s shape IH]; intros idx xs Hp; simpl in Hp; inversion Hp; subst; auto.
    f_equal; eauto.
    assert (i < s) by (rewrite <- (seq_length s 0); apply nth_error_Some; congruence).
    rewrite nth_error_nth' with (d := 0) in H1 by (rewrite seq_length; auto).
    rewrite seq_nth in H1 by auto. simpl in H1. congruence.
Qed.
