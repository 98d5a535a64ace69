From Coq Require Import Sorted Permutation.
From Verif Require Import Base ModelIndex ModelCell ModelArray SpecCart ProofsCart.

Lemma keq_eq a b : keq a b = true <-> a = b.
Proof. unfold keq. destruct (list_eq_dec Nat.eq_dec a b); split; auto; discriminate. Qed.
Lemma keq_refl a : keq a a = true.
Proof. apply keq_eq; auto. Qed.
Lemma tlookup_tset {V} k (v : V) t k' : tlookup k' (tset k v t) = if keq k' k then Some v else tlookup k' t.
Proof.
  induction t as [|[a b] t IH]; simpl.
  - destruct (keq k' k); auto.
  - destruct (keq k a) eqn:E; simpl.
    + apply keq_eq in E; subst. destruct (keq k' a); auto.
    + rewrite IH. destruct (keq k' a) eqn:E2; auto. apply keq_eq in E2; subst.
      destruct (keq a k) eqn:E3; auto. apply keq_eq in E3; subst. rewrite keq_refl in E; discriminate.
Qed.
Lemma tlookup_in {V} k (v : V) t : NoDup (map fst t) -> (tlookup k t = Some v <-> In (k, v) t).
Proof.
  induction t as [|[a b] t IH]; simpl; intros ND; [split; [discriminate|tauto]|].
  inversion ND as [|? ? Hni ND']; subst. destruct (keq k a) eqn:E.
  - apply keq_eq in E; subst. split; [intros H; inversion H; auto|]. intros [H|H]; [inversion H; auto|].
    exfalso. apply Hni. apply in_map_iff. exists (a, v); auto.
  - rewrite IH by auto. split; auto. intros [H|H]; auto. inversion H; subst. rewrite keq_refl in E; discriminate.
Qed.
Lemma tlookup_none {V} k (t : list (list nat * V)) : tlookup k t = None <-> ~ In k (map fst t).
Proof.
  induction t as [|[a b] t IH]; simpl; [tauto|]. destruct (keq k a) eqn:E.
  - apply keq_eq in E; subst. split; [discriminate|]. tauto.
  - rewrite IH. split; [|tauto]. intros H [->|H']; auto. rewrite keq_refl in E; discriminate.
Qed.

Lemma bcast_shape_same s : bcast_shape s s = Some s.
Proof. unfold bcast_shape. rewrite Nat.sub_diag. simpl. rewrite Nat.sub_diag. reflexivity. Qed.
Lemma bcast_ok_same s : bcast_ok s s = true.
Proof.
  unfold bcast_ok. induction s as [|a s IH]; simpl; auto. rewrite Nat.eqb_refl; auto.
Qed.
Lemma bcast_idx_same s idx : in_shape s idx -> bcast_idx s idx = idx.
Proof.
  unfold bcast_idx. induction 1 as [|a i s idx H1 H IH]; simpl; auto. rewrite IH.
  destruct (Nat.eqb_spec a 1); auto. f_equal. lia.
Qed.
Lemma broadcast_same {K} (a : array K) : exists b, broadcast a (ashape a) = Ok b /\
  ashape b = ashape a /\ forall idx, in_shape (ashape a) idx -> aget b idx = aget a idx.
Proof.
  unfold broadcast. rewrite bcast_shape_same, bcast_ok_same. eexists. split; [reflexivity|].
  split; [reflexivity|]. intros idx H. simpl. rewrite Nat.sub_diag. simpl. rewrite bcast_idx_same; auto.
Qed.

Lemma shift_in_shape ranges : forall shape idx, in_shape shape idx -> in_ranges ranges idx = true ->
  in_shape (slice_shape ranges shape) (shift_idx ranges idx).
Proof.
  induction ranges as [|[lo hi] r IH]; intros shape idx H Hr; simpl.
  - destruct shape; auto.
  - destruct H as [|s i shape idx H1 H]; [constructor|]. simpl in *.
    apply andb_true_iff in Hr as [Hr1 Hr2]. apply andb_true_iff in Hr1 as [A B].
    apply Nat.leb_le in A. apply Nat.ltb_lt in B. constructor; [lia|]. apply IH; auto.
Qed.

Lemma assign_slice_same {K} (target : array K) ranges source :
  ashape source = slice_shape ranges (ashape target) ->
  exists r, assign_slice target ranges source = Ok r /\ ashape r = ashape target /\
    forall idx, in_shape (ashape target) idx ->
      aget r idx = if in_ranges ranges idx then aget source (shift_idx ranges idx) else aget target idx.
Proof.
  intros E. unfold assign_slice. rewrite <- E. destruct (broadcast_same source) as (b & Hb & Hs & Hg).
  rewrite Hb. eexists. split; [reflexivity|]. split; [reflexivity|]. intros idx Hi. simpl.
  destruct (in_ranges ranges idx) eqn:Er; auto. apply Hg. rewrite E. apply shift_in_shape; auto.
Qed.

Lemma nprod_app a b : nprod (a ++ b) = nprod a * nprod b.
Proof. induction a as [|x a IH]; simpl; [lia|]. fold (nprod (a ++ b)) (nprod a). rewrite IH. lia. Qed.

Lemma ravel_app s1 s2 i1 i2 : length i1 = length s1 ->
  ravel (s1 ++ s2) (i1 ++ i2) = ravel s1 i1 * nprod s2 + ravel s2 i2.
Proof.
  revert i1; induction s1 as [|s s1 IH]; intros [|i i1] H; simpl in *; try discriminate; auto.
  rewrite IH by lia. rewrite nprod_app. nia.
Qed.

Lemma unravel_app s1 s2 i1 i2 : in_shape s1 i1 -> in_shape s2 i2 ->
  unravel (s1 ++ s2) (ravel s1 i1 * nprod s2 + ravel s2 i2) = i1 ++ i2.
Proof.
  intros H1 H2. rewrite <- ravel_app by (apply in_shape_length; auto). apply unravel_ravel.
  apply Forall2_app; auto.
Qed.

(** merging the middle extents *)
Lemma reshape_middle {K} (t : array K) r vs n : 0 < r -> 0 < nprod vs -> ashape t = r :: vs ++ [n] ->
  exists t', reshape_last t [r; nprod vs] = Ok t' /\ ashape t' = [r; nprod vs; n] /\
    forall k cidx p, k < r -> in_shape vs cidx -> p < n ->
      aget t' [k; ravel vs cidx; p] = aget t (k :: cidx ++ [p]).
Proof.
  intros Hr Hv Hs. unfold reshape_last. 
  assert (Hq : nprod [r; nprod vs] = r * nprod vs) by (simpl; lia). rewrite Hq.
  assert (Hsz : nprod (ashape t) = (r * nprod vs) * n).
  { rewrite Hs. simpl. fold (nprod (vs ++ [n])). rewrite nprod_app. simpl. lia. }
  rewrite Hsz. destruct (Nat.eqb_spec (r * nprod vs) 0) as [E|E]; [nia|].
  rewrite (Nat.mul_comm (r * nprod vs) n), Nat.mod_mul, Nat.div_mul by auto. simpl (Nat.eqb 0 0). cbn iota.
  unfold reshape. assert (Hn : nprod ([r; nprod vs] ++ [n]) = r * nprod vs * n) by (simpl; lia).
  rewrite Hsz, Hn, Nat.eqb_refl. eexists. split; [reflexivity|]. split; [reflexivity|].
  intros k cidx p Hk Hc Hp. cbn [aget]. rewrite Hs. f_equal.
  transitivity (unravel (r :: vs ++ [n]) (ravel (r :: vs ++ [n]) (k :: cidx ++ [p]))).
  - f_equal. cbn [ravel]. rewrite ravel_app by (apply in_shape_length; auto). rewrite nprod_app. simpl. nia.
  - apply unravel_ravel. constructor; auto. apply Forall2_app; auto.
Qed.
