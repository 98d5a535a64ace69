From Coq Require Import Sorted Permutation.
From Verif Require Import Base ModelIndex SpecIndex.

(** ** lattice_iter *)
Lemma lattice_iter_SS s f d :
  lattice_iter s f (S (S d)) =
  flat_map (fun ii => map (fun jj => jj ++ [ii]) (lattice_iter s (f - ii) (S d))) (range s f).
Proof. reflexivity. Qed.

Lemma lattice_iter_in d : forall s f k, 1 <= d ->
  (In k (lattice_iter s f d) <->
   length k = d /\ (forall x, In x k -> s <= x) /\ nsum k < f).
Proof.
  induction d as [|d IH]; intros s f k Hd; [lia|].
  destruct d as [|d].
  - simpl. rewrite in_map_iff. split.
    + intros (x & <- & Hx). apply in_range in Hx. simpl. split; [lia|split; [|lia]].
      intros y [<-|[]]; lia.
    + intros (Hl & Hge & Hs). destruct k as [|x [|y k]]; simpl in *; try lia.
      exists x. split; [reflexivity|]. apply in_range. specialize (Hge x (or_introl eq_refl)). lia.
  - rewrite lattice_iter_SS, in_flat_map. split.
    + intros (ii & Hii & Hk). apply in_range in Hii. apply in_map_iff in Hk as (jj & <- & Hjj).
      apply IH in Hjj as (Hl & Hge & Hs); [|lia].
      rewrite app_length, nsum_app; simpl. split; [lia|split; [|lia]].
      intros x Hx. apply in_app_or in Hx as [Hx|[<-|[]]]; [auto|lia].
    + intros (Hl & Hge & Hs).
      destruct (exists_last (l := k)) as (jj & ii & ->); [destruct k; simpl in *; [lia|discriminate]|].
      rewrite app_length, nsum_app in *; simpl in *.
      exists ii. split.
      * apply in_range. assert (s <= ii) by (apply Hge, in_or_app; simpl; auto). lia.
      * apply in_map_iff. exists jj. split; [reflexivity|]. apply IH; [lia|].
        split; [lia|split; [|lia]]. intros x Hx; apply Hge, in_or_app; auto.
Qed.

Lemma lattice_iter_sorted d : forall s f,
  increasing lexlt (map (@rev nat) (lattice_iter s f d)).
Proof.
  induction d as [|d IH]; intros s f; [constructor|].
  destruct d as [|d].
  - simpl. rewrite map_map. simpl.
    apply (SSorted_map lt lexlt (fun x => [x])); [apply SSorted_range|].
    intros; apply lexlt_head; auto.
  - rewrite lattice_iter_SS.
    rewrite flat_map_concat_map, concat_map, map_map, <- flat_map_concat_map.
    apply (SSorted_flat_map lt lexlt); [apply SSorted_range| |].
    + intros ii _. rewrite map_map.
      rewrite (map_ext _ (fun jj => ii :: rev jj)) by (intros; apply rev_unit).
      rewrite <- (map_map (@rev nat) (fun l => ii :: l)).
      apply (SSorted_map lexlt lexlt); [apply IH|]. intros; apply lexlt_tail; auto.
    + intros x y u v _ _ Hxy Hu Hv. rewrite map_map in Hu, Hv.
      apply in_map_iff in Hu as (u' & <- & _). apply in_map_iff in Hv as (v' & <- & _).
      rewrite !rev_unit. apply lexlt_head; auto.
Qed.

Lemma lattice_iter_NoDup s f d : NoDup (lattice_iter s f d).
Proof.
  eapply NoDup_map_inv. apply increasing_NoDup, lattice_iter_sorted.
Qed.

Lemma flat_map_length' {A B} (f : A -> list B) l :
  length (flat_map f l) = nsum (map (fun x => length (f x)) l).
Proof. induction l as [|x l IH]; simpl; [reflexivity|]. rewrite app_length, IH. reflexivity. Qed.

Lemma binom_lt n : forall k, n < k -> binom n k = 0.
Proof.
  induction n as [|n IH]; intros [|k] H; simpl; try lia; auto.
  rewrite !IH by lia. reflexivity.
Qed.

Lemma binom_SS n k : binom (S n) (S k) = binom n k + binom n (S k).
Proof. reflexivity. Qed.

Lemma binom_1 n : binom n 1 = n.
Proof. induction n as [|n IH]; [reflexivity|]. rewrite binom_SS, IH. destruct n; simpl; lia. Qed.

Lemma binom_diag n : binom n n = 1.
Proof. induction n as [|n IH]; [reflexivity|]. rewrite binom_SS, IH, binom_lt; lia. Qed.

Lemma hockey d T : forall M, 1 <= d -> M <= T ->
  nsum (map (fun t => binom (M - t + d - 1) d) (seq 0 T)) = binom (M + d) (S d).
Proof.
  induction T as [|T IH]; intros M Hd HM.
  - replace M with 0 by lia. simpl. symmetry; apply binom_lt; lia.
  - cbn [seq map nsum fold_right]. rewrite Nat.sub_0_r.
    rewrite <- seq_shift, map_map.
    destruct M as [|M].
    + rewrite (binom_lt (0 + d - 1)) by lia.
      change (nsum (map (fun t => binom (0 - S t + d - 1) d) (seq 0 T)) = binom (0 + d) (S d)).
      rewrite <- (IH 0) by lia. f_equal.
    + change (fold_right Nat.add 0 (map (fun x => binom (S M - S x + d - 1) d) (seq 0 T)))
        with (nsum (map (fun x => binom (M - x + d - 1) d) (seq 0 T))).
      rewrite IH by lia. replace (S M + d - 1) with (M + d) by lia.
      replace (S M + d) with (S (M + d)) by lia. rewrite binom_SS. reflexivity.
Qed.

Lemma seq_map_add a n : seq a n = map (fun t => a + t) (seq 0 n).
Proof.
  revert a; induction n as [|n IH]; intros a; [reflexivity|].
  cbn [seq map]. f_equal; [lia|]. rewrite (IH (S a)), <- seq_shift, map_map.
  apply map_ext; intros; lia.
Qed.

Lemma lattice_iter_length d : forall s f, 1 <= d ->
  length (lattice_iter s f d) = binom (f - s * d + d - 1) d.
Proof.
  induction d as [|d IH]; intros s f Hd; [lia|].
  destruct d as [|d].
  - simpl. rewrite map_length, length_range.
    replace (f - s * 1 + 1 - 1) with (f - s) by lia. rewrite binom_1. reflexivity.
  - rewrite lattice_iter_SS, flat_map_length'.
    rewrite (map_ext _ (fun ii => binom (f - ii - s * S d + S d - 1) (S d)))
      by (intros ii; rewrite map_length; apply IH; lia).
    replace (map (fun ii => binom (f - ii - s * S d + S d - 1) (S d)) (range s f))
      with (map (fun t => binom ((f - s - s * S d) - t + S d - 1) (S d)) (seq 0 (f - s))).
    + rewrite hockey by lia. f_equal. lia.
    + unfold range. rewrite (seq_map_add s (f - s)), map_map.
      apply map_ext; intros t. f_equal. lia.
Qed.

(** ** make_lattice *)
Section ML.
  Context {K : fieldT}.
  Add Field Kfield : (f_th K).
  Local Open Scope F_scope.

  Lemma vadd_length (u v : list K) : length u = length v -> length (vadd u v) = length u.
  Proof. revert v; induction u as [|x u IH]; intros [|y v]; simpl; intros H; auto. Qed.
  Lemma vsub_length (u v : list K) : length u = length v -> length (vsub u v) = length u.
  Proof. revert v; induction u as [|x u IH]; intros [|y v]; simpl; intros H; auto. Qed.
  Lemma vadd_coord (u v : list K) c : length u = length v ->
    coord c (vadd u v) = coord c u + coord c v.
  Proof.
    unfold coord. revert v c; induction u as [|x u IH]; intros [|y v] [|c]; simpl; intros H;
      try discriminate; try ring. apply IH; lia.
  Qed.
  Lemma vsub_coord (u v : list K) c : length u = length v ->
    coord c (vsub u v) = coord c u - coord c v.
  Proof.
    unfold coord. revert v c; induction u as [|x u IH]; intros [|y v] [|c]; simpl; intros H;
      try discriminate; try ring. apply IH; lia.
  Qed.
  Lemma vscale_coord a (v : list K) c : coord c (vscale a v) = a * coord c v.
  Proof.
    unfold coord, vscale. revert c; induction v as [|x v IH]; intros [|c]; simpl; try ring. apply IH.
  Qed.
  Lemma zero_coord n c : coord c (repeat (f0 : K) n) = f0.
  Proof. unfold coord. revert c; induction n as [|n IH]; intros [|c]; simpl; auto. Qed.

  Lemma dot_rows_length dim : forall ks (hs : list (list K)),
    (forall h, In h hs -> length h = dim) -> length (dot_rows dim ks hs) = dim.
  Proof.
    induction ks as [|k ks IH]; intros [|h hs] H; simpl; try (rewrite repeat_length; reflexivity).
    assert (Hh : length h = dim) by (apply H; simpl; auto).
    rewrite vadd_length; unfold vscale; rewrite map_length; auto.
    rewrite IH; auto. intros; apply H; simpl; auto.
  Qed.
  Lemma dot_rows_coord dim c : forall ks (hs : list (list K)),
    (forall h, In h hs -> length h = dim) ->
    coord c (dot_rows dim ks hs) = wsum ks (map (coord c) hs).
  Proof.
    induction ks as [|k ks IH]; intros [|h hs] H; simpl; try apply zero_coord.
    assert (Hh : length h = dim) by (apply H; simpl; auto).
    rewrite vadd_coord, vscale_coord, IH; auto.
    - intros; apply H; simpl; auto.
    - unfold vscale; rewrite map_length, dot_rows_length; auto.
      intros; apply H; simpl; auto.
  Qed.

  Lemma of_nat_add a b : @of_nat K (a + b) = of_nat a + of_nat b.
  Proof. induction a as [|a IH]; simpl; [ring|rewrite IH; ring]. Qed.
  Lemma of_nat_mul a b : @of_nat K (a * b) = of_nat a * of_nat b.
  Proof. induction a as [|a IH]; simpl; [ring|rewrite of_nat_add, IH; ring]. Qed.

  Lemma wsum_diff (n : K) (v0 : list K) c : n <> f0 -> forall ks (vs : list (list K)),
    (forall v, In v vs -> length v = length v0) ->
    length ks = length vs ->
    wsum ks (map (coord c) (map (fun v => map (fun x => x / n) (vsub v v0)) vs))
    = (wsum ks (map (coord c) vs) - of_nat (nsum ks) * coord c v0) / n.
  Proof.
    intros Hn. induction ks as [|k ks IH]; intros [|v vs] H Hl; simpl in *; try discriminate.
    - field; auto.
    - rewrite IH; [|intros; apply H; auto|lia].
      assert (E : coord c (map (fun x => x / n) (vsub v v0)) = (coord c v - coord c v0) / n).
      { assert (Hv : length v = length v0) by auto.
        rewrite <- (vsub_coord v v0 c Hv). clear - Hn. unfold coord.
        set (l := vsub v v0). clearbody l. revert c; induction l as [|x l IHl]; intros [|c]; simpl;
          try (field; auto); apply IHl. }
      rewrite E, of_nat_add. field; auto.
  Qed.

  Lemma make_lattice_spec (verts : list (list K)) n interior d dim :
    length verts = S d -> 1 <= d -> @of_nat K n <> f0 ->
    (forall v, In v verts -> length v = dim) ->
    exists idxs,
      (forall k, In k idxs <-> lattice_index d n interior k) /\
      increasing lexlt (map (@rev nat) idxs) /\
      Forall2 (is_lattice_point verts n) idxs (make_lattice verts n interior).
  Proof.
    intros Hl Hd Hn Hdim. destruct verts as [|v0 vs]; [discriminate|].
    simpl in Hl. assert (Hvs : length vs = d) by lia.
    unfold make_lattice. rewrite map_length, Hvs.
    exists (lattice_iter interior (n + 1 - interior) d). split; [|split].
    - intros k. rewrite lattice_iter_in by lia. unfold lattice_index. split.
      + intros (H1 & H2 & H3). repeat split; auto; lia.
      + intros (H1 & H2 & H3). repeat split; auto; lia.
    - apply lattice_iter_sorted.
    - set (hs := map _ vs).
      assert (Hall : Forall (fun k => length k = d /\ nsum k <= n) (lattice_iter interior (n + 1 - interior) d)).
      { apply Forall_forall. intros k Hk. apply lattice_iter_in in Hk; lia. }
      induction Hall as [|k ks [Hk Hs] _ IH]; simpl; constructor; auto.
      clear IH.
      assert (Hv0 : length v0 = dim) by (apply Hdim; simpl; auto).
      assert (Hhs : forall h, In h hs -> length h = length v0).
      { intros h Hh. apply in_map_iff in Hh as (v & <- & Hv). rewrite map_length, vsub_length.
        - rewrite Hv0. apply Hdim; simpl; auto.
        - rewrite Hv0. apply Hdim; simpl; auto. }
      exists v0. split; [reflexivity|]. split.
      + rewrite vadd_length; auto. rewrite dot_rows_length; auto.
      + intros c Hc. rewrite vadd_coord by (rewrite dot_rows_length; auto).
        rewrite dot_rows_coord by auto. subst hs.
        rewrite wsum_diff; auto; [|intros v Hv; rewrite Hv0; apply Hdim; simpl; auto|lia].
        simpl. replace (of_nat n) with (@of_nat K (n - nsum k) + of_nat (nsum k)).
        2:{ rewrite <- of_nat_add. f_equal. lia. }
        field. rewrite <- of_nat_add. replace (n - nsum k + nsum k)%nat with n by lia. auto.
  Qed.

  Lemma make_lattice_length (verts : list (list K)) n interior d :
    length verts = S d -> 1 <= d ->
    length (make_lattice verts n interior) = binom (n + 1 - interior - interior * d + d - 1) d.
  Proof.
    intros Hl Hd. destruct verts as [|v0 vs]; [discriminate|].
    unfold make_lattice. rewrite map_length, map_length.
    simpl in Hl. replace (length vs) with d by lia. apply lattice_iter_length; auto.
  Qed.
End ML.

(** ** mis *)
Lemma mis_SS m n : mis (S (S m)) (S n) =
  flat_map (fun i => map (fun foo => (S n - i) :: foo) (mis (S m) i)) (range 0 (S n + 1)).
Proof. reflexivity. Qed.

Lemma nsum_repeat0 m : nsum (repeat 0 m) = 0.
Proof. induction m; simpl; auto. Qed.

Lemma nsum0_repeat l : nsum l = 0 -> l = repeat 0 (length l).
Proof. induction l as [|x l IH]; simpl; intros H; auto. f_equal; [lia|apply IH; lia]. Qed.

Lemma mis_in m : forall n a, 1 <= m -> (In a (mis m n) <-> multi_index m n a).
Proof.
  unfold multi_index.
  induction m as [|m IH]; intros n a Hm; [lia|].
  destruct m as [|m].
  - simpl. split.
    + intros [<-|[]]; simpl; lia.
    + intros [Hl Hs]. destruct a as [|x [|y a]]; simpl in *; try lia. left; f_equal; lia.
  - destruct n as [|n].
    + simpl. split.
      * intros [<-|[]]. simpl. rewrite repeat_length, nsum_repeat0. lia.
      * intros [Hl Hs]. left. apply nsum0_repeat in Hs. rewrite Hs, Hl. reflexivity.
    + rewrite mis_SS, in_flat_map. split.
      * intros (i & Hi & Ha). apply in_range in Hi. apply in_map_iff in Ha as (foo & <- & Hf).
        apply IH in Hf as [Hl Hs]; [|lia]. cbn [length nsum fold_right].
        change (fold_right Nat.add 0 foo) with (nsum foo). lia.
      * intros [Hl Hs]. destruct a as [|x a]; [discriminate|].
        cbn [length nsum fold_right] in *. change (fold_right Nat.add 0 a) with (nsum a) in Hs.
        exists (nsum a). split; [apply in_range; lia|].
        apply in_map_iff. exists a. split; [f_equal; lia|]. apply IH; [lia|]. lia.
Qed.

Lemma mis_sorted m : forall n, increasing (fun a b => lexlt b a) (mis m n).
Proof.
  unfold increasing.
  induction m as [|m IH]; intros n.
  - destruct n; simpl; repeat constructor.
  - destruct m as [|m]; [simpl; repeat constructor|].
    destruct n as [|n]; [simpl; repeat constructor|].
    rewrite mis_SS.
    apply (SSorted_flat_map lt); [apply SSorted_range| |].
    + intros i _. apply (SSorted_map (fun a b => lexlt b a)); [apply IH|].
      intros; apply lexlt_tail; auto.
    + intros x y u v Hx Hy Hxy Hu Hv. apply in_range in Hx, Hy.
      apply in_map_iff in Hu as (u' & <- & _). apply in_map_iff in Hv as (v' & <- & _).
      apply lexlt_head. lia.
Qed.

Lemma dec_NoDup (l : list (list nat)) : increasing (fun a b => lexlt b a) l -> NoDup l.
Proof.
  induction 1 as [|x l Hs IH Hf]; constructor; auto.
  intros Hin. rewrite Forall_forall in Hf. exact (lexlt_irrefl x (Hf x Hin)).
Qed.

Lemma mis_NoDup m n : NoDup (mis m n).
Proof. apply dec_NoDup, mis_sorted. Qed.

Lemma hockey2 m : forall n,
  nsum (map (fun i => binom (i + m) m) (range 0 (n + 1))) = binom (n + S m) (S m).
Proof.
  unfold range. induction n as [|n IH].
  - simpl. rewrite binom_diag, (binom_lt m) by lia. lia.
  - replace (S n + 1 - 0) with (S (n + 1 - 0)) by lia.
    rewrite seq_S, map_app, nsum_app, IH. simpl nsum.
    replace (S n + S m) with (S (n + S m)) by lia. rewrite binom_SS.
    replace (n + 1 - 0 + m) with (n + S m) by lia. lia.
Qed.

Lemma mis_length m : forall n, length (mis (S m) n) = binom (n + m) m.
Proof.
  induction m as [|m IH]; intros n.
  - destruct n; reflexivity.
  - destruct n as [|n].
    + simpl. rewrite binom_diag, (binom_lt m) by lia. lia.
    + rewrite mis_SS, flat_map_length'.
      rewrite (map_ext _ (fun i => binom (i + m) m)) by (intros i; rewrite map_length; apply IH).
      apply hockey2.
Qed.

(** ** index_iterator *)
Lemma index_iterator_cons2 s t shp : index_iterator (s :: t :: shp) =
  flat_map (fun i => map (fun foo => [i] ++ foo) (index_iterator (t :: shp))) (range 0 s).
Proof. reflexivity. Qed.

Lemma index_iterator_in shp : forall idx, shp <> [] ->
  (In idx (index_iterator shp) <-> component_of shp idx).
Proof.
  unfold component_of.
  induction shp as [|s shp IH]; intros idx H; [congruence|].
  destruct shp as [|t shp].
  - simpl. rewrite in_map_iff. split.
    + intros (x & <- & Hx). apply in_range in Hx. repeat constructor; lia.
    + intros Hf. inversion Hf as [|x ? l ? Hx Hl]; subst. inversion Hl; subst.
      exists x; split; auto. apply in_range; lia.
  - rewrite index_iterator_cons2, in_flat_map. split.
    + intros (i & Hi & Hm). apply in_range in Hi. apply in_map_iff in Hm as (foo & <- & Hf).
      constructor; [lia|]. apply IH; [congruence|auto].
    + intros Hf. inversion Hf as [|x ? l ? Hx Hl]; subst.
      exists x. split; [apply in_range; lia|]. apply in_map_iff. exists l. split; auto.
      apply IH; [congruence|auto].
Qed.

Lemma index_iterator_sorted shp : increasing lexlt (index_iterator shp).
Proof.
  unfold increasing.
  induction shp as [|s shp IH]; [constructor|].
  destruct shp as [|t shp].
  - simpl. apply (SSorted_map lt); [apply SSorted_range|]. intros; apply lexlt_head; auto.
  - rewrite index_iterator_cons2. apply (SSorted_flat_map lt); [apply SSorted_range| |].
    + intros i _. apply (SSorted_map lexlt); [apply IH|]. intros; apply lexlt_tail; auto.
    + intros x y u v _ _ Hxy Hu Hv.
      apply in_map_iff in Hu as (u' & <- & _). apply in_map_iff in Hv as (v' & <- & _).
      apply lexlt_head; auto.
Qed.

Lemma index_iterator_length shp : shp <> [] -> length (index_iterator shp) = nprod shp.
Proof.
  induction shp as [|s shp IH]; [congruence|]. intros _.
  destruct shp as [|t shp].
  - simpl. rewrite map_length, length_range. lia.
  - rewrite index_iterator_cons2, flat_map_length'.
    rewrite (map_ext _ (fun _ => nprod (t :: shp)))
      by (intros i; rewrite map_length; apply IH; congruence).
    change (nprod (s :: t :: shp)) with (s * nprod (t :: shp)).
    generalize (nprod (t :: shp)); intros p.
    assert (E : forall l : list nat, nsum (map (fun _ => p) l) = length l * p).
    { induction l as [|x l IHl]; [auto|]. cbn [map nsum fold_right length Nat.mul]. f_equal. exact IHl. }
    rewrite E, length_range. lia.
Qed.
