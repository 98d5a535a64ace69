(** C25, numbering: each Bernstein basis function is registered on the entity
    spanned by the vertices of its multi-index. *)
From Coq Require Import Permutation.
From Verif Require Import Base ModelIndex SpecIndex ProofsIndex ModelCell SpecCell ModelConcat SpecConcat SpecFam ModelBernDual ProofsIds ProofsFam.

(** vertex numbers of the entity: those where the multi-index is positive *)
Definition supported_on (c : cell) (x : dimT * nat) (ks : list nat) : Prop :=
  lookup (topology c) (fst x) (snd x) <> None /\
  forall v, In v (dofs_on (topology c) x) <-> 0 < nth v ks 0.

(** cells listing the vertices of each entity in increasing order *)
Definition ordered (c : cell) : Prop := c = DefaultLine \/ c = UFCInterval \/ c = UFCTriangle \/ c = UFCTetrahedron.
(** the other triangles and tetrahedra *)
Definition unordered (c : cell) : Prop :=
  c = DefaultTriangle \/ c = IntrepidTriangle \/ c = DefaultTetrahedron \/ c = IntrepidTetrahedron.

Definition dmap (f : list nat -> list nat) (t : topo) : dict (list nat) :=
  map (fun '(d, es) => (d, map (fun '(e, vs) => (e, f vs)) es)) t.

Definition step_ok (c : cell) (n : nat) (ks : list nat) : Prop :=
  exists x, inverse_lookup (nonzero ks) (inverse_topology (topology c)) = Ok x /\
    forall f, append_at x n (dmap f (topology c)) =
      dmap (fun vs => f vs ++ if leqb (nonzero ks) vs then [n] else []) (topology c).

Lemma step_ordered c n ks : ordered c -> length ks = spatial_dimension c + 1 -> 1 <= nsum ks -> step_ok c n ks.
Proof.
  intros [-> | [-> | [-> | ->]]] H Hs; cbn in H;
  repeat (destruct ks as [|[|?] ks]; [discriminate H| |]; injection H as H);
  destruct ks; try discriminate H; clear H; cbn in Hs; try lia;
  (eexists; split; [reflexivity|]); intros f; cbn; rewrite ?app_nil_r; reflexivity.
Qed.

Lemma dmap_ext f g t : (forall vs, f vs = g vs) -> dmap f t = dmap g t.
Proof.
  intros H. unfold dmap. apply map_ext. intros [d es]. f_equal. apply map_ext. intros [e vs]. now rewrite H.
Qed.

(** positions of the multi-indices with the given support *)
Fixpoint at_support (n : nat) (kss : list (list nat)) (vs : list nat) : list nat :=
  match kss with
  | [] => []
  | ks :: kss' => (if leqb (nonzero ks) vs then [n] else []) ++ at_support (S n) kss' vs
  end.

Lemma fill_dmap c : forall kss n f, (forall ks n, In ks kss -> step_ok c n ks) ->
  fill (inverse_topology (topology c)) n kss (dmap f (topology c)) =
  Ok (dmap (fun vs => f vs ++ at_support n kss vs) (topology c)).
Proof.
  induction kss as [|ks kss IH]; intros n f H; cbn [fill at_support].
  - f_equal. apply dmap_ext. intros vs. now rewrite app_nil_r.
  - destruct (H ks n (or_introl eq_refl)) as (x & -> & E). cbn [bind]. rewrite E, IH.
    + f_equal. apply dmap_ext. intros vs. now rewrite app_assoc.
    + intros; apply H; now right.
Qed.

Lemma leqb_eq a b : leqb a b = true <-> a = b.
Proof.
  revert b; induction a as [|x a IH]; intros [|y b]; cbn; split; try easy.
  - rewrite andb_true_iff, Nat.eqb_eq, IH. now intros [-> ->].
  - intros [= -> ->]. now rewrite Nat.eqb_refl, (proj2 (IH b) eq_refl).
Qed.

Lemma in_at_support kss : forall n vs i, In i (at_support n kss vs) <->
  n <= i /\ exists ks, nth_error kss (i - n) = Some ks /\ nonzero ks = vs.
Proof.
  induction kss as [|ks kss IH]; intros n vs i; cbn [at_support].
  - split; [easy|]. intros (_ & ks & H & _). destruct (i - n); discriminate H.
  - rewrite in_app_iff, IH. split.
    + intros [H|(H & ks' & E & F)].
      * destruct (leqb (nonzero ks) vs) eqn:L; [|easy]. destruct H as [<-|[]]. split; [lia|].
        exists ks. rewrite Nat.sub_diag. split; [reflexivity|now apply leqb_eq].
      * split; [lia|]. exists ks'. split; [|exact F]. replace (i - n) with (S (i - S n)) by lia. exact E.
    + intros (H & ks' & E & F). destruct (Nat.eq_dec i n) as [->|].
      * left. rewrite Nat.sub_diag in E. injection E as ->. apply leqb_eq in F as ->. now left.
      * right. split; [lia|]. exists ks'. split; [|exact F]. replace (i - n) with (S (i - S n)) in E by lia. exact E.
Qed.

Lemma at_support_NoDup kss : forall n vs, NoDup (at_support n kss vs).
Proof.
  induction kss as [|ks kss IH]; intros n vs; cbn [at_support]; [constructor|].
  destruct (leqb (nonzero ks) vs); [|apply IH]. cbn. constructor; [|apply IH].
  rewrite in_at_support. lia.
Qed.

Lemma lookup_dmap f t d e : lookup (dmap f t) d e = option_map f (lookup t d e).
Proof.
  unfold lookup, dmap. induction t as [|[d' es] t IH]; cbn; [reflexivity|].
  destruct (deqb d d'); [|exact IH]. induction es as [|[e' v] es IHe]; cbn; [reflexivity|].
  destruct (Nat.eqb e e'); [reflexivity|exact IHe].
Qed.

Definition flat_top (t : topo) : list (list nat) := flat_map (fun '(_, es) => map snd es) t.
Lemma all_dofs_dmap f t : all_dofs (dmap f t) = flat_map f (flat_top t).
Proof.
  unfold all_dofs, dmap, flat_top. induction t as [|[d es] t IH]; cbn; [reflexivity|].
  rewrite flat_map_app, <- IH. f_equal. induction es as [|[e v] es IHe]; cbn; [reflexivity|now rewrite IHe].
Qed.

Lemma in_nonzero ks v : In v (nonzero ks) <-> 0 < nth v ks 0.
Proof.
  unfold nonzero. rewrite filter_In, in_range, negb_true_iff, Nat.eqb_neq. split; [lia|].
  intros H. split; [|lia]. split; [lia|]. destruct (Nat.lt_ge_cases v (length ks)); [assumption|].
  rewrite nth_overflow in H by assumption. lia.
Qed.

Lemma ordered_top c : ordered c -> NoDup (flat_top (topology c)) /\
  forall vs, In vs (flat_top (topology c)) -> increasing lt vs.
Proof.
  intros [-> | [-> | [-> | ->]]]; cbn; (split; [repeat constructor; cbn; intuition discriminate|]);
  intros vs H; repeat (destruct H as [<-|H]; [repeat constructor; lia|]); destruct H.
Qed.

Lemma increasing_same a b : increasing lt a -> increasing lt b -> (forall v, In v a <-> In v b) -> a = b.
Proof.
  revert b; induction a as [|x a IH]; intros [|y b] Ha Hb H; try reflexivity.
  - exfalso. apply (proj2 (H y)). now left.
  - exfalso. apply (proj1 (H x)). now left.
  - inversion Ha as [|? ? Sa Fa]; inversion Hb as [|? ? Sb Fb]; subst.
    rewrite Forall_forall in Fa, Fb.
    assert (x = y).
    { destruct (proj1 (H x) (or_introl eq_refl)) as [|Hx]; [congruence|].
      destruct (proj2 (H y) (or_introl eq_refl)) as [|Hy]; [congruence|].
      specialize (Fa y Hy). specialize (Fb x Hx). lia. }
    subst y. f_equal. apply IH; auto. intros v. split; intros Hv.
    + destruct (proj1 (H v) (or_intror Hv)) as [->|]; [|assumption]. specialize (Fa v Hv). lia.
    + destruct (proj2 (H v) (or_intror Hv)) as [->|]; [|assumption]. specialize (Fb v Hv). lia.
Qed.

Lemma nonzero_incr ks : increasing lt (nonzero ks).
Proof.
  unfold nonzero, increasing. generalize (SSorted_range 0 (length ks)). generalize (range 0 (length ks)) as l.
  induction 1 as [|x l Hs IH Hf]; cbn; [constructor|].
  destruct (negb _); [|exact IH]. constructor; [exact IH|].
  rewrite Forall_forall in *. intros y Hy. apply filter_In in Hy. apply Hf, Hy.
Qed.

Lemma lookup_flat t d e vs : lookup t d e = Some vs -> In vs (flat_top t).
Proof.
  unfold lookup. destruct (dlookup d t) as [es|] eqn:E; [|discriminate]. intros H.
  apply dlookup_weak in E. apply elookup_weak in H. unfold flat_top. apply in_flat_map. exists (d, es).
  split; [exact E|]. change vs with (snd (e, vs)). now apply in_map.
Qed.

(** Every index is on exactly one entity, and that entity is the one whose
    vertices are the support of the multi-index. *)
Theorem C25_entity_ids : forall c degree, ordered c -> 1 <= degree ->
  exists ids, bernstein_ids c degree = Ok ids /\
    same_entities ids (topology c) /\
    partitions ids (length (mis (spatial_dimension c + 1) degree)) /\
    forall x i, In i (dofs_on ids x) <->
      exists ks, nth_error (mis (spatial_dimension c + 1) degree) i = Some ks /\ supported_on c x ks.
Proof.
  intros c degree Hc Hd. set (kss := mis (spatial_dimension c + 1) degree).
  assert (Hin : forall ks, In ks kss -> length ks = spatial_dimension c + 1 /\ nsum ks = degree).
  { intros ks H. apply mis_in in H; [exact H|lia]. }
  destruct (ordered_top c Hc) as (ND & Hi).
  exists (dmap (at_support 0 kss) (topology c)). split; [|split; [|split]].
  - unfold bernstein_ids. change (empty_ids (topology c)) with (dmap (fun _ => []) (topology c)).
    fold kss. rewrite (fill_dmap c kss 0 (fun _ => [])); [reflexivity|].
    intros ks n Hk. destruct (Hin ks Hk) as (L & S). apply step_ordered; [exact Hc|exact L|lia].
  - intros d e. rewrite lookup_dmap. destruct (lookup (topology c) d e); cbn; easy.
  - unfold partitions. rewrite all_dofs_dmap. apply NoDup_Permutation.
    + apply ProofsCell.NoDup_flat_map; [exact ND|intros; apply at_support_NoDup|].
      intros a b z Ha Hb H1 H2. apply in_at_support in H1 as (_ & k1 & E1 & <-).
      apply in_at_support in H2 as (_ & k2 & E2 & <-). congruence.
    + apply seq_NoDup.
    + intros i. rewrite in_flat_map, in_seq. split.
      * intros (vs & _ & H). apply in_at_support in H as (_ & ks & E & _). rewrite Nat.sub_0_r in E.
        split; [lia|]. apply nth_error_Some. congruence.
      * intros (_ & H). destruct (nth_error kss i) as [ks|] eqn:E; [|apply nth_error_None in E; lia].
        exists (nonzero ks). split; [|apply in_at_support; split; [lia|]; exists ks; rewrite Nat.sub_0_r; auto].
        destruct (Hin ks (nth_error_In _ _ E)) as (L & S).
        destruct (step_ordered c 0 ks Hc L ltac:(lia)) as (x & Hx & _).
        unfold inverse_lookup in Hx. destruct (find _ _) as [[vs' y]|] eqn:F; [|discriminate].
        apply find_some in F as (F & G). cbn in G. apply leqb_eq in G as ->.
        apply in_rev in F. unfold inverse_topology in F. apply in_flat_map in F as ([d es] & F1 & F2).
        apply in_map_iff in F2 as ([e vs] & [= -> <-] & F2). unfold flat_top. apply in_flat_map.
        exists (d, es). split; [exact F1|]. change vs' with (snd (e, vs')). now apply in_map.
  - intros [d e] i. unfold dofs_on, supported_on; cbn [fst snd]. rewrite lookup_dmap.
    destruct (lookup (topology c) d e) as [vs|] eqn:E; cbn [option_map option_list].
    + rewrite in_at_support, Nat.sub_0_r. split.
      * intros (_ & ks & Ek & <-). exists ks. split; [exact Ek|]. split; [discriminate|]. intros v.
        unfold dofs_on; cbn [fst snd]; rewrite E. apply in_nonzero.
      * intros (ks & Ek & _ & H). split; [lia|]. exists ks. split; [exact Ek|].
        unfold dofs_on in H; cbn [fst snd] in H; rewrite E in H; cbn in H. apply increasing_same; [apply nonzero_incr|apply Hi; eapply lookup_flat; eauto|].
        intros v. rewrite in_nonzero. symmetry. apply H.
    + split; [easy|]. now intros (ks & _ & H & _).
Qed.
Print Assumptions C25_entity_ids.

Example C25_entity_ids_nonvacuous :
  bernstein_ids UFCTriangle 3 = Ok [(DI 0, [(0, [0]); (1, [6]); (2, [9])]);
                                    (DI 1, [(0, [7; 8]); (1, [2; 5]); (2, [1; 3])]); (DI 2, [(0, [4])])] /\
  nth_error (mis 3 3) 7 = Some [0; 2; 1] /\ supported_on UFCTriangle (DI 1, 0) [0; 2; 1].
Proof.
  split; [reflexivity|]. split; [reflexivity|]. split; [cbn; discriminate|].
  intros [|[|[|[|v]]]]; cbn; intuition lia.
Qed.

(** Degree 0: the constant's multi-index has empty support, which is no entity. *)
Theorem C25_degree_zero_refused : forall c, simplex c -> bernstein_ids c 0 = Err KeyError.
Proof. intros c Hc. destruct c; try contradiction; reflexivity. Qed.

(** On the other triangles and tetrahedra an edge is listed as (2, 0), not in
    the increasing order [nonzero] produces, so every degree above 1 fails. *)
Theorem C25_unordered_refuted : forall c degree, unordered c -> 2 <= degree -> bernstein_ids c degree = Err KeyError.
Proof.
  intros c degree Hc Hd. unfold bernstein_ids.
  assert (G : forall kss n ids, (exists ks, In ks kss /\ inverse_lookup (nonzero ks) (inverse_topology (topology c)) = Err KeyError) ->
    fill (inverse_topology (topology c)) n kss ids = Err KeyError).
  { induction kss as [|k kss IH]; intros n ids (ks & Hk & H); [destruct Hk|]. destruct Hk as [->|Hk].
    - cbn [fill]. now rewrite H.
    - cbn [fill]. destruct (inverse_lookup (nonzero k) (inverse_topology (topology c))) as [x|e] eqn:E.
      + cbn [bind]. apply IH. now exists ks.
      + cbn [bind]. unfold inverse_lookup in E. destruct (find _ _) as [[? ?]|]; congruence. }
  apply G. exists ([1; 0; degree - 1] ++ repeat 0 (spatial_dimension c - 2)). split.
  - apply mis_in; [lia|]. unfold multi_index. destruct Hc as [-> | [-> | [-> | ->]]]; cbn; lia.
  - destruct degree as [|[|degree]]; [lia|lia|]. destruct Hc as [-> | [-> | [-> | ->]]]; reflexivity.
Qed.
Print Assumptions C25_unordered_refuted.
