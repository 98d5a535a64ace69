(** Product cells: entities and vertex coordinates. *)
From Coq Require Import Sorted Permutation.
From Verif Require Import Base ModelIndex Sorting ModelCell SpecCell SpecCart ProofsIndex ProofsCell ProofsCart ProofsTopo.

Lemma good_cells cs : Forall2 good (map num_vertices cs) (map topology cs).
Proof. induction cs; simpl; constructor; auto using good_cell. Qed.

(** number of entities of dimension [d] *)
Definition nents (t : topo) (d : dimT) : nat := length (option_list (dlookup d t)).

Lemma map_combine_nents cs dims :
  map (@length (list nat)) (map (map snd) (sel (map topology cs) dims)) =
  map (fun '(c, d) => nents (topology c) d) (combine cs dims).
Proof.
  unfold sel. revert dims; induction cs as [|c cs IH]; intros [|d dims]; simpl; auto.
  rewrite map_length. f_equal. apply IH.
Qed.

Lemma tp_entity cs dims :
  Forall2 (fun c d => In d (keys (topology c))) cs dims ->
  let counts := map (fun '(c, d) => nents (topology c) d) (combine cs dims) in
  let nvs := map num_vertices cs in
  (forall k, lookup (topology (TensorProductCell cs)) (DT dims) k <> None <-> k < nprod counts) /\
  (forall idx vss,
     Forall2 (fun '(c, (d, e)) vs => lookup (topology c) d e = Some vs) (combine cs (combine dims idx)) vss ->
     length idx = length cs ->
     exists vs, lookup (topology (TensorProductCell cs)) (DT dims) (row_major counts idx) = Some vs /\
       NoDup vs /\
       forall w, In w vs <-> exists vi, Forall2 (fun l x => In x l) vss vi /\ w = row_major nvs vi).
Proof.
  intros Hd counts nvs.
  assert (Hd' : Forall2 (fun t d => In d (keys t)) (map topology cs) dims) by (apply Forall2_map_l; auto).
  assert (L : forall k, lookup (topology (TensorProductCell cs)) (DT dims) k =
     nth_error (map (fun vss => map (ravel nvs) (cart vss)) (cart (map (map snd) (sel (map topology cs) dims)))) k).
  { intros k. unfold lookup. cbn [topology]. rewrite (tp_dlookup _ _ _ dims (good_cells cs) Hd').
    apply elookup_enumerate. }
  assert (C : map (@length (list nat)) (map (map snd) (sel (map topology cs) dims)) = counts)
    by apply map_combine_nents.
  split.
  - intros k. rewrite L. rewrite nth_error_Some, map_length, cart_length, C. tauto.
  - intros idx vss Hv Hl.
    assert (P : picks (map (map snd) (sel (map topology cs) dims)) idx vss).
    { clear -Hv Hl Hd. revert idx vss Hv Hl. induction Hd as [|c d cs dims Hc Hd IH]; intros [|e idx] vss Hv Hl;
        simpl in Hl; try discriminate; simpl in Hv; inversion Hv as [|? vs ? vss' H1 H2]; subst; simpl; constructor.
      - unfold lookup in H1. destruct (dlookup d (topology c)) as [es|] eqn:E; [|discriminate]. simpl.
        rewrite <- enum_ok_lookup; auto. destruct (good_cell c) as (ND & He & _).
        apply dlookup_in in E; auto. eapply He; eauto.
      - apply IH; auto. }
    pose proof (cart_picks _ _ _ P) as E. pose proof (picks_in_shape _ _ _ P) as Hs. rewrite C in E, Hs.
    exists (map (ravel nvs) (cart vss)). rewrite L, nth_error_map.
    rewrite <- row_major_ravel by (apply in_shape_length; auto). rewrite E. simpl. split; auto.
    assert (A : Forall2 (fun nv v => v <> [] /\ NoDup v /\ Forall (fun w => w < nv) v) nvs vss).
    { eapply sel_vss; [apply good_cells|exact Hd'|]. eapply nth_error_In; eauto. }
    assert (A' : Forall2 (fun nv v => Forall (fun w => w < nv) v) nvs vss).
    { clear -A. induction A as [|nv v nvs vss (_ & _ & Hv) A IH]; constructor; auto. }
    split.
    + apply NoDup_map_in.
      * apply cart_NoDup. clear -A. induction A as [|nv v nvs vss (_ & Hv & _) A IH]; constructor; auto.
      * intros x y Hx Hy. apply ravel_inj; eauto using in_shape_of_cart.
    + intros w. rewrite in_map_iff. split.
      * intros (vi & <- & Hi). exists vi. split; [apply in_cart; auto|].
        apply row_major_ravel, in_shape_length. eapply in_shape_of_cart; eauto.
      * intros (vi & Hi & ->). apply in_cart in Hi. exists vi. split; auto.
        apply row_major_ravel, in_shape_length. eapply in_shape_of_cart; eauto.
Qed.

Lemma tp_keys_cells cs D : In D (keys (topology (TensorProductCell cs))) <->
  exists dims, D = DT dims /\ Forall2 (fun c d => In d (keys (topology c))) cs dims.
Proof.
  cbn [topology]. rewrite tp_keys. split; intros (dims & -> & H); exists dims; (split; auto).
  - apply Forall2_map_l in H; auto.
  - apply Forall2_map_l; auto.
Qed.

Lemma tp_vertex K cs vi coords : picks (map (vertices K) cs) vi coords ->
  nth_error (vertices K (TensorProductCell cs)) (row_major (map num_vertices cs) vi) = Some (concat coords).
Proof.
  intros P. cbn [vertices]. unfold tp_vertices. rewrite nth_error_map.
  pose proof (cart_picks _ _ _ P) as E. pose proof (picks_in_shape _ _ _ P) as Hs.
  assert (El : map (@length (list K)) (map (vertices K) cs) = map num_vertices cs).
  { rewrite map_map. apply map_ext. intros; apply vertices_length. }
  rewrite El in E, Hs. rewrite <- row_major_ravel by (apply in_shape_length; auto). rewrite E. reflexivity.
Qed.

Lemma vertex_in_range c d e vs w : lookup (topology c) d e = Some vs -> In w vs -> w < num_vertices c.
Proof.
  intros H Hw. pose proof (good_cell c) as G. apply lookup_in in H as (es & A & B); [|eapply good_proper; eauto].
  destruct G as (_ & _ & G & _). destruct (G _ _ _ _ A B) as (_ & _ & F). rewrite Forall_forall in F; auto.
Qed.
