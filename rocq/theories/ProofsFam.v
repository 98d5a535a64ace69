(** Proofs about the dual sets of the element families. *)
From Coq Require Import Permutation.
From Verif Require Import Base ModelIndex SpecIndex ProofsIndex ModelCell SpecCell ProofsCell ModelConcat SpecConcat
  ModelFam SpecFam.

Section Proofs.
  Context {K : fieldT} (HK : char0 K).
  Add Field KFfam : (@f_th K).
  Notation node := (node K).
  Notation element := (element K).
  Notation make_points := (make_points K).

  (** ** Points *)
  Lemma top_entities c d e : simplex c -> d <= spatial_dimension c -> e < num c d ->
    exists vs, elookup e (top c d) = Some vs /\ length vs = S d /\ (forall v, In v vs -> v < num_vertices c).
  Proof.
    intros Hc Hd He.
    destruct c; try contradiction; cbn in Hd;
      (destruct d as [|[|[|[|d]]]]; try lia; cbn in He;
       do 7 (destruct e as [|e]; try lia;
             try (eexists; split; [reflexivity|]; split; [reflexivity|]; cbn; intros v Hv;
                  repeat destruct Hv as [<-|Hv]; try lia; contradiction))).
  Qed.

  Lemma vertices_length c v : simplex c -> v < num_vertices c ->
    length (nth v (vertices K c) []) = spatial_dimension c.
  Proof.
    intros Hc Hv. destruct c; try contradiction; cbn in Hv;
      do 5 (destruct v as [|v]; try lia; try reflexivity).
  Qed.

  Lemma vertices_of_eq c d e : @vertices_of K c d e = entity_vertices K c d e.
  Proof.
    unfold vertices_of, entity_vertices, dofs_on, top, lookup; cbn [fst snd].
    destruct (dlookup (DI d) (topology c)); reflexivity.
  Qed.

  Lemma cell_vertices c : simplex c -> vertices K c = entity_vertices K c (spatial_dimension c) 0.
  Proof. intros Hc; destruct c; try contradiction; reflexivity. Qed.

  Lemma num_cell c : simplex c -> num c (spatial_dimension c) = 1.
  Proof. intros Hc; destruct c; try contradiction; reflexivity. Qed.

  Lemma num_vertices_0 c : simplex c -> num c 0 = num_vertices c.
  Proof. intros Hc; destruct c; try contradiction; reflexivity. Qed.

  Lemma top0 c e : simplex c -> e < num c 0 -> elookup e (top c 0) = Some [e].
  Proof.
    intros Hc He. destruct c; try contradiction; cbn in He;
      do 5 (destruct e as [|e]; try lia; try reflexivity).
  Qed.

  Lemma make_points_lattice c d e order : simplex c -> 1 <= d <= spatial_dimension c -> e < num c d ->
    make_points c d e order = make_lattice (entity_vertices K c d e) order 1.
  Proof.
    intros Hc Hd He. unfold make_points.
    destruct (Nat.eqb_spec d 0); [lia|]. destruct (Nat.ltb_spec d (spatial_dimension c)); [reflexivity|].
    assert (d = spatial_dimension c) by lia; subst d. rewrite num_cell in He by assumption.
    assert (e = 0) by lia; subst e. now rewrite cell_vertices.
  Qed.

  Lemma entity_vertices_length c d e : simplex c -> d <= spatial_dimension c -> e < num c d ->
    length (entity_vertices K c d e) = S d.
  Proof.
    intros Hc Hd He. destruct (top_entities c d e Hc Hd He) as (vs & E & L & _).
    unfold entity_vertices. rewrite E, map_length. exact L.
  Qed.

  Lemma make_points_length c d e order : simplex c -> 1 <= d <= spatial_dimension c -> e < num c d ->
    length (make_points c d e order) = binom (order - 1) d.
  Proof.
    intros Hc Hd He. rewrite make_points_lattice by assumption.
    rewrite (make_lattice_length _ order 1 d) by (try rewrite entity_vertices_length; lia || assumption).
    destruct (Nat.le_gt_cases (S d) order) as [H|H].
    - f_equal. lia.
    - rewrite !binom_lt by lia. reflexivity.
  Qed.

  Lemma make_points_length0 c e order : length (make_points c 0 e order) = 1.
  Proof. reflexivity. Qed.

  Lemma binom_0 n : binom n 0 = 1. Proof. now destruct n. Qed.
  Ltac pts := repeat match goal with
    | |- context [length (ModelFam.make_points K ?c 0 ?e ?o)] => rewrite (make_points_length0 c e o)
    | |- context [length (ModelFam.make_points K ?c ?d ?e ?o)] =>
      rewrite (make_points_length c d e o) by (first [exact I | solve [auto] | cbn; lia])
    end.
  (** expand binomials by Pascal's rule *)
  Ltac pascal :=
    repeat match goal with
    | |- context [binom (?n - 1) ?d] =>
      match n with
      | S ?m => replace (S m - 1) with m by lia
      | ?a + ?b => let m := eval cbn in (pred b) in replace (a + b - 1) with (a + m) by lia
      end
    end;
    rewrite ?Nat.add_succ_r, ?Nat.add_succ_l, ?Nat.add_0_r, ?Nat.add_0_l;
    rewrite ?binom_SS, ?binom_1, ?binom_0; cbn [binom].

  Lemma make_points_interior c d e order x : simplex c -> d <= spatial_dimension c -> e < num c d ->
    In x (make_points c d e order) -> interior_point (vertices_of c d e) x.
  Proof.
    intros Hc Hd He Hx. rewrite vertices_of_eq. destruct d as [|d].
    - cbn in Hx. destruct Hx as [<-|[]].
      unfold entity_vertices. rewrite top0 by assumption. cbn.
      exists [1]. split; [reflexivity|]. split; [intros w [<-|[]]; lia|].
      eexists. split; [reflexivity|]. split; [reflexivity|].
      intros i _. cbn. ring.
    - rewrite make_points_lattice in Hx by (lia || assumption).
      assert (L := entity_vertices_length c (S d) e Hc Hd He).
      destruct (Nat.eq_dec order 0) as [->|Ho].
      { exfalso. assert (length (make_lattice (entity_vertices K c (S d) e) 0 1) = 0).
        { rewrite (make_lattice_length _ 0 1 (S d)) by lia. apply binom_lt. lia. }
        apply in_split in Hx as (l1 & l2 & E). rewrite E, app_length in H. cbn in H. lia. }
      assert (Dim : forall v, In v (entity_vertices K c (S d) e) -> length v = spatial_dimension c).
      { intros v Hv. destruct (top_entities c (S d) e Hc Hd He) as (vs & E & _ & Hvs).
        unfold entity_vertices in Hv. rewrite E in Hv. cbn in Hv. apply in_map_iff in Hv as (w & <- & Hw).
        apply vertices_length; auto. }
      destruct (make_lattice_spec (entity_vertices K c (S d) e) order 1 (S d) _ L ltac:(lia) (HK order Ho) Dim)
        as (idxs & Hin & _ & HF).
      apply In_nth_error in Hx as (p & Hp).
      assert (Hk : exists k, In k idxs /\ is_lattice_point (entity_vertices K c (S d) e) order k x).
      { clear -Hp HF. revert p Hp. induction HF as [|k y ks ys Hk HF IH]; intros [|p] Hp; cbn in Hp; try discriminate.
        - injection Hp as <-. exists k. split; [now left|exact Hk].
        - destruct (IH p Hp) as (k' & H1 & H2). exists k'. split; [now right|exact H2]. }
      destruct Hk as (k & Hk & (v0 & E0 & Lx & Hc0)). apply Hin in Hk as (Lk & Hk1 & Hk2).
      exists ((order - nsum k) :: k). split; [cbn; lia|]. split.
      { intros w [<-|Hw]; [lia|auto]. }
      exists v0. split; [exact E0|]. split; [exact Lx|].
      intros i Hi. rewrite Hc0 by lia.
      replace (nsum (order - nsum k :: k)) with order by (unfold nsum in *; cbn; lia).
      set (w := wsum _ _). pose proof (HK order Ho) as Hn. field. exact Hn.
  Qed.

  (** ** Sequential numbering *)
  Inductive seqd (c : cell) : nat -> list (dimT * nat * list nat) -> list (list node) -> Prop :=
  | seqd_nil off : seqd c off [] []
  | seqd_cons off d e ns R N :
      Forall (node_on c d e) ns -> seqd c (off + length ns) R N ->
      seqd c off ((DI d, e, seq off (length ns)) :: R) (ns :: N).

  Lemma seqd_app c off R1 N1 R2 N2 :
    seqd c off R1 N1 -> seqd c (off + length (concat N1)) R2 N2 -> seqd c off (R1 ++ R2) (N1 ++ N2).
  Proof.
    intros H1. induction H1 as [off|off d e ns R N Hn H1 IH]; intros H2; cbn in *.
    - now rewrite Nat.add_0_r in H2.
    - constructor; [exact Hn|]. apply IH. rewrite app_length in H2. now rewrite <- Nat.add_assoc.
  Qed.

  Lemma seqd_dofs c off R N : seqd c off R N -> flat_map snd R = seq off (length (concat N)).
  Proof.
    induction 1 as [off|off d e ns R N Hn H1 IH]; [reflexivity|].
    cbn [flat_map concat snd]. rewrite app_length, seq_app, IH. reflexivity.
  Qed.

  Lemma seqd_place c off R N d e l i : seqd c off R N -> In (d, e, l) R -> In i l ->
    off <= i /\ exists n d', d = DI d' /\ nth_error (concat N) (i - off) = Some n /\ node_on c d' e n.
  Proof.
    induction 1 as [off|off d0 e0 ns R N Hn H1 IH]; [contradiction|].
    intros [E|HR] Hi.
    - injection E as <- <- <-. apply in_seq in Hi. split; [lia|].
      destruct (nth_error ns (i - off)) as [n|] eqn:En.
      + exists n, d0. split; [reflexivity|]. cbn [concat]. rewrite nth_error_app1 by lia. split; [exact En|].
        rewrite Forall_forall in Hn. apply Hn. eapply nth_error_In; eauto.
      + apply nth_error_None in En. lia.
    - destruct (IH HR Hi) as (Ho & n & d' & Ed & En & Hn'). split; [lia|]. exists n, d'.
      split; [exact Ed|]. split; [|exact Hn'].
      cbn [concat]. rewrite nth_error_app2 by lia. rewrite <- En. f_equal. lia.
  Qed.

  Lemma flatten_all_dofs (ids : dict (list nat)) : all_dofs ids = flat_map snd (flatten_dict ids).
  Proof.
    unfold all_dofs, flatten_dict. induction ids as [|[d es] ids IH]; [reflexivity|].
    cbn [flat_map]. rewrite flat_map_app, <- IH. f_equal.
    clear. induction es as [|[e v] es IH]; [reflexivity|]. cbn. now rewrite IH.
  Qed.

  Lemma elookup_weak {V} (es : ents V) e v : elookup e es = Some v -> In (e, v) es.
  Proof.
    induction es as [|[e' v'] es IH]; cbn; [discriminate|].
    destruct (Nat.eqb_spec e e') as [->|]; [intros [= ->]; now left|intros H; right; auto].
  Qed.
  Lemma dlookup_weak {V} (t : list (dimT * V)) d v : dlookup d t = Some v -> In (d, v) t.
  Proof.
    induction t as [|[d' v'] t IH]; cbn; [discriminate|].
    destruct (deqb d d') eqn:E; [apply deqb_eq in E as ->; intros [= ->]; now left|intros H; right; auto].
  Qed.

  Lemma lookup_flatten (ids : dict (list nat)) d e l : lookup ids d e = Some l -> In (d, e, l) (flatten_dict ids).
  Proof.
    unfold lookup. destruct (dlookup d ids) as [es|] eqn:E; [|discriminate]. intros E2.
    apply dlookup_weak in E. apply elookup_weak in E2.
    unfold flatten_dict. apply in_flat_map. exists (d, es). split; [exact E|].
    apply in_map_iff. exists (e, l). split; [reflexivity|exact E2].
  Qed.

  Lemma seqd_numbered c (el : element) N :
    el_nodes K el = concat N -> seqd c 0 (flatten_dict (el_ids K el)) N ->
    partitions (el_ids K el) (length (el_nodes K el)) /\ placed c el.
  Proof.
    intros En H. split.
    - unfold partitions. rewrite flatten_all_dofs, (seqd_dofs _ _ _ _ H), En. reflexivity.
    - intros d e i Hi. unfold dofs_on in Hi; cbn [fst snd] in Hi.
      destruct (lookup (el_ids K el) (DI d) e) as [l|] eqn:El; [|contradiction].
      apply lookup_flatten in El. destruct (seqd_place _ _ _ _ _ _ _ _ H El Hi) as (_ & n & d' & Ed & Hn & Ho).
      injection Ed as <-. exists n. rewrite En. rewrite Nat.sub_0_r in Hn. auto.
  Qed.

  (** the loop idioms *)
  Definition flat1 (d : nat) (es : ents (list nat)) : list (dimT * nat * list nat) :=
    map (fun '(e, l) => (DI d, e, l)) es.

  Lemma visit_seqd c d (f : nat -> list node) es : (forall e, In e es -> Forall (node_on c d e) (f e)) ->
    forall cur nodes ids st, visit K f es (cur, nodes) = (ids, st) ->
    seqd c cur (flat1 d ids) (map f es) /\
    st = (cur + length (concat (map f es)), nodes ++ concat (map f es)).
  Proof.
    induction es as [|e es IH]; intros Hf cur nodes ids st; cbn.
    - intros [= <- <-]. rewrite Nat.add_0_r, app_nil_r. split; [constructor|reflexivity].
    - destruct (visit K f es _) as [ids' st'] eqn:E. intros [= <- <-].
      destruct (IH (fun e' H => Hf e' (or_intror H)) _ _ _ _ E) as (H1 & ->). split.
      + unfold range. rewrite Nat.add_sub_swap, Nat.sub_diag by lia. cbn.
        constructor; [apply Hf; now left|exact H1].
      + rewrite app_length, <- app_assoc. f_equal. lia.
  Qed.

  Lemma number_each_seqd c d (f : nat -> list node) n es :
    (forall e, In e es -> Forall (node_on c d e) (f e) /\ length (f e) = n) ->
    forall cur ids cur', number_each n es cur = (ids, cur') ->
    seqd c cur (flat1 d ids) (map f es) /\ cur' = cur + length (concat (map f es)).
  Proof.
    induction es as [|e es IH]; intros Hf cur ids cur'; cbn.
    - intros [= <- <-]. split; [constructor|lia].
    - destruct (number_each n es _) as [ids' c'] eqn:E. intros [= <- <-].
      destruct (IH (fun e' H => Hf e' (or_intror H)) _ _ _ E) as (H1 & ->).
      destruct (Hf e (or_introl eq_refl)) as (Hn & <-). split.
      + unfold range. replace (cur + length (f e) - cur) with (length (f e)) by lia.
        constructor; assumption.
      + rewrite app_length. lia.
  Qed.

  Lemma nil_seqd c d cur es : seqd c cur (flat1 d (map (fun e : nat => (e, [])) es)) (map (fun _ => []) es).
  Proof.
    induction es as [|e es IH]; cbn; [constructor|].
    apply (seqd_cons c cur d e []); [constructor|]. cbn. now rewrite Nat.add_0_r.
  Qed.
  Lemma concat_nils {A B} (l : list A) : concat (map (fun _ => @nil B) l) = [].
  Proof. induction l; cbn; auto. Qed.

  Lemma one_seqd c d e cur ns l : Forall (node_on c d e) ns -> l = seq cur (length ns) ->
    seqd c cur [(DI d, e, l)] [ns].
  Proof. intros H ->. repeat constructor. exact H. Qed.

  (** ** Keys and counts *)
  Definition skel {V} (ids : dict V) : list (dimT * list nat) := map (fun '(d, es) => (d, keys es)) ids.

  Lemma elookup_keys {V W} (a : ents V) (b : ents W) e : keys a = keys b -> elookup e a = None <-> elookup e b = None.
  Proof.
    revert b. induction a as [|[x v] a IH]; intros [|[y w] b]; cbn; try discriminate; [tauto|].
    intros [= -> E]. destruct (Nat.eqb e y); [split; discriminate|]. now apply IH.
  Qed.
  Lemma same_skel {V W} (a : dict V) (b : dict W) : skel a = skel b -> same_entities a b.
  Proof.
    intros E d e. unfold lookup. revert b E.
    induction a as [|[x v] a IH]; intros [|[y w] b]; cbn; try discriminate; [tauto|].
    intros [= -> E1 E2]. destruct (deqb d y); [now apply elookup_keys|]. now apply IH.
  Qed.

  Lemma visit_keys f es st ids st' : visit K f es st = (ids, st') -> keys ids = es.
  Proof.
    revert st ids st'. induction es as [|e es IH]; intros [cur nodes] ids st'; cbn; [now intros [= <- <-]|].
    destruct (visit K f es _) eqn:E. intros [= <- <-]. cbn. f_equal. eapply IH; eauto.
  Qed.
  Lemma number_each_keys n es : forall cur ids cur', number_each n es cur = (ids, cur') -> keys ids = es.
  Proof.
    induction es as [|e es IH]; intros cur ids cur'; cbn; [now intros [= <- <-]|].
    destruct (number_each n es _) eqn:E. intros [= <- <-]. cbn. f_equal. eapply IH; eauto.
  Qed.
  Lemma empties_keys n : keys (empties n) = range 0 n.
  Proof. unfold empties, keys. rewrite map_map. cbn. apply map_id. Qed.

  Lemma concat_const {A} (f : nat -> list A) n es : (forall e, In e es -> length (f e) = n) ->
    length (concat (map f es)) = n * length es.
  Proof.
    induction es as [|e es IH]; cbn; intros H; [lia|].
    rewrite app_length, IH by (intros; apply H; now right). rewrite H by now left. lia.
  Qed.

  Lemma keys_sorted c d : simplex c -> d <= spatial_dimension c -> keys (sort_items (top c d)) = range 0 (num c d).
  Proof.
    intros Hc Hd. destruct c; try contradiction; cbn in Hd;
      (destruct d as [|[|[|[|d]]]]; try lia; reflexivity).
  Qed.
  Lemma keys_top c d : simplex c -> d <= spatial_dimension c -> keys (top c d) = range 0 (num c d).
  Proof.
    intros Hc Hd. destruct c; try contradiction; cbn in Hd;
      (destruct d as [|[|[|[|d]]]]; try lia; reflexivity).
  Qed.

  Lemma flatten_app (a b : dict (list nat)) : flatten_dict (a ++ b) = flatten_dict a ++ flatten_dict b.
  Proof. apply flat_map_app. Qed.
  Lemma flatten_one d es : flatten_dict [(DI d, es)] = flat1 d es.
  Proof. unfold flatten_dict, flat1. cbn. apply app_nil_r. Qed.
  Lemma flatten_cons d es (b : dict (list nat)) : flatten_dict ((DI d, es) :: b) = flat1 d es ++ flatten_dict b.
  Proof. reflexivity. Qed.

  (** ** Dimensions *)
  Lemma binom2 n : 2 * binom (n + 2) 2 = (n + 1) * (n + 2).
  Proof.
    induction n as [|n IH]; [reflexivity|].
    replace (S n + 2) with (S (n + 2)) by lia. rewrite binom_SS, binom_1. nia.
  Qed.
  Lemma binom3 n : 6 * binom (n + 3) 3 = (n + 1) * (n + 2) * (n + 3).
  Proof.
    induction n as [|n IH]; [reflexivity|].
    replace (S n + 3) with (S (n + 3)) by lia. rewrite binom_SS.
    pose proof (binom2 (n + 1)) as E. replace (n + 1 + 2) with (n + 3) in E by lia. nia.
  Qed.
  Lemma dimension_binom c degree : simplex c ->
    polynomial_dimension c degree = Ok (binom (degree + spatial_dimension c) (spatial_dimension c)).
  Proof.
    intros Hc.
    assert (E1 : degree + 1 = binom (degree + 1) 1) by (now rewrite binom_1).
    assert (E2 : (degree + 1) * (degree + 2) / 2 = binom (degree + 2) 2).
    { rewrite <- binom2, Nat.mul_comm. apply Nat.div_mul. lia. }
    assert (E3 : (degree + 1) * (degree + 2) * (degree + 3) / 6 = binom (degree + 3) 3).
    { rewrite <- binom3, Nat.mul_comm. apply Nat.div_mul. lia. }
    destruct c; try contradiction; cbn [polynomial_dimension spatial_dimension]; f_equal; assumption.
  Qed.

  (** ** Lagrange *)
  Definition pe_nodes (c : cell) (degree : nat) (d e : nat) : list node :=
    map (PointEvaluation K) (make_points c d e degree).

  Lemma pe_on c degree d e : simplex c -> d <= spatial_dimension c -> e < num c d ->
    Forall (node_on c d e) (pe_nodes c degree d e).
  Proof.
    intros Hc Hd He. apply Forall_forall. intros n Hn. apply in_map_iff in Hn as (x & <- & Hx). cbn.
    eapply make_points_interior; eauto.
  Qed.

  Lemma lagrange_dims_seqd c degree t : simplex c ->
    (forall dim es, In (dim, es) t -> exists d, dim = DI d /\ d <= spatial_dimension c /\
      keys (sort_items es) = range 0 (num c d)) ->
    forall cur nodes ids st, lagrange_dims K c degree t (cur, nodes) = (ids, st) ->
    exists N, seqd c cur (flatten_dict ids) N /\ st = (cur + length (concat N), nodes ++ concat N) /\
      skel ids = map (fun '(d, es) => (d, keys (sort_items es))) t /\
      length (concat N) = nsum (map (fun '(d, es) => length (sort_items es) *
                                        length (make_points c (tuple_sum d) 0 degree)) t).
  Proof.
    intros Hc. induction t as [|[dim es] t IH]; intros Ht cur nodes ids st; cbn.
    - intros [= <- <-]. exists []. cbn. rewrite Nat.add_0_r, app_nil_r. repeat split; constructor.
    - destruct (Ht dim es (or_introl eq_refl)) as (d & -> & Hd & Hk).
      rewrite Hk. cbn [tuple_sum].
      destruct (visit K _ _ _) as [ids1 st1] eqn:E1.
      destruct (lagrange_dims K c degree t st1) as [rest st2] eqn:E2. intros [= <- <-].
      pose proof (visit_keys _ _ _ _ _ E1) as Ek.
      apply (visit_seqd c d) in E1 as (S1 & ->).
      2:{ intros e He. apply in_range in He. apply pe_on; auto; lia. }
      destruct (IH (fun dim' es' H => Ht dim' es' (or_intror H)) _ _ _ _ E2) as (N & S2 & -> & Hs & Hl).
      eexists (_ ++ N). split; [|split; [|split]].
      + rewrite flatten_cons. eapply seqd_app; eauto.
      + rewrite concat_app, app_length, app_assoc. f_equal. lia.
      + unfold skel in *. cbn [map]. rewrite Ek, Hs, <- ?Hk. reflexivity.
      + rewrite concat_app, app_length, Hl. f_equal.
        rewrite (concat_const _ (length (make_points c d 0 degree))).
        * replace (length (range 0 (num c d))) with (length (sort_items es)); [lia|].
          rewrite <- Hk. unfold keys. now rewrite map_length.
        * intros e He. apply in_range in He. rewrite map_length.
          destruct d as [|d]; [reflexivity|]. rewrite !make_points_length by (lia || assumption). reflexivity.
  Qed.

  Lemma topology_dims c dim es : simplex c -> In (dim, es) (sort_dims (topology c)) ->
    exists d, dim = DI d /\ d <= spatial_dimension c /\ keys (sort_items es) = range 0 (num c d).
  Proof.
    intros Hc H. destruct c; try contradiction; cbn in H;
      repeat (destruct H as [[= <- <-]|H]; [eexists; split; [reflexivity|]; split; [cbn; lia|reflexivity]|]);
      contradiction.
  Qed.

  Lemma Lagrange_ok c degree : simplex c -> 1 <= degree ->
    complete c (binom (degree + spatial_dimension c) (spatial_dimension c)) (Lagrange K c degree).
  Proof.
    intros Hc Hdeg. unfold complete, Lagrange, on_members. rewrite dimension_binom by assumption. cbn [bind].
    unfold lagrange_dual. destruct (lagrange_dims K c degree _ _) as [ids st] eqn:E.
    destruct (lagrange_dims_seqd c degree _ Hc (fun dim es => topology_dims c dim es Hc) _ _ _ _ E)
      as (N & HS & -> & Hsk & Hl). cbn [snd app].
    eexists. split; [reflexivity|].
    destruct (seqd_numbered c (mkEl K (1 * binom (degree + spatial_dimension c) (spatial_dimension c)) (concat N) ids) N
                eq_refl HS) as (H1 & H2).
    split; [split; [exact H1|]|split; [exact H2|split; [cbn; lia|]]].
    - apply same_skel. cbn [el_ids]. rewrite Hsk. clear -Hc. destruct c; try contradiction; reflexivity.
    - cbn [el_nodes]. rewrite Hl. clear -Hc Hdeg. destruct degree as [|k]; [lia|].
      destruct c; try contradiction; 
       cbn -[ModelFam.make_points binom Nat.mul];
       pts; pascal; lia.
  Qed.

  Lemma complete_intro c n m nodes ids N :
    nodes = concat N -> seqd c 0 (flatten_dict ids) N -> skel ids = skel (topology c) -> m = n ->
    length (concat N) = n -> complete c n (Ok (mkEl K m nodes ids)).
  Proof.
    intros -> HS Hsk -> Hn. eexists. split; [reflexivity|].
    destruct (seqd_numbered c (mkEl K n (concat N) ids) N eq_refl HS) as (H1 & H2).
    split; [split; [exact H1|apply same_skel; exact Hsk]|]. cbn. auto.
  Qed.

  Lemma map_on c d e {A} (f : A -> node) l : (forall x, In x l -> node_on c d e (f x)) ->
    Forall (node_on c d e) (map f l).
  Proof. intros H. apply Forall_forall. intros n Hn. apply in_map_iff in Hn as (x & <- & Hx). auto. Qed.
  Lemma flat_map_on c d e {A} (f : A -> list node) l : (forall x, In x l -> Forall (node_on c d e) (f x)) ->
    Forall (node_on c d e) (flat_map f l).
  Proof.
    intros H. apply Forall_forall. intros n Hn. apply in_flat_map in Hn as (x & Hx & Hn).
    specialize (H x Hx). rewrite Forall_forall in H. auto.
  Qed.

  Lemma vertex_interior c v : simplex c -> v < num c 0 -> interior_point (vertices_of c 0 v) (vertex K c v).
  Proof. intros Hc Hv. apply (make_points_interior c 0 v 0); auto; [lia|]. now left. Qed.

  Lemma jet1_on c v : simplex c -> v < num c 0 -> Forall (node_on c 0 v) (jet1 K c v).
  Proof.
    intros Hc Hv. constructor; [apply vertex_interior; auto|].
    apply map_on. intros i _. apply vertex_interior; auto.
  Qed.
  Lemma jet2_on c v : simplex c -> v < num c 0 -> Forall (node_on c 0 v) (jet2 K c v).
  Proof.
    intros Hc Hv. apply Forall_app; split; [now apply jet1_on|].
    apply map_on. intros i _. apply vertex_interior; auto.
  Qed.
  Lemma jet1_length c v : length (jet1 K c v) = S (spatial_dimension c).
  Proof. unfold jet1. cbn. now rewrite map_length, length_range, Nat.sub_0_r. Qed.
  Lemma jet2_length c v : length (jet2 K c v) = spatial_dimension c + 4.
  Proof. unfold jet2. rewrite app_length, jet1_length. cbn. lia. Qed.

  Lemma first_in {A} (l : list A) x : In x (first l) -> In x l.
  Proof. destruct l; cbn; [tauto|intros [<-|[]]; now left]. Qed.
  Lemma first_length {A} (l : list A) : 1 <= length l -> length (first l) = 1.
  Proof. destruct l; cbn; lia. Qed.

  (** [{i: [] for i in top[d]}] *)
  Lemma nil_top_keys c d : keys (map (fun '(i, _) => (i, @nil nat)) (top c d)) = keys (top c d).
  Proof. unfold keys. rewrite map_map. apply map_ext. now intros []. Qed.
  Lemma nil_top_seqd c d cur : seqd c cur (flat1 d (map (fun '(i, _) => (i, @nil nat)) (top c d)))
                                    (map (fun _ => []) (keys (top c d))).
  Proof.
    replace (map (fun '(i, _) => (i, [])) (top c d)) with (map (fun e : nat => (e, @nil nat)) (keys (top c d))).
    - apply nil_seqd.
    - unfold keys. rewrite map_map. apply map_ext. now intros [].
  Qed.

  Lemma CubicHermite_ok c : simplex c ->
    complete c (binom (3 + spatial_dimension c) (spatial_dimension c)) (CubicHermite K c 3).
  Proof.
    intros Hc. unfold CubicHermite, on_members. cbn [Nat.eqb negb]. rewrite dimension_binom by assumption. cbn [bind].
    destruct (visit K (jet1 K c) _ _) as [ids0 st] eqn:E0.
    rewrite keys_sorted in E0 by (assumption || lia).
    pose proof (visit_keys _ _ _ _ _ E0) as K0.
    apply (visit_seqd c 0) in E0 as (S0 & ->).
    2:{ intros e He. apply in_range in He. apply jet1_on; [assumption|lia]. }
    assert (L0 : length (concat (map (jet1 K c) (range 0 (num c 0)))) = S (spatial_dimension c) * num c 0).
    { rewrite (concat_const _ (S (spatial_dimension c))) by (intros; apply jet1_length).
      now rewrite length_range, Nat.sub_0_r. }
    destruct (Nat.ltb_spec 1 (spatial_dimension c)) as [Hd|Hd].
    - destruct (visit K _ _ _) as [ids2 st'] eqn:E2.
      rewrite keys_sorted in E2 by (assumption || lia).
      pose proof (visit_keys _ _ _ _ _ E2) as K2.
      apply (visit_seqd c 2) in E2 as (S2 & ->).
      2:{ intros e He. apply in_range in He. apply map_on. intros x Hx. apply first_in in Hx. cbn.
          eapply make_points_interior; eauto; lia. }
      set (F := fun f => map (PointEvaluation K) (first (make_points c 2 f 3))) in *.
      assert (L2 : length (concat (map F (range 0 (num c 2)))) = num c 2).
      { rewrite (concat_const _ 1). { rewrite length_range. lia. }
        intros e He. apply in_range in He. unfold F. rewrite map_length.
        apply first_length. rewrite make_points_length by (assumption || lia). cbn. lia. }
      set (rest := map _ (range 3 _)).
      set (NR := flat_map (fun d => map (fun _ => @nil node) (keys (top c d))) (range 3 (spatial_dimension c + 1))).
      assert (SR : forall cur, seqd c cur (flatten_dict rest) NR).
      { intros cur. unfold rest, NR. generalize (range 3 (spatial_dimension c + 1)). intros l. revert cur.
        induction l as [|d l IH]; intros cur; cbn [map flat_map]; [constructor|].
        rewrite flatten_cons. apply seqd_app; [apply nil_top_seqd|apply IH]. }
      assert (NR0 : concat NR = []).
      { unfold NR. generalize (range 3 (spatial_dimension c + 1)). intros l.
        induction l as [|d l IH]; [reflexivity|]. cbn [flat_map]. now rewrite concat_app, concat_nils, IH. }
      eapply (complete_intro _ _ _ _ _ (map (jet1 K c) (range 0 (num c 0)) ++
                             (map (fun _ => []) (keys (top c 1)) ++
                              (map F (range 0 (num c 2)) ++ NR)))).
      + cbn [snd app]. rewrite !concat_app, concat_nils, NR0, app_nil_r. reflexivity.
      + cbn [app]. rewrite !flatten_cons. apply seqd_app; [exact S0|]. apply seqd_app; [apply nil_top_seqd|].
        rewrite concat_nils. cbn [length]. rewrite Nat.add_0_r. apply seqd_app; [exact S2|]. apply SR.
      + unfold skel. cbn [map app]. rewrite K0, K2, nil_top_keys. unfold rest. rewrite map_map.
        clear -Hc Hd. destruct c; try contradiction; try (cbn in Hd; lia); reflexivity.
      + lia.
      + rewrite !concat_app, concat_nils, NR0, !app_length, L0, L2.
        clear -Hc Hd. destruct c; try contradiction; try (cbn in Hd; lia); reflexivity.
    - eapply (complete_intro _ _ _ _ _ (map (jet1 K c) (range 0 (num c 0)) ++ map (fun _ => []) (keys (top c 1)))).
      + cbn [snd app]. rewrite !concat_app, concat_nils, app_nil_r. reflexivity.
      + rewrite !flatten_cons. apply seqd_app; [exact S0|]. cbn [flatten_dict flat_map]. rewrite app_nil_r.
        apply nil_top_seqd.
      + unfold skel. cbn [map]. rewrite K0, nil_top_keys.
        clear -Hc Hd. destruct c; try contradiction; try (cbn in Hd; lia); reflexivity.
      + lia.
      + rewrite !concat_app, concat_nils, !app_length, L0.
        clear -Hc Hd. destruct c; try contradiction; try (cbn in Hd; lia); reflexivity.
  Qed.
End Proofs.
