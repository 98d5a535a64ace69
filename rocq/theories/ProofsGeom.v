(** Proofs about entity transforms. *)
From Coq Require Import Sorted Permutation.
From Verif Require Import Base ModelIndex Sorting ModelCell ModelTPE ModelGeom SpecCell SpecCart SpecGeom ProofsIndex ProofsCell ProofsCart ProofsTopo ProofsTP.

Section Proofs.
  Context {K : fieldT}.
  Add Field KF : (@f_th K).
  Notation vec := (list K).
  Notation o := (@f0 K).
  Lemma one_neq_zero : @f1 K <> o. Proof. exact (F_1_neq_0 (f_th K)). Qed.

  Lemma list_ext (n : nat) (l l' : vec) : length l = n -> length l' = n -> (forall k, k < n -> nth k l o = nth k l' o) -> l = l'.
  Proof. intros H1 H2 H. apply nth_ext with (d := o) (d' := o); [congruence|]. intros k Hk. apply H. congruence. Qed.
  Lemma length_map2 {A B C} (f : A -> B -> C) a b : length (map2 f a b) = Nat.min (length a) (length b).
  Proof. unfold map2. rewrite map_length, combine_length. reflexivity. Qed.
  Lemma nth_map2 (f : K -> K -> K) : forall a b k, k < length a -> k < length b -> nth k (map2 f a b) o = f (nth k a o) (nth k b o).
  Proof. induction a as [|x a IH]; intros [|y b] [|k] Ha Hb; simpl in *; try lia; auto. apply IH; lia. Qed.
  Lemma nth_map_seq (f : nat -> K) n k : k < n -> nth k (map f (seq 0 n)) o = f k.
  Proof. intros H. rewrite nth_indep with (d' := f 0) by (rewrite map_length, seq_length; auto). rewrite map_nth, seq_nth; auto. Qed.
  Lemma length_comb n ws (ps : list vec) : length (comb n ws ps) = n.
  Proof. unfold comb. rewrite map_length, seq_length. reflexivity. Qed.
  Lemma nth_comb n ws (ps : list vec) k : k < n -> nth k (comb n ws ps) o = fsum (map (fun '(w, p) => fmul w (nth k p f0)) (combine ws ps)).
  Proof. intros H. unfold comb. apply (nth_map_seq (fun k => fsum (map (fun '(w, p) => fmul w (nth k p f0)) (combine ws ps)))). exact H. Qed.

  (** the affine transform in closed form, for UFC reference entities *)
  Definition ufc_verts (d : nat) : list vec :=
    match d with 1 => vertices K UFCInterval | 2 => vertices K UFCTriangle | _ => vertices K UFCTetrahedron end.
  Lemma affine_closed n d v_c x : 1 <= d <= 3 -> length v_c = S d -> Forall (fun v => length v = n) v_c -> length x = d ->
    affine_transform n d (ufc_verts d) v_c x = Ok (comb n (bary x) v_c).
  Proof.
    intros Hd Hv Hn Hx. unfold affine_transform. rewrite Hx, Nat.eqb_refl. f_equal.
    apply list_ext with (n := n).
    - unfold vadd. rewrite length_map2, map_length, map_length, seq_length. unfold vsub. rewrite length_map2, map_length, map_length, seq_length.
      destruct v_c as [|v0 v_c]; [simpl in Hv; discriminate|]. inversion Hn; subst. simpl. lia.
    - apply length_comb.
    - intros k Hk. rewrite nth_comb by auto.
      assert (H1 := one_neq_zero).
      assert (Hd' : d = 1 \/ d = 2 \/ d = 3) by lia.
      destruct Hd' as [-> | [-> | ->]].
      + destruct v_c as [|a [|b [|]]]; try discriminate. destruct x as [|x0 [|]]; try discriminate.
        inversion Hn as [|? ? L0 Hn1]; subst. inversion Hn1 as [|? ? L1 Hn2]; subst.
        unfold vadd. rewrite nth_map2.
        * unfold vsub at 1. rewrite nth_map2.
          -- rewrite !map_map. rewrite !nth_map_seq by auto. cbn -[fsum]. unfold column, dot. cbn -[nth].
             unfold vsub. rewrite nth_map2 by lia. field. auto.
          -- auto.
          -- rewrite !map_length, seq_length; auto.
        * unfold vsub. rewrite length_map2, !map_length, seq_length. simpl; lia.
        * rewrite !map_length, seq_length; auto.
      + destruct v_c as [|a [|b [|c [|]]]]; try discriminate. destruct x as [|x0 [|x1 [|]]]; try discriminate.
        inversion Hn as [|? ? L0 Hn1]; subst. inversion Hn1 as [|? ? L1 Hn2]; subst. inversion Hn2 as [|? ? L2 Hn3]; subst.
        unfold vadd. rewrite nth_map2.
        * unfold vsub at 1. rewrite nth_map2.
          -- rewrite !map_map. rewrite !nth_map_seq by auto. cbn -[fsum]. unfold column, dot. cbn -[nth].
             unfold vsub. rewrite !nth_map2 by lia. field. auto.
          -- auto.
          -- rewrite !map_length, seq_length; auto.
        * unfold vsub. rewrite length_map2, !map_length, seq_length. simpl; lia.
        * rewrite !map_length, seq_length; auto.
      + destruct v_c as [|a [|b [|c [|e [|]]]]]; try discriminate. destruct x as [|x0 [|x1 [|x2 [|]]]]; try discriminate.
        inversion Hn as [|? ? L0 Hn1]; subst. inversion Hn1 as [|? ? L1 Hn2]; subst. inversion Hn2 as [|? ? L2 Hn3]; subst. inversion Hn3 as [|? ? L3 Hn4]; subst.
        unfold vadd. rewrite nth_map2.
        * unfold vsub at 1. rewrite nth_map2.
          -- rewrite !map_map. rewrite !nth_map_seq by auto. cbn -[fsum]. unfold column, dot. cbn -[nth].
             unfold vsub. rewrite !nth_map2 by lia. field. auto.
          -- auto.
          -- rewrite !map_length, seq_length; auto.
        * unfold vsub. rewrite length_map2, !map_length, seq_length. simpl; lia.
        * rewrite !map_length, seq_length; auto.
  Qed.

  Definition good_T (T : @pmap K) (d : nat) (svs tvs : list vec) (n : nat) : Prop :=
    affine_map T d n /\ Forall2 (fun w v => T w = Ok v) svs tvs /\ Forall (fun w => length w = d) svs.

  (** *** linear algebra on [comb] *)
  Lemma comb_cons n w ws (p : vec) ps : length p = n ->
    comb n (w :: ws) (p :: ps) = vadd (map (fmul w) p) (comb n ws ps).
  Proof.
    intros Hp. apply list_ext with (n := n); [apply length_comb| |].
    - unfold vadd. rewrite length_map2, map_length, length_comb. lia.
    - intros k Hk. rewrite nth_comb by auto. unfold vadd. rewrite nth_map2; [|rewrite ?map_length, ?length_comb; lia|rewrite ?map_length, ?length_comb; lia].
      rewrite nth_comb by auto. cbn [combine map fsum fold_right]. f_equal.
      rewrite (nth_indep (map (fmul w) p) o (fmul w o)) by (rewrite map_length; lia). rewrite map_nth. reflexivity.
  Qed.
  Lemma dot_cons x (c : vec) y a : dot (x :: c) (y :: a) = fadd (fmul x y) (dot c a). Proof. reflexivity. Qed.
  Lemma vadd_cons (x : K) c y a : vadd (x :: c) (y :: a) = fadd x y :: vadd c a. Proof. reflexivity. Qed.
  Lemma dot_nil_r (c : vec) : dot c [] = o. Proof. destruct c; reflexivity. Qed.
  Lemma dot_add : forall (c a b : vec), length a = length c -> length b = length c -> dot c (vadd a b) = fadd (dot c a) (dot c b).
  Proof.
    induction c as [|x c IH]; intros [|y a] [|z b] Ha Hb; simpl in Ha, Hb; try discriminate; [cbn; ring|].
    rewrite vadd_cons, !dot_cons, IH by lia. ring.
  Qed.
  Lemma dot_scale : forall (c a : vec) w, dot c (map (fmul w) a) = fmul w (dot c a).
  Proof.
    induction c as [|x c IH]; intros [|y a] w; try (cbn; ring).
    cbn [map]. rewrite !dot_cons, IH. ring.
  Qed.
  Lemma dot_zero : forall (c : vec) n, dot c (repeat o n) = o.
  Proof. induction c as [|x c IH]; intros [|n]; try reflexivity. cbn [repeat]. rewrite dot_cons, IH. ring. Qed.
  Lemma comb_nil n : comb n [] ([] : list vec) = repeat o n.
  Proof.
    apply list_ext with (n := n); [apply length_comb|apply repeat_length|]. intros k Hk. rewrite nth_comb by auto. simpl.
    symmetry. apply nth_repeat.
  Qed.
  Lemma dot_comb n (c : vec) : length c = n -> forall ws ps, length ws = length ps -> Forall (fun p : vec => length p = n) ps ->
    dot c (comb n ws ps) = fsum (map (fun '(w, p) => fmul w (dot c p)) (combine ws ps)).
  Proof.
    intros Hc. induction ws as [|w ws IH]; intros [|p ps] Hl Hp; simpl in Hl; try discriminate.
    - rewrite comb_nil. apply dot_zero.
    - inversion Hp; subst. rewrite comb_cons by auto. rewrite dot_add, dot_scale, IH; auto; try (rewrite map_length; congruence).
      apply length_comb.
  Qed.
  Lemma fsum_scale : forall (l : list (K * vec)) (g : vec -> K) c,
    fsum (map (fun '(w, p) => fmul w (fadd c (g p))) l) = fadd (fmul c (fsum (map fst l))) (fsum (map (fun '(w, p) => fmul w (g p)) l)).
  Proof. induction l as [|[w p] l IH]; intros g c; simpl; [ring|]. rewrite IH. ring. Qed.
  Lemma map_fst_combine {A B} : forall (a : list A) (b : list B), length a = length b -> map fst (combine a b) = a.
  Proof. induction a as [|x a IH]; intros [|y b] H; simpl in *; try discriminate; auto. rewrite IH; auto. Qed.

  (** a map given by affine coordinate functions is affine *)
  Lemma affine_coords (T : @pmap K) d n (cst : nat -> K) (lin : nat -> vec) :
    (forall k, k < n -> length (lin k) = d) ->
    (forall x, length x = d -> exists y, T x = Ok y /\ length y = n /\ forall k, k < n -> nth k y o = fadd (cst k) (dot (lin k) x)) ->
    affine_map T d n.
  Proof.
    intros Hl H ws ps Hs Hlen Hps.
    assert (Y : exists ys, Forall2 (fun p y => T p = Ok y /\ length y = n /\ forall k, k < n -> nth k y o = fadd (cst k) (dot (lin k) p)) ps ys).
    { clear -H Hps. induction Hps as [|p ps Hp Hps IH]; [exists []; constructor|].
      destruct IH as (ys & IH). destruct (H p Hp) as (y & Hy). exists (y :: ys). constructor; auto. }
    destruct Y as (ys & Y). exists ys. split.
    { clear -Y. induction Y as [|p y ps ys (A & B & _) Y IH]; constructor; auto. }
    destruct (H (comb d ws ps) (length_comb _ _ _)) as (z & Hz & Lz & Cz). rewrite Hz. f_equal.
    apply list_ext with (n := n); [auto|apply length_comb|]. intros k Hk. rewrite Cz by auto. rewrite nth_comb by auto.
    rewrite dot_comb by auto.
    assert (E : fsum (map (fun '(w, p) => fmul w (nth k p f0)) (combine ws ys)) =
                fsum (map (fun '(w, p) => fmul w (fadd (cst k) (dot (lin k) p))) (combine ws ps))).
    { clear -Y Hk. revert ws. induction Y as [|p y ps ys (_ & _ & C) Y IH]; intros [|w ws]; simpl; auto. rewrite IH, C by auto. reflexivity. }
    rewrite E, fsum_scale, map_fst_combine, Hs by auto. ring.
  Qed.
  Lemma affine_const (v : vec) d : affine_map (fun _ => Ok v) d (length v).
  Proof.
    apply affine_coords with (cst := fun k => nth k v o) (lin := fun _ => repeat o d).
    - intros; apply repeat_length.
    - intros x Hx. exists v. repeat split; auto. intros k Hk.
      assert (E : dot (repeat o d) x = o).
      { clear. revert x. induction d as [|d IH]; intros [|y x]; try reflexivity. cbn [repeat]. rewrite dot_cons, IH. ring. }
      rewrite E. ring.
  Qed.
  Lemma affine_id d : affine_map (fun x : vec => Ok x) d d.
  Proof. intros ws ps _ _ Hp. exists ps. split; auto. induction Hp; constructor; auto. Qed.

  (** *** products *)
  Lemma F2_impl {A B} (R R' : A -> B -> Prop) l l' : (forall a b, R a b -> R' a b) -> Forall2 R l l' -> Forall2 R' l l'.
  Proof. induction 2; constructor; auto. Qed.
  Lemma F2_len {A B} (R : A -> B -> Prop) l l' : Forall2 R l l' -> length l = length l'.
  Proof. induction 1; simpl; congruence. Qed.
  Lemma comb_split d1 d2 : forall ws (ps : list vec), Forall (fun p => length p = d1 + d2) ps ->
    comb (d1 + d2) ws ps = comb d1 ws (map (firstn d1) ps) ++ comb d2 ws (map (skipn d1) ps).
  Proof.
    intros ws ps Hp. apply list_ext with (n := d1 + d2); [apply length_comb|rewrite app_length, !length_comb; auto|].
    intros k Hk. rewrite nth_comb by auto.
    assert (E : forall (g : vec -> vec) k', (forall p, length p = d1 + d2 -> nth k' (g p) o = nth k p o) ->
       fsum (map (fun '(w, p) => fmul w (nth k p f0)) (combine ws ps)) = fsum (map (fun '(w, p) => fmul w (nth k' p f0)) (combine ws (map g ps)))).
    { intros g k' Hg. clear -Hp Hg. revert ws. induction Hp as [|p ps Hp1 Hp IH]; intros [|w ws]; simpl; auto. rewrite (IH ws). rewrite Hg by auto. reflexivity. }
    destruct (Nat.lt_ge_cases k d1) as [H|H].
    - rewrite app_nth1 by (rewrite length_comb; auto). rewrite nth_comb by auto. apply E.
      intros p Lp. rewrite <- (firstn_skipn d1 p) at 2. rewrite app_nth1; auto. rewrite firstn_length; lia.
    - rewrite app_nth2 by (rewrite length_comb; auto). rewrite length_comb, nth_comb by lia. apply E.
      intros p Lp. assert (Lf : length (firstn d1 p) = d1) by (rewrite firstn_length; lia). rewrite <- (firstn_skipn d1 p) at 2. rewrite app_nth2; rewrite Lf; auto.
  Qed.
  Lemma comb_app n1 n2 : forall ws (ys zs : list vec), Forall (fun y => length y = n1) ys -> length ys = length zs ->
    Forall (fun z => length z = n2) zs ->
    comb n1 ws ys ++ comb n2 ws zs = comb (n1 + n2) ws (map2 (@app K) ys zs).
  Proof.
    intros ws ys zs H1 Hl H2. rewrite comb_split.
    - f_equal; f_equal; clear ws; revert zs Hl H2; induction H1 as [|y ys Hy H1 IH]; intros [|z zs] Hl H2; simpl in *; try discriminate; auto.
      + inversion H2; subst. rewrite firstn_app, Nat.sub_diag, firstn_all, app_nil_r. f_equal. apply IH; auto.
      + inversion H2; subst. rewrite skipn_app, Nat.sub_diag, skipn_all. simpl. f_equal. apply IH; auto.
    - revert zs Hl H2. induction H1 as [|y ys Hy H1 IH]; intros [|z zs] Hl H2; simpl in *; try discriminate; constructor.
      + inversion H2; subst. rewrite app_length. lia.
      + inversion H2; subst. apply IH; auto.
  Qed.
  Definition chain2 (T1 T2 : @pmap K) (d : nat) : pmap := fun x =>
    match T1 (firstn d x) with
    | Err e => Err e
    | Ok y => match T2 (skipn d x) with Err e => Err e | Ok r => Ok (y ++ r) end
    end.
  Lemma good_chain T1 T2 d1 d2 n1 n2 sv1 sv2 tv1 tv2 : good_T T1 d1 sv1 tv1 n1 -> good_T T2 d2 sv2 tv2 n2 ->
    good_T (chain2 T1 T2 d1) (d1 + d2) (flat_map (fun x => map (app x) sv2) sv1) (flat_map (fun x => map (app x) tv2) tv1) (n1 + n2).
  Proof.
    intros (A1 & V1 & L1) (A2 & V2 & L2). split; [|split].
    - intros ws ps Hs Hl Hp.
      destruct (A1 ws (map (firstn d1) ps) Hs) as (ys & Y & CY).
      { rewrite map_length; auto. } { apply Forall_map. eapply Forall_impl; [|exact Hp]. intros p Lp. simpl in *. rewrite firstn_length; lia. }
      destruct (A2 ws (map (skipn d1) ps) Hs) as (zs & Z & CZ).
      { rewrite map_length; auto. } { apply Forall_map. eapply Forall_impl; [|exact Hp]. intros p Lp. simpl in *. rewrite skipn_length; lia. }
      apply Forall2_map_l in Y. apply Forall2_map_l in Z.
      exists (map2 (@app K) ys zs). split.
      + clear -Y Z. revert zs Z. induction Y as [|p y ps ys (Ty & Ly) Y IH]; intros zs Z; inversion Z as [|? z ? zs' (Tz & Lz) Z']; subst; cbn; constructor.
        * unfold chain2. rewrite Ty, Tz. split; auto. rewrite app_length. lia.
        * apply IH; auto.
      + unfold chain2. rewrite comb_split by auto.
        rewrite firstn_app, length_comb, Nat.sub_diag, firstn_O, app_nil_r, firstn_all2 by (rewrite length_comb; auto).
        rewrite CY. rewrite skipn_app, length_comb, Nat.sub_diag, skipn_all2, skipn_O by (rewrite length_comb; auto). simpl. rewrite CZ. f_equal.
        apply comb_app.
        * clear -Y. induction Y as [|p y ps ys (_ & Ly) Y IH]; constructor; auto.
        * apply F2_len in Y, Z. congruence.
        * clear -Z. induction Z as [|p y ps ys (_ & Ly) Y IH]; constructor; auto.
    - clear A1 A2. induction V1 as [|s t sv1 tv1 Hst V1 IH]; simpl; [constructor|].
      inversion L1 as [|? ? Ls L1']; subst. apply Forall2_app; [|apply IH; auto].
      apply Forall2_map_l, Forall2_map_r. clear -V2 Hst. induction V2 as [|s2 t2 sv2 tv2 H2 V2 IH]; constructor; auto.
      unfold chain2. rewrite firstn_app, Nat.sub_diag, firstn_O, app_nil_r, firstn_all, Hst.
      rewrite skipn_app, Nat.sub_diag, skipn_all, skipn_O. simpl. rewrite H2. reflexivity.
    - apply Forall_forall. intros w Hw. apply in_flat_map in Hw as (x & Hx & Hw). apply in_map_iff in Hw as (y & <- & Hy).
      rewrite Forall_forall in L1, L2. rewrite app_length, L1, L2; auto.
  Qed.
  Lemma flat_map_app_cart (l : list vec) (ls : list (list vec)) :
    map (@concat K) (cart (l :: ls)) = flat_map (fun x => map (app x) (map (@concat K) (cart ls))) l.
  Proof. simpl. rewrite map_flat_map. apply flat_map_ext_in. intros x _. rewrite !map_map. reflexivity. Qed.
  Lemma good_ext T T' d sv tv n : (forall x, T x = T' x) -> good_T T d sv tv n -> good_T T' d sv tv n.
  Proof.
    intros E (A & V & L). split; [|split; auto].
    - intros ws ps Hs Hl Hp. destruct (A ws ps Hs Hl Hp) as (ys & Y & C). exists ys. rewrite <- E. split; auto.
      eapply F2_impl; [|exact Y]. intros p y Hpy. cbv beta in *. rewrite <- E. exact Hpy.
    - eapply F2_impl; [|exact V]. intros w v Hwv. cbv beta in *. rewrite <- E. exact Hwv.
  Qed.
  Inductive goods : list (@pmap K) -> list nat -> list (list vec) -> list (list vec) -> list nat -> Prop :=
  | goods_nil : goods [] [] [] [] []
  | goods_cons T Ts d ds sv svs tv tvs n ns : good_T T d sv tv n -> goods Ts ds svs tvs ns ->
      goods (T :: Ts) (d :: ds) (sv :: svs) (tv :: tvs) (n :: ns).
  Lemma goods_chain Ts ds svs tvs ns : goods Ts ds svs tvs ns ->
    good_T (fun x => chain_transform Ts (split_point ds x)) (nsum ds) (map (@concat K) (cart svs)) (map (@concat K) (cart tvs)) (nsum ns).
  Proof.
    induction 1 as [|T Ts d ds sv svs tv tvs n ns H Hs IH].
    - simpl. split; [apply affine_const with (v := [])|]. split; repeat constructor.
    - rewrite !flat_map_app_cart. simpl nsum. eapply good_ext; [|eapply good_chain; [exact H|exact IH]].
      intros x. unfold chain2. simpl. reflexivity.
  Qed.

  Definition vsub_ok (get : cell -> dimT -> nat -> result (@pmap K)) (c : cell) : Prop :=
    forall D e ids, lookup (topology c) D e = Some ids ->
      exists d T sub, D = DI d /\ get c D e = Ok T /\ construct_subelement c D = Ok sub /\
        good_T T d (vertices K sub) (picked (vertices K c) ids) (spatial_dimension c).
  Fixpoint csubs (cs : list cell) (ds : list dimT) : result (list cell) :=
    match cs, ds with
    | c' :: cs', d' :: ds' => match construct_subelement c' d' with
                              | Err e => Err e
                              | Ok s => match csubs cs' ds' with Err e => Err e | Ok l => Ok (s :: l) end
                              end
    | _, _ => Ok []
    end.
  Lemma construct_tp cs ds : construct_subelement (TensorProductCell cs) (DT ds) = match csubs cs ds with Err e => Err e | Ok l => Ok (TensorProductCell l) end.
  Proof.
    cbn [construct_subelement].
    assert (E : forall ds, (fix go (cs : list cell) (ds : list dimT) {struct cs} : result (list cell) :=
        match cs, ds with
        | c' :: cs', d' :: ds' =>
          match construct_subelement c' d' with
          | Err e => Err e
          | Ok s => match go cs' ds' with Err e => Err e | Ok l => Ok (s :: l) end
          end
        | _, _ => Ok []
        end) cs ds = csubs cs ds); [|rewrite E; reflexivity].
    reflexivity.
  Qed.
  Lemma picked_map (vs : list vec) ids : picked vs ids = map (fun i => nth i vs []) ids. Proof. reflexivity. Qed.
  Lemma tp_picked cs vss : Forall2 (fun c v => Forall (fun w => w < num_vertices c) v) cs vss ->
    map (@concat K) (cart (map (fun '(c, v) => picked (vertices K c) v) (combine cs vss))) =
    picked (vertices K (TensorProductCell cs)) (map (ravel (map num_vertices cs)) (cart vss)).
  Proof.
    intros H. unfold picked. rewrite map_map.
    assert (E : forall vi, In vi (cart vss) -> exists coords, picks (map (vertices K) cs) vi coords /\ coords = map (fun '(c, i) => nth i (vertices K c) []) (combine cs vi)).
    { intros vi Hvi. apply in_cart in Hvi. revert vi Hvi. induction H as [|c v cs vss Hv H IH]; intros vi Hvi; inversion Hvi as [|? i ? vi' Hi Hvi']; subst.
      - exists []. split; constructor.
      - destruct (IH _ Hvi') as (coords & P & ->). simpl. eexists. split; [|reflexivity]. constructor; auto.
        apply nth_error_nth'. rewrite vertices_length. rewrite Forall_forall in Hv; auto. }
    transitivity (map (fun vi => concat (map (fun '(c, i) => nth i (vertices K c) []) (combine cs vi))) (cart vss)).
    - clear E. assert (E : cart (map (fun '(c, v) => map (fun i => nth i (vertices K c) []) v) (combine cs vss)) =
        map (fun vi => map (fun '(c, i) => nth i (vertices K c) []) (combine cs vi)) (cart vss)).
      { induction H as [|c v cs vss Hv H IH]; [reflexivity|]. simpl. rewrite IH. rewrite flat_map_map, map_flat_map. apply flat_map_ext_in.
        intros i _. rewrite !map_map. reflexivity. }
      rewrite E, map_map. reflexivity.
    - apply map_ext_in. intros vi Hvi. destruct (E vi Hvi) as (coords & P & ->).
      pose proof (tp_vertex K cs _ _ P) as HV. pose proof (picks_in_shape _ _ _ P) as HS.
      assert (El : map (@length vec) (map (vertices K) cs) = map num_vertices cs).
      { rewrite map_map. apply map_ext. intros; apply vertices_length. }
      rewrite El in HS. rewrite row_major_ravel by (apply in_shape_length; auto).
      symmetry. apply nth_error_nth. exact HV.
  Qed.
  Lemma int_dims_map l : int_dims (map DI l) = Some l.
  Proof. induction l as [|n l IH]; simpl; auto. rewrite IH. reflexivity. Qed.

  Lemma tp_good get cs D e ids : Forall (vsub_ok get) cs ->
    lookup (topology (TensorProductCell cs)) D e = Some ids ->
    exists ds T sub, D = DT (map DI ds) /\ tp_transform get cs D e = Ok T /\
      construct_subelement (TensorProductCell cs) D = Ok sub /\
      good_T T (nsum ds) (vertices K sub) (picked (vertices K (TensorProductCell cs)) ids) (nsum (map spatial_dimension cs)).
  Proof.
    intros Hg H.
    assert (HD : In D (keys (topology (TensorProductCell cs)))).
    { unfold lookup in H. destruct (dlookup D (topology (TensorProductCell cs))) as [es|] eqn:E; [|discriminate].
      apply dlookup_in in E; [|destruct (good_cell (TensorProductCell cs)); auto]. apply in_map with (f := fst) in E. exact E. }
    apply tp_keys_cells in HD as (dims & -> & HD).
    assert (HD' : Forall2 (fun t d => In d (keys t)) (map topology cs) dims) by (apply Forall2_map_l; auto).
    unfold lookup in H. cbn [topology] in H. rewrite (tp_dlookup _ _ _ dims (good_cells cs) HD') in H.
    rewrite elookup_enumerate, nth_error_map in H.
    destruct (nth_error (cart (map (map snd) (sel (map topology cs) dims))) e) as [vss|] eqn:Ev; [|discriminate].
    simpl in H. inversion H as [Hids]. clear H.
    destruct (cart_nth_inv _ _ _ Ev) as (P & Hlt & _). rewrite map_combine_nents in P, Hlt.
    set (counts := map (fun '(c, d) => nents (topology c) d) (combine cs dims)) in *.
    assert (FC : factor_counts cs dims = Some counts).
    { unfold counts. clear -HD. induction HD as [|c d cs dims Hd HD IH]; [reflexivity|]. cbn [factor_counts combine map]. rewrite IH.
      unfold nents at 2. apply in_map_iff in Hd as ([d' es] & <- & Hin). simpl.
      rewrite (proj2 (dlookup_in (topology c) d' es ltac:(destruct (good_cell c); auto)) Hin). reflexivity. }
    (* per factor *)
    assert (G : exists ds Ts subs, dims = map DI ds /\ factor_transforms get cs dims (unravel counts e) = Ok Ts /\ csubs cs dims = Ok subs /\
       goods Ts ds (map (vertices K) subs) (map (fun '(c, v) => picked (vertices K c) v) (combine cs vss)) (map spatial_dimension cs) /\
       Forall2 (fun c v => Forall (fun w => w < num_vertices c) v) cs vss).
    { clear -Hg HD P. revert P. generalize (unravel counts e). clear counts. intros idx P. revert idx vss P Hg.
      induction HD as [|c d cs dims Hd HD IH]; intros idx vss P Hg; simpl in P; inversion P as [|? ? i idx' v vss' Hi P']; subst.
      - exists [], [], []. repeat split; constructor.
      - inversion Hg as [|? ? Hc Hg']; subst. destruct (IH _ _ P' Hg') as (ds & Ts & subs & -> & E1 & E2 & E3 & E4).
        assert (Hlk : lookup (topology c) d i = Some v).
        { unfold lookup. apply in_map_iff in Hd as ([d' es] & <- & Hin). simpl in *.
          destruct (good_cell c) as (ND & He & _).
          rewrite (proj2 (dlookup_in (topology c) d' es ND) Hin) in *. simpl in Hi. rewrite enum_ok_lookup; auto. eapply He; eauto. }
        destruct (Hc _ _ _ Hlk) as (n & T & sub & -> & F1 & F2 & F3).
        exists (n :: ds), (T :: Ts), (sub :: subs). split; [reflexivity|]. cbn [factor_transforms csubs]. rewrite F1, E1, F2, E2.
        repeat split; auto.
        + simpl. constructor; auto.
        + constructor; auto. apply Forall_forall. intros w Hw. eapply vertex_in_range; eauto. }
    destruct G as (ds & Ts & subs & -> & G1 & G2 & G3 & G4).
    exists ds, (fun x => chain_transform Ts (split_point ds x)), (TensorProductCell subs). split; [reflexivity|]. split; [|split].
    - unfold tp_transform. rewrite FC. destruct (Nat.ltb_spec e (nprod counts)); [|lia]. simpl. rewrite G1, int_dims_map. reflexivity.
    - rewrite construct_tp, G2. reflexivity.
    - rewrite <- tp_picked by auto. cbn [vertices]. unfold tp_vertices. apply goods_chain. exact G3.
  Qed.
End Proofs.
