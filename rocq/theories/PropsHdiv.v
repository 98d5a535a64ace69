(** C33: Hdiv and Hcurl. *)
From Verif Require Import Base ModelIndex ModelCell ModelArray ModelConcat ModelTPE ModelHdiv SpecCart ProofsArray ProofsTPE.

(** ** specification *)
Section Spec.
  Context {K : fieldT}.
  (** [old] has one number, [new] has [sd] per function and point: [s] of the old
      one in component [k], zero in the others *)
  Definition scalar_component (s : K -> K) (k sd : nat) (old new : array K) : Prop :=
    exists n npts, ashape old = [n; npts] /\ ashape new = [n; sd; npts] /\
    forall i c p, i < n -> c < sd -> p < npts ->
      aget new [i; c; p] = if Nat.eqb c k then s (aget old [i; p]) else f0.
  (** [old] has [m] components, [new] has [sd]: [f] of the old vector in
      components [lo .. lo + m - 1], zero in the others *)
  Definition vector_components (f : (nat -> K) -> nat -> K) (lo m sd : nat) (old new : array K) : Prop :=
    exists n npts, ashape old = [n; m; npts] /\ ashape new = [n; sd; npts] /\
    forall i c p, i < n -> c < sd -> p < npts ->
      aget new [i; c; p] = if Nat.leb lo c && Nat.ltb c (lo + m) then f (fun c' => aget old [i; c'; p]) (c - lo) else f0.
  (** the same derivatives in the same order, entries related by [R] *)
  Definition entrywise (R : array K -> array K -> Prop) (t r : list (list nat * array K)) : Prop :=
    Forall2 (fun x y => fst x = fst y /\ R (snd x) (snd y)) t r.
  (** rotations by a quarter turn *)
  Definition clockwise (v : nat -> K) (c : nat) : K := match c with 0 => v 1 | _ => fopp (v 0) end.
  Definition counterclockwise (v : nat -> K) (c : nat) : K := match c with 0 => fopp (v 1) | _ => v 0 end.
  (** every entry of a table is scalar valued, or has [m] components *)
  Definition scalar_table (t : list (list nat * array K)) : Prop := Forall (fun x => exists n npts, ashape (snd x) = [n; npts]) t.
  Definition vector_table (m : nat) (t : list (list nat * array K)) : Prop := Forall (fun x => exists n npts, ashape (snd x) = [n; m; npts]) t.
End Spec.

Section Proofs.
  Context {K : fieldT}.
  Lemma map_entries_ok (f : array K -> result (array K)) (R : array K -> array K -> Prop) t :
    Forall (fun x => exists y, f (snd x) = Ok y /\ R (snd x) y) t -> exists r, map_entries f t = Ok r /\ entrywise R t r.
  Proof.
    induction 1 as [|[a x] t (y & E & H) _ (r & Er & Hr)]; cbn [map_entries].
    - exists []. split; [reflexivity|constructor].
    - cbn [snd] in *. rewrite E, Er. eexists. split; [reflexivity|]. constructor; auto.
  Qed.
  Lemma put_scalar_ok (s : K -> K) k sd (old : array K) : k < sd -> (exists n npts, ashape old = [n; npts]) ->
    exists y, put_scalar sd k s old = Ok y /\ scalar_component s k sd old y.
  Proof.
    intros Hk (n & npts & E). unfold put_scalar. rewrite E. destruct (Nat.ltb_spec k sd); [|lia].
    eexists. split; [reflexivity|]. exists n, npts. auto.
  Qed.
  Lemma put_vector_ok (f : (nat -> K) -> nat -> K) sd lo m n npts (old src : array K) : lo + m <= sd -> ashape old = [n; m; npts] -> ashape src = [n; m; npts] ->
    (forall i c p, i < n -> c < m -> p < npts -> aget src [i; c; p] = f (fun c' => aget old [i; c'; p]) c) ->
    exists y, put_vector sd lo (lo + m) old src = Ok y /\ vector_components f lo m sd old y.
  Proof.
    intros Hm E Es Hf. unfold put_vector. rewrite E.
    destruct (assign_slice_same (zeros f0 [n; sd; npts]) [(0, n); (lo, lo + m)] src) as (r & Hr & Sr & G).
    { cbn. rewrite Es. do 2 f_equal; [lia|]. f_equal. lia. }
    exists r. split; [exact Hr|]. exists n, npts. split; [exact E|]. split; [exact Sr|].
    intros i c p Hi Hc Hp. rewrite G by (cbn; repeat constructor; auto).
    cbn [in_ranges shift_idx zeros aget]. rewrite !andb_true_r. cbn [Nat.leb andb].
    destruct (Nat.ltb_spec i n); [|lia]. cbn [andb].
    destruct (Nat.leb_spec lo c); cbn [andb]; [|reflexivity]. destruct (Nat.ltb_spec c (lo + m)); [|reflexivity].
    rewrite Nat.sub_0_r. apply Hf; lia.
  Qed.
  Lemma perp_ok r (old : array K) n npts : ashape old = [n; 2; npts] ->
    exists t, perp r old = Ok t /\ ashape t = [n; 2; npts] /\
      forall i c p, c < 2 -> aget t [i; c; p] = match c with 0 => fst (r (aget old [i; 0; p]) (aget old [i; 1; p])) | _ => snd (r (aget old [i; 0; p]) (aget old [i; 1; p])) end.
  Proof.
    intros E. unfold perp. rewrite E. cbn [Nat.ltb Nat.leb]. eexists. split; [reflexivity|]. split; [reflexivity|].
    intros i c p Hc. cbn [aget]. destruct c as [|[|c]]; [reflexivity|reflexivity|lia].
  Qed.
  Lemma sd_sum (a b : cell) : spatial_dimension (TensorProductCell [a; b]) = spatial_dimension a + spatial_dimension b.
  Proof. cbn. lia. Qed.
  Lemma scalar_tab (s : K -> K) k sd t : k < sd -> scalar_table t -> Forall (fun x => exists y, put_scalar sd k s (snd x) = Ok y /\ scalar_component s k sd (snd x) y) t.
  Proof. intros Hk. apply Forall_impl. intros x Hx. now apply put_scalar_ok. Qed.
End Proofs.

Section Props.
  Context {K : fieldT}.
  Variables (A B : subelement K) (w : wrapped K).
  Let sd := sdim A + sdim B.

  Lemma wrap_inv m good entry : wrap m good entry A B = Ok w ->
    exists fA fB oldmap nodes, se_form A = Some fA /\ se_form B = Some fB /\ good (fA + fB) sd = true /\ tp_mapping (se_map A) (se_map B) = Ok oldmap /\
      tpe_nodes f0 sd (se_nodes A) (se_nodes B) = Ok nodes /\ w_shape w = [sd] /\ w_mapping w = m /\ w_form w = fA + fB /\ w_nodes w = splat oldmap nodes /\
      forall order points entity, w_tabulate w order points entity =
        match tpe_tabulate fmul (se_tab A) (se_tab B) order points entity with Err e => Err e | Ok t => map_entries (entry A B oldmap sd) t end.
  Proof.
    unfold wrap. rewrite sd_sum. fold (sdim A) (sdim B). fold sd.
    destruct (se_form A) as [fA|]; [|discriminate]. destruct (se_form B) as [fB|]; [|discriminate].
    destruct (good (fA + fB) sd) eqn:G; [|discriminate]. destruct (tp_mapping _ _) as [om|] eqn:M; [|discriminate].
    destruct (tpe_nodes _ _ _ _) as [nodes|] eqn:N; [|discriminate]. intros [= <-].
    exists fA, fB, om, nodes. cbn. repeat split; auto.
  Qed.

  (** ** C33, Hdiv of a scalar element: minus its values in the first component
      when the first factor is the 0-form, its values in the last component when
      only the second is; zero elsewhere; for every derivative. *)
  Theorem C33_hdiv_scalar : Hdiv A B = Ok w -> se_map A = Affine -> se_map B = Affine ->
    se_form A = Some 0 \/ se_form B = Some 0 ->
    w_shape w = [sd] /\ w_mapping w = ContravariantPiola /\
    forall order points entity t, tpe_tabulate fmul (se_tab A) (se_tab B) order points entity = Ok t -> scalar_table t ->
      exists r, w_tabulate w order points entity = Ok r /\
        (se_form A = Some 0 -> entrywise (scalar_component fopp 0 sd) t r) /\
        (se_form A <> Some 0 -> entrywise (scalar_component (fun x => x) (sd - 1) sd) t r).
  Proof.
    intros H MA MB HF. apply wrap_inv in H as (fA & fB & om & nodes & EA & EB & G & M & N & S & MM & _ & _ & T).
    rewrite MA, MB in M. injection M as <-. apply Nat.eqb_eq in G. split; [exact S|]. split; [exact MM|].
    intros order points entity t Ht Hs. rewrite T, Ht.
    assert (Hsd : 0 < sd) by lia. assert (Hsd' : sd - 1 < sd) by lia.
    destruct (Nat.eq_dec fA 0) as [->|Hn].
    - destruct (map_entries_ok (hdiv_entry A B Affine sd) (scalar_component fopp 0 sd) t) as (r & Er & Hr).
      { unfold hdiv_entry, is_form. rewrite EA. cbn [Nat.eqb]. now apply scalar_tab. }
      exists r. split; [exact Er|]. split; [auto|congruence].
    - destruct (map_entries_ok (hdiv_entry A B Affine sd) (scalar_component (fun x => x) (sd - 1) sd) t) as (r & Er & Hr).
      { unfold hdiv_entry, is_form. rewrite EA, EB. destruct (Nat.eqb_spec fA 0); [lia|].
        destruct HF as [HF|HF]; [congruence|]. rewrite EB in HF. injection HF as ->. cbn [Nat.eqb]. now apply scalar_tab. }
      exists r. split; [exact Er|]. split; [intros Hc; rewrite EA in Hc; congruence|auto].
  Qed.
  (** with neither factor a 0-form the wrapped element is built but cannot be tabulated *)
  Theorem C33_hdiv_no_zero_form : Hdiv A B = Ok w -> se_map A = Affine -> se_map B = Affine -> se_form A <> Some 0 -> se_form B <> Some 0 ->
    forall order points entity x t, tpe_tabulate fmul (se_tab A) (se_tab B) order points entity = Ok (x :: t) ->
      w_tabulate w order points entity = Err PlainException.
  Proof.
    intros H MA MB FA FB order points entity [a x] t Ht. apply wrap_inv in H as (fA & fB & om & nodes & EA & EB & G & M & N & S & MM & _ & _ & T).
    rewrite MA, MB in M. injection M as <-. rewrite T, Ht. cbn [map_entries]. unfold hdiv_entry, is_form. rewrite EA, EB.
    destruct (Nat.eqb_spec fA 0); [subst; congruence|]. destruct (Nat.eqb_spec fB 0); [subst; congruence|]. reflexivity.
  Qed.
  (** ... and the component is the direction of the 0-form factor: no factor's
      form degree exceeds its dimension, so that factor has one direction *)
  Theorem C33_hdiv_direction : Hdiv A B = Ok w -> forall fA fB, se_form A = Some fA -> se_form B = Some fB ->
    fA <= sdim A -> fB <= sdim B -> 1 <= sdim A -> 1 <= sdim B ->
    (fA = 0 -> sdim A = 1 /\ sdim B = fB) /\ (fB = 0 -> sdim B = 1 /\ sdim A = fA).
  Proof.
    intros H fA fB EA EB. apply wrap_inv in H as (fA' & fB' & om & nodes & EA' & EB' & G & _). apply Nat.eqb_eq in G.
    rewrite EA in EA'. rewrite EB in EB'. injection EA' as <-. injection EB' as <-. unfold sd in G. lia.
  Qed.
  (** ** C33, Hcurl of a scalar element: its values in the first component when
      the first factor is the 1-form, in the last one when the second is *)
  Theorem C33_hcurl_scalar : Hcurl A B = Ok w -> se_map A = Affine -> se_map B = Affine -> 0 < sd ->
    w_shape w = [sd] /\ w_mapping w = CovariantPiola /\
    forall order points entity t, tpe_tabulate fmul (se_tab A) (se_tab B) order points entity = Ok t -> scalar_table t ->
      exists r, w_tabulate w order points entity = Ok r /\
        (se_form A = Some 1 -> entrywise (scalar_component (fun x => x) 0 sd) t r) /\
        (se_form B = Some 1 -> entrywise (scalar_component (fun x => x) (sd - 1) sd) t r).
  Proof.
    intros H MA MB Hsd. apply wrap_inv in H as (fA & fB & om & nodes & EA & EB & G & M & N & S & MM & _ & _ & T).
    rewrite MA, MB in M. injection M as <-. apply Nat.eqb_eq in G. split; [exact S|]. split; [exact MM|].
    intros order points entity t Ht Hs. rewrite T, Ht. assert (Hsd' : sd - 1 < sd) by lia.
    destruct (Nat.eq_dec fA 1) as [->|Hn].
    - destruct (map_entries_ok (hcurl_entry A B Affine sd) (scalar_component (fun x => x) 0 sd) t) as (r & Er & Hr).
      { unfold hcurl_entry, is_form. rewrite EA. cbn [Nat.eqb]. now apply scalar_tab. }
      exists r. split; [exact Er|]. split; [auto|]. intros Hb. rewrite EB in Hb. injection Hb as Hb. lia.
    - destruct (map_entries_ok (hcurl_entry A B Affine sd) (scalar_component (fun x => x) (sd - 1) sd) t) as (r & Er & Hr).
      { unfold hcurl_entry, is_form. rewrite EA, EB. destruct (Nat.eqb_spec fA 1); [lia|].
        destruct (Nat.eqb_spec fB 1); [|lia]. now apply scalar_tab. }
      exists r. split; [exact Er|]. split; [intros Hc; rewrite EA in Hc; congruence|auto].
  Qed.

  (** ** C33, vector valued elements.  A factor with the wanted Piola mapping
      keeps its components, in the places of its own directions. *)
  Theorem C33_hdiv_vector : Hdiv A B = Ok w ->
    forall order points entity t, tpe_tabulate fmul (se_tab A) (se_tab B) order points entity = Ok t ->
      (se_map A = ContravariantPiola -> vector_table (sdim A) t ->
         exists r, w_tabulate w order points entity = Ok r /\ entrywise (vector_components (fun v c => v c) 0 (sdim A) sd) t r) /\
      (se_map B = ContravariantPiola -> vector_table (sdim B) t ->
         exists r, w_tabulate w order points entity = Ok r /\ entrywise (vector_components (fun v c => v c) (sdim A) (sdim B) sd) t r) /\
      (se_map A = CovariantPiola -> sdim A = 2 -> vector_table 2 t ->
         exists r, w_tabulate w order points entity = Ok r /\ entrywise (vector_components clockwise 0 2 sd) t r).
  Proof.
    intros H order points entity t Ht. apply wrap_inv in H as (fA & fB & om & nodes & EA & EB & G & M & N & S & MM & _ & _ & T).
    rewrite T, Ht. split; [|split].
    - intros MA Hv. assert (om = ContravariantPiola) as -> by (rewrite MA in M; destruct (se_map B); cbn in M; congruence).
      apply map_entries_ok. revert Hv. apply Forall_impl. intros x (n & npts & E). unfold hdiv_entry. rewrite MA.
      apply (put_vector_ok (fun v c => v c) sd 0 (sdim A) n npts); [unfold sd; lia|exact E|exact E|reflexivity].
    - intros MB Hv. assert (MA : se_map A = Affine) by (rewrite MB in M; destruct (se_map A); cbn in M; congruence).
      rewrite MA, MB in M. injection M as <-.
      apply map_entries_ok. revert Hv. apply Forall_impl. intros x (n & npts & E). unfold hdiv_entry. rewrite MA, MB.
      apply (put_vector_ok (fun v c => v c) sd (sdim A) (sdim B) n npts); [unfold sd; lia|exact E|exact E|reflexivity].
    - intros MA HA Hv. assert (om = CovariantPiola) as -> by (rewrite MA in M; destruct (se_map B); cbn in M; congruence).
      apply map_entries_ok. revert Hv. apply Forall_impl. intros x (n & npts & E). unfold hdiv_entry. rewrite MA, HA. cbn [Nat.eqb].
      destruct (perp_ok (fun x y => (y, fopp x)) (snd x) n npts E) as (u & -> & Su & Gu).
      apply (put_vector_ok clockwise sd 0 2 n npts); [unfold sd; lia|exact E|exact Su|].
      intros i c p _ Hc _. rewrite Gu by assumption. destruct c as [|[|c]]; [reflexivity|reflexivity|lia].
  Qed.
  Theorem C33_hcurl_vector : Hcurl A B = Ok w ->
    forall order points entity t, tpe_tabulate fmul (se_tab A) (se_tab B) order points entity = Ok t ->
      (se_map A = CovariantPiola -> vector_table (sdim A) t ->
         exists r, w_tabulate w order points entity = Ok r /\ entrywise (vector_components (fun v c => v c) 0 (sdim A) sd) t r) /\
      (se_map B = CovariantPiola -> vector_table (sdim B) t ->
         exists r, w_tabulate w order points entity = Ok r /\ entrywise (vector_components (fun v c => v c) (sdim A) (sdim B) sd) t r) /\
      (se_map A = ContravariantPiola -> sdim A = 2 -> vector_table 2 t ->
         exists r, w_tabulate w order points entity = Ok r /\ entrywise (vector_components counterclockwise 0 2 sd) t r).
  Proof.
    intros H order points entity t Ht. apply wrap_inv in H as (fA & fB & om & nodes & EA & EB & G & M & N & S & MM & _ & _ & T).
    rewrite T, Ht. split; [|split].
    - intros MA Hv. assert (om = CovariantPiola) as -> by (rewrite MA in M; destruct (se_map B); cbn in M; congruence).
      apply map_entries_ok. revert Hv. apply Forall_impl. intros x (n & npts & E). unfold hcurl_entry. rewrite MA.
      apply (put_vector_ok (fun v c => v c) sd 0 (sdim A) n npts); [unfold sd; lia|exact E|exact E|reflexivity].
    - intros MB Hv. assert (MA : se_map A = Affine) by (rewrite MB in M; destruct (se_map A); cbn in M; congruence).
      rewrite MA, MB in M. injection M as <-.
      apply map_entries_ok. revert Hv. apply Forall_impl. intros x (n & npts & E). unfold hcurl_entry. rewrite MA, MB.
      apply (put_vector_ok (fun v c => v c) sd (sdim A) (sdim B) n npts); [unfold sd; lia|exact E|exact E|reflexivity].
    - intros MA HA Hv. assert (om = ContravariantPiola) as -> by (rewrite MA in M; destruct (se_map B); cbn in M; congruence).
      apply map_entries_ok. revert Hv. apply Forall_impl. intros x (n & npts & E). unfold hcurl_entry. rewrite MA, HA. cbn [Nat.eqb].
      destruct (perp_ok (fun x y => (fopp y, x)) (snd x) n npts E) as (u & -> & Su & Gu).
      apply (put_vector_ok counterclockwise sd 0 2 n npts); [unfold sd; lia|exact E|exact Su|].
      intros i c p _ Hc _. rewrite Gu by assumption. destruct c as [|[|c]]; [reflexivity|reflexivity|lia].
  Qed.
  (** the claim fails for a second factor that would have to be rotated: the
      element is built, but tabulation raises UnboundLocalError *)
  Theorem C33_rotated_second_factor_refuted :
    (Hdiv A B = Ok w -> se_map B = CovariantPiola -> sdim B = 2 ->
       forall order points entity x t, tpe_tabulate fmul (se_tab A) (se_tab B) order points entity = Ok (x :: t) -> vector_table 2 (x :: t) ->
       w_tabulate w order points entity = Err UnboundLocalError) /\
    (Hcurl A B = Ok w -> se_map B = ContravariantPiola -> sdim B = 2 ->
       forall order points entity x t, tpe_tabulate fmul (se_tab A) (se_tab B) order points entity = Ok (x :: t) -> vector_table 2 (x :: t) ->
       w_tabulate w order points entity = Err UnboundLocalError).
  Proof.
    split; intros H MB HB order points entity [a x] t Ht Hv; apply wrap_inv in H as (fA & fB & om & nodes & EA & EB & G & M & N & S & MM & _ & _ & T);
    rewrite T, Ht; cbn [map_entries];
    (assert (MA : se_map A = Affine) by (rewrite MB in M; destruct (se_map A); cbn in M; congruence));
    rewrite MA, MB in M; injection M as <-; inversion Hv as [|? ? (n & npts & E) _]; subst; cbn [snd] in E;
    unfold hdiv_entry, hcurl_entry; rewrite MA, MB, HB; cbn [Nat.eqb].
    - destruct (perp_ok (fun x y => (y, fopp x)) x n npts E) as (u & -> & _). reflexivity.
    - destruct (perp_ok (fun x y => (fopp y, x)) x n npts E) as (u & -> & _). reflexivity.
  Qed.
  (** elements that are not (n-1)-forms, or 1-forms, are refused *)
  Theorem C33_wrong_form_refused :
    (se_form A = None \/ se_form B = None -> Hdiv A B = Err ValueError /\ Hcurl A B = Err ValueError) /\
    (forall fA fB, se_form A = Some fA -> se_form B = Some fB ->
       (fA + fB + 1 <> sd -> Hdiv A B = Err ValueError) /\ (fA + fB <> 1 -> Hcurl A B = Err ValueError)).
  Proof.
    unfold Hdiv, Hcurl, wrap. rewrite sd_sum. fold (sdim A) (sdim B). fold sd. split.
    - intros [->| ->]; [auto|]. destruct (se_form A); auto.
    - intros fA fB -> ->. split; intros Hn.
      + destruct (Nat.eqb_spec (S (fA + fB)) sd); [lia|reflexivity].
      + destruct (Nat.eqb_spec (fA + fB) 1); [lia|reflexivity].
  Qed.
End Props.

(** ** Dual nodes.  What a node returns for a field [u] (point, component). *)
Section Act.
  Context {K : fieldT}.
  Local Open Scope F_scope.
  Definition field := list K -> list nat -> K.
  Definition weigh (x : list K) (w : wlist) (u : field) : K := fsum (map (fun '(c, comp) => c * u x comp) w).
  Definition act (n : node K) (u : field) : option K :=
    match n with
    | PointEvaluation x => Some (u x [])
    | PointScaledNormalEvaluation x w | PointEdgeTangentEvaluation x w => Some (weigh x w u)
    | ComponentPointEvaluation c _ x => Some (u x [c])
    | FrobeniusIntegralMoment pd | IntegralMoment pd | GenericFunctional _ pd => Some (fsum (map (fun '(x, w) => weigh x w u) pd))
    | PointDerivative | OtherFunctional | Undefined => None
    end.
  (** the product of a field with [m] components on the first factor and a scalar
      on the second, extended by zero components as C33_hdiv_vector says *)
  Definition product_field (m : nat) (a : field) (b : list K -> K) : field :=
    fun z comp => match comp with
                  | [c] => if Nat.ltb c m then a (firstn m z) [c] * b (skipn m z) else f0
                  | _ => f0
                  end.
  (** weights of a functional on fields with [m] components at points with [m] coordinates *)
  Definition vector_weights (m : nat) (w : wlist (K := K)) : Prop := Forall (fun cw => exists c, snd cw = [c] /\ c < m) w.
  Definition vector_node (m : nat) (n : node K) : Prop :=
    match n with
    | PointScaledNormalEvaluation x w | PointEdgeTangentEvaluation x w => length x = m /\ vector_weights m w
    | ComponentPointEvaluation c _ x => length x = m /\ c < m
    | FrobeniusIntegralMoment pd | IntegralMoment pd => Forall (fun '(x, w) => length x = m /\ vector_weights m w) pd
    | _ => False
    end.
  Definition point_node (n : node K) : Prop := match n with PointEvaluation _ => True | _ => False end.

  Add Field KF_hdiv : (@f_th K).
  Lemma weigh_product m (x y : list K) w a b : length x = m -> vector_weights m w ->
    weigh (x ++ y) w (product_field m a b) = weigh x w a * b y.
  Proof.
    intros Hx Hw. unfold weigh. induction Hw as [|[c comp] w (k & E & Hk) Hw IH]; cbn [map fsum fold_right].
    - ring.
    - unfold fsum in IH. rewrite IH. cbn [snd] in E. subst comp. unfold product_field.
      destruct (Nat.ltb_spec k m); [|lia].
      rewrite firstn_app, skipn_app, Hx, Nat.sub_diag, <- Hx, firstn_all, skipn_all, firstn_O, skipn_O, app_nil_r. cbn [app]. ring.
  Qed.
  Lemma weigh_app (x : list K) w1 w2 u : weigh x (w1 ++ w2) u = weigh x w1 u + weigh x w2 u.
  Proof. unfold weigh. rewrite map_app. induction (map _ w1) as [|z l IH]; cbn [app fsum fold_right]; [unfold fsum; ring|]. unfold fsum in *. rewrite IH. ring. Qed.
  Lemma weigh_zero (x : list K) c u : weigh x [(f0, c)] u = f0.
  Proof. unfold weigh. cbn. ring. Qed.
  Lemma tpe_node_product sd m n1 n2 n a b : vector_node m n1 -> point_node n2 -> tpe_node f0 sd n1 n2 = Ok n ->
    exists va vb, act n1 a = Some va /\ act n2 (fun x _ => b x) = Some vb /\ act n (product_field m a b) = Some (va * vb).
  Proof.
    intros H1 H2. destruct n2 as [y| | | | | | | | | ]; try contradiction.
    destruct n1 as [|x w|x w|c s x|pd|pd| | | |]; try contradiction; cbn [tpe_node].
    - destruct (Nat.ltb 1 (length y)); [discriminate|]. intros [= <-]. destruct H1 as (Hx & Hw).
      do 2 eexists. do 2 (split; [reflexivity|]). cbn [act map fsum fold_right].
      rewrite weigh_app, weigh_zero, (weigh_product m) by assumption. f_equal. ring.
    - destruct (Nat.ltb 1 (length y)); [discriminate|]. intros [= <-]. destruct H1 as (Hx & Hw).
      do 2 eexists. do 2 (split; [reflexivity|]). cbn [act map fsum fold_right].
      rewrite weigh_app, weigh_zero, (weigh_product m) by assumption. f_equal. ring.
    - intros [= <-]. destruct H1 as (Hx & Hc). do 2 eexists. do 2 (split; [reflexivity|]). cbn [act product_field].
      destruct (Nat.ltb_spec c m); [|lia]. f_equal.
      rewrite firstn_app, skipn_app, Hx, Nat.sub_diag, <- Hx, firstn_all, skipn_all, firstn_O, skipn_O, app_nil_r. reflexivity.
    - intros [= <-]. cbn [vector_node] in H1. do 2 eexists. do 2 (split; [reflexivity|]). cbn [act]. f_equal. rewrite map_map.
      induction H1 as [|[x w] pd (Hx & Hw) _ IH]; cbn [map fsum fold_right]; [ring|].
      unfold fsum in IH. rewrite IH, weigh_app, weigh_zero, (weigh_product m) by assumption. ring.
    - intros [= <-]. cbn [vector_node] in H1. do 2 eexists. do 2 (split; [reflexivity|]). cbn [act]. f_equal. rewrite map_map.
      induction H1 as [|[x w] pd (Hx & Hw) _ IH]; cbn [map fsum fold_right]; [ring|].
      unfold fsum in IH. rewrite IH, (weigh_product m) by assumption. ring.
  Qed.
End Act.

Section Nodes.
  Context {K : fieldT}.
  Variables (A B : subelement K) (w : wrapped K).
  Local Open Scope F_scope.
  (** ** C33, dual nodes of a vector valued first factor with the wanted mapping:
      node [i * dim B + j] acts on the components of the first factor, as the
      product of the factors' nodes *)
  Theorem C33_vector_nodes : 
    (Hdiv A B = Ok w /\ se_map A = ContravariantPiola) \/ (Hcurl A B = Ok w /\ se_map A = CovariantPiola) ->
    Forall (vector_node (sdim A)) (se_nodes A) -> Forall point_node (se_nodes B) ->
    forall i j n1 n2, nth_error (se_nodes A) i = Some n1 -> nth_error (se_nodes B) j = Some n2 ->
      exists n, nth_error (w_nodes w) (i * length (se_nodes B) + j)%nat = Some n /\
        forall a b, exists va vb, act n1 a = Some va /\ act n2 (fun x _ => b x) = Some vb /\
          act n (product_field (sdim A) a b) = Some (va * vb).
  Proof.
    intros H FA FB i j n1 n2 H1 H2.
    assert (E : exists nodes, tpe_nodes f0 (sdim A + sdim B) (se_nodes A) (se_nodes B) = Ok nodes /\ w_nodes w = nodes).
    { destruct H as [(H & M)|(H & M)]; apply wrap_inv in H as (fA & fB & om & nodes & _ & _ & _ & MM & N & _ & _ & _ & E & _);
      exists nodes; (split; [exact N|]); rewrite E, M in *; destruct (se_map B); cbn in MM; try discriminate; injection MM as <-; reflexivity. }
    destruct E as (nodes & N & ->). destruct (tpe_nodes_ok f0 (sdim A + sdim B) _ _ _ N) as (_ & G).
    destruct (G i j n1 n2 H1 H2) as (n & Hn & Ht). exists n. split; [exact Hn|]. intros a b.
    apply (tpe_node_product (sdim A + sdim B)); auto.
    - rewrite Forall_forall in FA. apply FA. eapply nth_error_In; eauto.
    - rewrite Forall_forall in FB. apply FB. eapply nth_error_In; eauto.
  Qed.
  (** For a scalar element the claim about the nodes fails: no point evaluation
      survives, and when both factors have point evaluations every node is the
      undefined functional. *)
  Theorem C33_scalar_nodes_refuted : Hdiv A B = Ok w \/ Hcurl A B = Ok w -> se_map A = Affine -> se_map B = Affine ->
    Forall point_node (se_nodes A) -> Forall point_node (se_nodes B) ->
    length (w_nodes w) = (length (se_nodes A) * length (se_nodes B))%nat /\
    Forall (fun n => n = Undefined /\ forall u : field, act n u = None) (w_nodes w).
  Proof.
    intros H MA MB FA FB.
    assert (E : exists nodes, tpe_nodes f0 (sdim A + sdim B) (se_nodes A) (se_nodes B) = Ok nodes /\ w_nodes w = splat Affine nodes).
    { destruct H as [H|H]; apply wrap_inv in H as (fA & fB & om & nodes & _ & _ & _ & MM & N & _ & _ & _ & E & _);
      exists nodes; (split; [exact N|]); rewrite MA, MB in MM; injection MM as <-; exact E. }
    destruct E as (nodes & N & ->). destruct (tpe_nodes_ok f0 (sdim A + sdim B) _ _ _ N) as (L & G).
    cbn [splat]. split; [rewrite map_length; exact L|].
    apply Forall_forall. intros n Hn. apply in_map_iff in Hn as (n' & <- & Hn').
    assert (P : point_node n'); [|destruct n'; try contradiction; auto].
    apply In_nth_error in Hn' as (k & Hk).
    assert (Hkl : (k < length nodes)%nat) by (apply nth_error_Some; congruence). rewrite L in Hkl.
    assert (HB : (0 < length (se_nodes B))%nat) by nia.
    pose proof (Nat.div_mod k (length (se_nodes B)) ltac:(lia)) as Ek.
    assert (Hi : (k / length (se_nodes B) < length (se_nodes A))%nat) by (apply Nat.div_lt_upper_bound; nia).
    assert (Hj : (k mod length (se_nodes B) < length (se_nodes B))%nat) by (apply Nat.mod_upper_bound; lia).
    destruct (nth_error (se_nodes A) (k / length (se_nodes B))) as [n1|] eqn:E1; [|apply nth_error_None in E1; lia].
    destruct (nth_error (se_nodes B) (k mod length (se_nodes B))) as [n2|] eqn:E2; [|apply nth_error_None in E2; lia].
    destruct (G _ _ _ _ E1 E2) as (n & Hn1 & Ht).
    replace (k / length (se_nodes B) * length (se_nodes B) + k mod length (se_nodes B))%nat with k in Hn1 by nia.
    rewrite Hk in Hn1. injection Hn1 as <-.
    rewrite Forall_forall in FA, FB. pose proof (FA _ (nth_error_In _ _ E1)) as P1. pose proof (FB _ (nth_error_In _ _ E2)) as P2.
    destruct n1; try contradiction. destruct n2; try contradiction. cbn in Ht. injection Ht as <-. exact I.
  Qed.
End Nodes.

(** ** instances over the rationals: P1 x P0 on a square, as Hdiv and Hcurl *)
Section Instances.
  Local Open Scope F_scope.
  Notation QK := QcField.
  Definition p1_tab : factor QK := {| fe_cell := UFCInterval; fe_vdim := 0;
    fe_tab := fun _ pts _ _ => Ok [([0], mkArray [2; length pts] (fun idx => let x := hd f0 (nth (nth 1 idx 0) pts []) in
                if Nat.eqb (hd 0 idx) 0 then (f1 : QK) - x else x))] |}.
  Definition p0_tab : factor QK := {| fe_cell := UFCInterval; fe_vdim := 0;
    fe_tab := fun _ pts _ _ => Ok [([0], mkArray [1; length pts] (fun _ => (f1 : QK)))] |}.
  Definition p1 : subelement QK := {| se_tab := p1_tab; se_form := Some 0; se_map := Affine; se_nodes := [PointEvaluation [f0]; PointEvaluation [f1]] |}.
  Definition p0 : subelement QK := {| se_tab := p0_tab; se_form := Some 1; se_map := Affine; se_nodes := [PointEvaluation [f1]] |}.
  Example C33_instance : exists w v t r s old new new', Hdiv p1 p0 = Ok w /\ Hcurl p0 p1 = Ok v /\
    tpe_tabulate fmul p1_tab p0_tab 0 [[f0; f1]] None = Ok t /\ scalar_table t /\
    w_tabulate w 0 [[f0; f1]] None = Ok r /\ w_tabulate v 0 [[f0; f1]] None = Ok s /\
    tlookup [0; 0] t = Some old /\ tlookup [0; 0] r = Some new /\ tlookup [0; 0] s = Some new' /\
    aget old [0; 0] = f1 /\ aget new [0; 0; 0] = fopp f1 /\ aget new [0; 1; 0] = f0 /\ aget new' [1; 0; 0] = f1.
  Proof.
    do 8 eexists. do 3 (split; [reflexivity|]). split; [repeat constructor; do 2 eexists; reflexivity|].
    do 5 (split; [reflexivity|]). repeat split; vm_compute; reflexivity.
  Qed.
  (** a vector valued factor on a triangle, with normal evaluations *)
  Definition v_el : subelement QK := {| se_tab := {| fe_cell := UFCTriangle; fe_vdim := 1; fe_tab := fun _ _ _ _ => Ok [] |};
    se_form := Some 1; se_map := ContravariantPiola; se_nodes := [PointScaledNormalEvaluation [f0; f1] [(f1, [0]); (fopp f1, [1])]] |}.
  Example C33_vector_instance : exists w, Hdiv v_el p0 = Ok w /\ Forall (vector_node (sdim v_el)) (se_nodes v_el) /\ Forall point_node (se_nodes p0).
  Proof.
    eexists. split; [reflexivity|]. split; [|repeat constructor]. constructor; [|constructor]. split; [reflexivity|].
    constructor; [exists 0|constructor; [exists 1|constructor]]; (split; [reflexivity|cbn; lia]).
  Qed.
End Instances.
