From Coq Require Import String Ascii.
From Verif Require Import Base ModelCell ModelFactory SpecFactory ProofsCell ProofsTopo.
Open Scope char_scope.
Open Scope list_scope.

(** joining on characters *)
Fixpoint jn (ps : list (list ascii)) : list ascii :=
  match ps with
  | [] => []
  | [p] => p
  | p :: ps' => p ++ " " :: "*" :: " " :: jn ps'
  end.

Definition starts (s : list ascii) : bool :=
  match s with
  | a :: b :: c :: _ => (if ascii_dec a " " then true else false) && (if ascii_dec b "*" then true else false)
                        && (if ascii_dec c " " then true else false)
  | _ => false
  end.
Lemma starts_true s : starts s = true -> exists r, s = " " :: "*" :: " " :: r.
Proof.
  destruct s as [|a [|b [|c r]]]; simpl; try discriminate.
  destruct (ascii_dec a " "), (ascii_dec b "*"), (ascii_dec c " "); simpl; try discriminate. subst; eauto.
Qed.
Lemma has_star_step c r : has_star (c :: r) = starts (c :: r) || has_star r.
Proof.
  destruct c as [[] [] [] [] [] [] [] []];
    try (destruct r as [|c1 [|c2 r]]; reflexivity).
  destruct r as [|c1 r]; [reflexivity|]. destruct c1 as [[] [] [] [] [] [] [] []];
    try (destruct r as [|c2 r]; reflexivity).
  destruct r as [|c2 r]; [reflexivity|]. destruct c2 as [[] [] [] [] [] [] [] []]; reflexivity.
Qed.
Lemma split_step cur c r : starts (c :: r) = false -> split_from cur (c :: r) = split_from (c :: cur) r.
Proof.
  destruct c as [[] [] [] [] [] [] [] []];
    try (destruct r as [|c1 [|c2 r]]; reflexivity).
  destruct r as [|c1 r]; [reflexivity|]. destruct c1 as [[] [] [] [] [] [] [] []];
    try (destruct r as [|c2 r]; reflexivity).
  destruct r as [|c2 r]; [reflexivity|]. destruct c2 as [[] [] [] [] [] [] [] []]; try reflexivity.
  discriminate.
Qed.
Lemma split_sep cur r : split_from cur (" " :: "*" :: " " :: r) = rev cur :: split_from [] r.
Proof. reflexivity. Qed.

Lemma split_nonnil s : forall cur, split_from cur s <> [].
Proof.
  remember (List.length s) as n eqn:En. revert s En.
  induction n as [n IH] using lt_wf_ind. intros s En cur. destruct s as [|c r]; [discriminate|].
  destruct (starts (c :: r)) eqn:E.
  - apply starts_true in E as (r' & E). rewrite E. rewrite split_sep. discriminate.
  - rewrite split_step by auto. eapply IH; [|reflexivity]. simpl in En; lia.
Qed.

Lemma jn_split s : forall cur, jn (split_from cur s) = rev cur ++ s.
Proof.
  remember (List.length s) as n eqn:En. revert s En.
  induction n as [n IH] using lt_wf_ind. intros s En cur. destruct s as [|c r].
  - simpl. rewrite app_nil_r; auto.
  - destruct (starts (c :: r)) eqn:E.
    + apply starts_true in E as (r' & E). rewrite E. rewrite split_sep.
      rewrite E in En. simpl in En.
      pose proof (IH (List.length r') ltac:(lia) r' eq_refl []) as IH'. simpl in IH'.
      pose proof (split_nonnil r' []) as Hn. destruct (split_from [] r') as [|p ps]; [congruence|].
      simpl in *. rewrite IH'. reflexivity.
    + rewrite split_step by auto. simpl in En. rewrite (IH (List.length r)); auto; [|lia].
      simpl. rewrite <- app_assoc. reflexivity.
Qed.

(** no piece contains the separator *)
Lemma has_star_app_false p c : has_star (p ++ [c]) = true ->
  has_star p = true \/ exists q, p ++ [c] = q ++ [" "; "*"; " "].
Proof.
  induction p as [|a p IH]; intros H.
  - destruct c as [[] [] [] [] [] [] [] []]; discriminate.
  - simpl app in H. rewrite has_star_step in H. apply orb_true_iff in H as [H|H].
    + apply starts_true in H as (r & H). destruct p as [|b [|d p]]; simpl in H.
      * discriminate.
      * inversion H; subst. right. exists []. reflexivity.
      * left. inversion H; subst. reflexivity.
    + destruct (IH H) as [H'|(q & Hq)].
      * left. rewrite has_star_step, H'. apply orb_true_r.
      * right. exists (a :: q). simpl. rewrite Hq. reflexivity.
Qed.

Lemma split_pieces s : forall cur, has_star (rev cur) = false ->
  (forall q, rev cur = q ++ [" "; "*"] -> forall r, s <> " " :: r) ->
  (forall q, rev cur = q ++ [" "] -> forall r, s <> "*" :: " " :: r) ->
  Forall (fun p => has_star p = false) (split_from cur s).
Proof.
  remember (List.length s) as n eqn:En. revert s En.
  induction n as [n IH] using lt_wf_ind. intros s En cur Hc H2 H1. destruct s as [|c r].
  - simpl. constructor; auto.
  - destruct (starts (c :: r)) eqn:E.
    + apply starts_true in E as (r' & E). rewrite E. rewrite split_sep. constructor; auto.
      rewrite E in En; simpl in En. eapply IH; [|reflexivity| | |]; try (simpl; lia); auto.
      * intros q Hq. destruct q; discriminate.
      * intros q Hq. destruct q; discriminate.
    + rewrite split_step by auto. simpl in En. eapply IH; [|reflexivity| | |]; [lia| | |].
      * simpl. destruct (has_star (rev cur ++ [c])) eqn:Eh; auto.
        apply has_star_app_false in Eh as [Eh|(q & Hq)]; [congruence|].
        exfalso. change [" "; "*"; " "] with (([" "; "*"] ++ [" "])) in Hq. rewrite app_assoc in Hq.
        apply app_inj_tail in Hq as [Hq ->]. apply (H2 _ Hq r). reflexivity.
      * simpl. intros q Hq r' Hr. subst r.
        change [" "; "*"] with ([" "] ++ ["*"]) in Hq. rewrite app_assoc in Hq.
        apply app_inj_tail in Hq as [Hq ->]. apply (H1 _ Hq r'). reflexivity.
      * simpl. intros q Hq r' Hr. subst r. apply app_inj_tail in Hq as [Hq ->]. discriminate.
Qed.

Lemma split_star_pieces s : Forall (fun p => has_star p = false) (split_star s).
Proof.
  apply split_pieces; auto; intros q Hq; destruct q; discriminate.
Qed.

(** splitting a join of separator-free, space-free pieces *)
Definition plain (p : list ascii) : Prop := ~ In " " p.
Lemma starts_plain c r : c <> " " -> starts (c :: r) = false.
Proof.
  intros H. destruct (starts (c :: r)) eqn:E; auto. apply starts_true in E as (r' & E). inversion E; congruence.
Qed.
Lemma split_plain p : forall cur s, plain p -> split_from cur (p ++ s) = split_from (rev p ++ cur) s.
Proof.
  induction p as [|c p IH]; intros cur s Hp; simpl app; auto.
  rewrite split_step by (apply starts_plain; intros ->; apply Hp; simpl; auto).
  rewrite IH by (intros H; apply Hp; simpl; auto). simpl. rewrite <- app_assoc. reflexivity.
Qed.
Lemma split_jn ps : ps <> [] -> Forall plain ps -> split_star (jn ps) = ps.
Proof.
  unfold split_star. intros Hn H. induction H as [|p ps Hp H IH]; [congruence|].
  destruct ps as [|p' ps].
  - simpl jn. rewrite <- (app_nil_r p) at 1. rewrite split_plain by auto. simpl.
    rewrite app_nil_r, rev_involutive. reflexivity.
  - change (jn (p :: p' :: ps)) with (p ++ " " :: "*" :: " " :: jn (p' :: ps)).
    rewrite split_plain by auto. rewrite split_sep, app_nil_r, rev_involutive.
    rewrite IH by discriminate. reflexivity.
Qed.

Lemma split_single s : has_star s = false -> split_star s = [s].
Proof.
  unfold split_star. assert (G : forall cur, has_star s = false -> split_from cur s = [rev cur ++ s]); [|intros; apply G; auto].
  induction s as [|c s IH]; intros cur H; [simpl; rewrite app_nil_r; auto|].
  rewrite has_star_step in H. apply orb_false_iff in H as [H1 H2].
  rewrite split_step by auto. rewrite IH by auto. simpl. rewrite <- app_assoc. reflexivity.
Qed.

(** string/char conversions *)
Lemma chars_append a b : chars (a ++ b)%string = chars a ++ chars b.
Proof. unfold chars. induction a as [|c a IH]; simpl; congruence. Qed.
Lemma chars_inj a b : chars a = chars b -> a = b.
Proof. unfold chars. revert b; induction a as [|c a IH]; intros [|d b]; simpl; intros H; inversion H; f_equal; auto. Qed.
Lemma chars_joined ns : chars (joined ns) = jn (map chars ns).
Proof.
  unfold joined. induction ns as [|n ns IH]; [reflexivity|]. destruct ns as [|n' ns]; [reflexivity|].
  change (String.concat " * " (n :: n' :: ns)) with (n ++ " * " ++ String.concat " * " (n' :: ns))%string.
  rewrite !chars_append, IH. reflexivity.
Qed.
Lemma chars_of s : chars (string_of_list_ascii s) = s.
Proof. apply list_ascii_of_string_of_list_ascii. Qed.

Lemma is_name_spec s n : is_name s n = true <-> s = chars n.
Proof. unfold is_name. destruct (list_eq_dec ascii_dec s (chars n)); split; auto; discriminate. Qed.

Lemma ufc_named_spec s c : ufc_named s = Ok c <-> exists n, s = chars n /\ documented n c.
Proof.
  split.
  - unfold ufc_named.
    repeat match goal with
    | |- (if is_name ?s ?n then _ else _) = _ -> _ => destruct (is_name s n) eqn:?E; [|]
    end; simpl; intros H; inversion H; subst;
    match goal with E : is_name _ ?n = true |- _ => apply is_name_spec in E; exists n; split; [exact E|constructor] end.
  - intros (n & -> & Hd). destruct Hd; reflexivity.
Qed.
Lemma ufc_named_err s e : ufc_named s = Err e -> e = RuntimeError.
Proof.
  unfold ufc_named.
  repeat match goal with |- (if ?b then _ else _) = _ -> _ => destruct b end; simpl; intros H; inversion H; auto.
Qed.

Lemma mapM_ok {A B} (f : A -> result B) l ys : mapM f l = Ok ys <-> Forall2 (fun x y => f x = Ok y) l ys.
Proof.
  revert ys; induction l as [|x l IH]; intros ys; simpl.
  - split; intros H; inversion H; constructor.
  - destruct (f x) as [y|e] eqn:E.
    + destruct (mapM f l) as [ys'|e] eqn:E2.
      * split; intros H; inversion H; subst; [constructor; auto; apply IH; auto|].
        f_equal. f_equal; [congruence|]. apply IH in H4. congruence.
      * split; intros H; inversion H; subst. apply IH in H4. congruence.
    + split; intros H; inversion H; subst. congruence.
Qed.
Lemma mapM_err {A B} (f : A -> result B) l e : mapM f l = Err e -> exists x, In x l /\ f x = Err e.
Proof.
  induction l as [|x l IH]; simpl; [discriminate|].
  destruct (f x) as [y|e'] eqn:E.
  - destruct (mapM f l) as [ys|e'] eqn:E2; intros H; inversion H; subst.
    destruct IH as (x' & H1 & H2); auto. exists x'; auto.
  - intros H; inversion H; subst. exists x; auto.
Qed.

Lemma ufc_fuel_piece fuel p : has_star p = false -> ufc_cell_fuel (S fuel) p = ufc_named p.
Proof. intros H. simpl. rewrite H. reflexivity. Qed.

Lemma ufc_cell_unfold s : ufc_cell s =
  if has_star (chars s) then
    match mapM ufc_named (split_star (chars s)) with Err e => Err e | Ok cs => Ok (TensorProductCell cs) end
  else ufc_named (chars s).
Proof.
  unfold ufc_cell. generalize (chars s); intros l.
  destruct (has_star l) eqn:E; [|apply ufc_fuel_piece; auto].
  cbn [ufc_cell_fuel]. rewrite E. destruct (List.length l) as [|n] eqn:El.
  { destruct l; [discriminate|discriminate]. }
  replace (mapM (ufc_cell_fuel (S n)) (split_star l)) with (mapM ufc_named (split_star l)); auto.
  pose proof (split_star_pieces l) as H. induction H as [|p ps Hp H IH]; auto.
  cbn [mapM]. rewrite ufc_fuel_piece by auto. rewrite IH. reflexivity.
Qed.

Lemma documented_plain n c : documented n c -> plain (chars n).
Proof.
  intros []; unfold plain; simpl; intros H;
  repeat match goal with H : _ \/ _ |- _ => destruct H as [H|H] end; try discriminate; auto.
Qed.

Lemma has_star_jn p p' ps : has_star (jn (p :: p' :: ps)) = true.
Proof.
  change (jn (p :: p' :: ps)) with (p ++ " " :: "*" :: " " :: jn (p' :: ps)).
  generalize (jn (p' :: ps)); intros q.
  induction p as [|c p IH]; [reflexivity|]. rewrite <- app_comm_cons, has_star_step, IH. apply orb_true_r.
Qed.
Lemma has_star_plain p : plain p -> has_star p = false.
Proof.
  induction p as [|c p IH]; intros H; auto. rewrite has_star_step.
  rewrite starts_plain by (intros ->; apply H; simpl; auto). apply IH. intros Hi; apply H; simpl; auto.
Qed.

Lemma ufc_cell_ok s c : ufc_cell s = Ok c <->
  exists ns cs, ns <> [] /\ s = joined ns /\ Forall2 documented ns cs /\ c = product_of cs.
Proof.
  rewrite ufc_cell_unfold. split.
  - destruct (has_star (chars s)) eqn:E.
    + destruct (mapM ufc_named (split_star (chars s))) as [cs|e] eqn:Em; [|discriminate].
      intros H; inversion H; subst c. apply mapM_ok in Em.
      assert (G : exists ns, split_star (chars s) = map chars ns /\ Forall2 documented ns cs).
      { clear -Em. induction Em as [|p c ps cs Hp Em IH]; [exists []; auto|].
        destruct IH as (ns & A & B). apply ufc_named_spec in Hp as (n & -> & Hn).
        exists (n :: ns). rewrite A. auto. }
      destruct G as (ns & G1 & G2). exists ns, cs.
      assert (Hj : s = joined ns).
      { apply chars_inj. rewrite chars_joined, <- G1. unfold split_star. rewrite jn_split. reflexivity. }
      split; [|split; [|split]]; auto.
      * intros ->. apply (split_nonnil (chars s) []). exact G1.
      * destruct G2 as [|n c ns cs Hn G2]; [reflexivity|]. destruct G2; [|reflexivity].
        exfalso. subst s. rewrite chars_joined in E. simpl in E.
        rewrite has_star_plain in E by (eapply documented_plain; eauto). discriminate.
    + intros H. apply ufc_named_spec in H as (n & Hn & Hd). apply chars_inj in Hn; subst.
      exists [n], [c]. split; [discriminate|]. split; [reflexivity|]. split; [|reflexivity]. constructor; auto.
  - intros (ns & cs & Hn & -> & Hd & ->). rewrite chars_joined.
    assert (Hp : Forall plain (map chars ns)).
    { clear -Hd. induction Hd; simpl; constructor; auto. eapply documented_plain; eauto. }
    destruct Hd as [|n c ns cs Hd1 Hd]; [congruence|]. destruct Hd as [|n' c' ns cs Hd2 Hd].
    + cbn [map jn product_of]. rewrite has_star_plain by (inversion Hp; auto). apply ufc_named_spec; eauto.
    + cbn [map]. rewrite has_star_jn. rewrite split_jn by (auto; discriminate).
      assert (Em : mapM ufc_named (chars n :: chars n' :: map chars ns) = Ok (c :: c' :: cs)).
      { apply mapM_ok. constructor; [apply ufc_named_spec; eauto|]. constructor; [apply ufc_named_spec; eauto|].
        clear -Hd. induction Hd; simpl; constructor; auto. apply ufc_named_spec; eauto. }
      rewrite Em. reflexivity.
Qed.
Lemma ufc_cell_err s e : ufc_cell s = Err e -> e = RuntimeError.
Proof.
  rewrite ufc_cell_unfold. destruct (has_star (chars s)).
  - destruct (mapM ufc_named (split_star (chars s))) as [cs|e'] eqn:Em; [discriminate|].
    intros H; inversion H; subst. apply mapM_err in Em as (x & _ & Hx). eapply ufc_named_err; eauto.
  - apply ufc_named_err.
Qed.

(** dimensions *)
Lemma tuple_sum_dimension c : tuple_sum (get_dimension c) = spatial_dimension c.
Proof.
  induction c as [c Hc|cs IH] using cell_ind'.
  - destruct c; try reflexivity. exfalso; eapply Hc; reflexivity.
  - cbn [get_dimension tuple_sum spatial_dimension]. rewrite map_map. f_equal.
    apply map_ext_in. intros c Hc. rewrite Forall_forall in IH; auto.
Qed.
Lemma vertices_dim K c : Forall (fun v => List.length v = spatial_dimension c) (vertices K c).
Proof.
  induction c as [c Hc|cs IH] using cell_ind'.
  - destruct c; try (repeat constructor). exfalso; eapply Hc; reflexivity.
  - cbn [vertices spatial_dimension]. unfold tp_vertices. apply Forall_forall. intros v Hv.
    apply in_map_iff in Hv as (xs & <- & Hx). apply ProofsCart.in_cart in Hx. apply Forall2_map_l in Hx.
    revert IH. induction Hx as [|c x cs xs Hx Hxs IHx]; intros IH; [reflexivity|].
    inversion IH as [|? ? H1 H2]; subst. simpl. rewrite app_length, IHx by auto.
    rewrite Forall_forall in H1. rewrite H1; auto.
Qed.

(** is_hypercube *)
Fixpoint all_cubes (first acc : bool) (cs : list cell) : result bool :=
  match cs with
  | [] => if first then Err TypeError else Ok acc
  | c' :: cs' => match is_hypercube c' with
                 | Err e => Err e
                 | Ok b => all_cubes false (acc && b) cs'
                 end
  end.
Lemma is_hypercube_tp cs : is_hypercube (TensorProductCell cs) = all_cubes true true cs.
Proof.
  cbn [is_hypercube]. generalize true at 1 3; generalize true. induction cs as [|c cs IH]; intros a b; simpl; auto.
Qed.
Lemma is_hypercube_true c : hypercube c -> is_hypercube c = Ok true.
Proof.
  induction c as [c Hc|cs IH] using cell_ind'; intros H.
  - inversion H; subst; try reflexivity. exfalso; eapply Hc; reflexivity.
  - inversion H as [| | | |c cs' Hf]; subst. rewrite is_hypercube_tp.
    cbn [all_cubes]. inversion Hf as [|? ? H1 H2]; subst. inversion IH as [|? ? I1 I2]; subst.
    rewrite I1 by auto. simpl. clear H1 I1 IH Hf H.
    induction H2 as [|c' cs' Hc' Hcs IHcs]; simpl; auto.
    inversion I2; subst. rewrite H1 by auto. simpl. auto.
Qed.
Lemma all_cubes_true first acc cs : all_cubes first acc cs = Ok true ->
  acc = true /\ (first = true -> cs <> []) /\ Forall (fun c => is_hypercube c = Ok true) cs.
Proof.
  revert first acc; induction cs as [|c cs IH]; intros first acc; simpl.
  - destruct first; intros H; inversion H; auto. repeat split; auto. discriminate.
  - destruct (is_hypercube c) as [b|e] eqn:E; [|discriminate]. intros H.
    apply IH in H as (A & _ & B). apply andb_true_iff in A as [-> ->]. repeat split; auto. discriminate.
Qed.
Lemma is_hypercube_sound c : is_hypercube c = Ok true -> hypercube c.
Proof.
  induction c as [c Hc|cs IH] using cell_ind'; intros H.
  - destruct c; try discriminate; try constructor. exfalso; eapply Hc; reflexivity.
  - rewrite is_hypercube_tp in H. apply all_cubes_true in H as (_ & Hn & Hf).
    destruct cs as [|c cs]; [exfalso; apply Hn; auto|]. constructor.
    rewrite Forall_forall in *. intros; auto.
Qed.
Lemma is_hypercube_err c e : is_hypercube c = Err e -> e = TypeError.
Proof.
  revert e. induction c as [c Hc|cs IH] using cell_ind'; intros e H.
  - destruct c; try discriminate. exfalso; eapply Hc; reflexivity.
  - rewrite is_hypercube_tp in H. revert H. generalize true at 1; generalize true.
    induction IH as [|c cs Hc' IH IHcs]; intros a b; simpl.
    + destruct b; intros H; inversion H; auto.
    + destruct (is_hypercube c) as [b'|e'] eqn:E; [apply IHcs|]. intros H; inversion H; subst. auto.
Qed.

Lemma np_shape_uniform d : forall s, uniform s d <-> np_shape d = Some s.
Proof.
  induction d as [n|l IH] using dimT_ind'; intros s.
  - simpl. split; intros H; inversion H; subst; [reflexivity|constructor].
  - destruct l as [|d l].
    + simpl. split; intros H; inversion H; subst; [reflexivity|constructor].
    + inversion IH as [|? ? I1 I2]; subst. cbn [np_shape]. split.
      * intros H. inversion H as [| |s' ? ? Hf]; subst. inversion Hf as [|? ? F1 F2]; subst.
        apply I1 in F1 as E. rewrite E.
        assert (G : forallb (fun d' => match np_shape d' with
                              | Some s'0 => if list_eq_dec Nat.eq_dec s' s'0 then true else false
                              | None => false end) (d :: l) = true).
        { apply forallb_forall. intros d' Hd'. assert (E' : np_shape d' = Some s').
          { destruct Hd' as [->|Hd']; auto. rewrite Forall_forall in I2, F2. apply I2; auto. }
          rewrite E'. destruct (list_eq_dec _ s' s'); auto. }
        rewrite G. reflexivity.
      * destruct (np_shape d) as [s0|] eqn:E; [|discriminate].
        destruct (forallb _ (d :: l)) eqn:G; [|discriminate]. intros H; inversion H; subst.
        simpl. constructor. rewrite forallb_forall in G. apply Forall_forall. intros d' Hd'.
        specialize (G d' Hd'). destruct (np_shape d') as [s'|] eqn:E'; [|discriminate].
        destruct (list_eq_dec _ s0 s'); [|discriminate]. subst s'.
        destruct Hd' as [->|Hd']; [apply I1; auto|]. rewrite Forall_forall in I2. apply I2; auto.
Qed.

Lemma flatten_cube c s : uniform s (get_dimension c) ->
  flatten_reference_cube c =
  (if Nat.leb (spatial_dimension c) 1 then Ok c
   else match is_hypercube c with
         | Err e => Err e
         | Ok false => Err TypeError
         | Ok true => if Nat.eqb (spatial_dimension c) 2 then Ok UFCQuadrilateral
                      else if Nat.eqb (spatial_dimension c) 3 then Ok UFCHexahedron else Err KeyError
         end).
Proof.
  intros H. apply np_shape_uniform in H. unfold flatten_reference_cube, np_sum.
  rewrite H, tuple_sum_dimension. reflexivity.
Qed.
