(** C31: variant strings. *)
From Coq Require Import ZArith Ascii String.
From Verif Require Import Base ModelVariant.
Local Open Scope Z_scope.

(** the digit classifier agrees with ASCII *)
Definition ascii_digits (digit : nat -> option nat) : Prop :=
  forall c, (c < 128)%nat -> digit c = if (48 <=? c)%nat && (c <=? 57)%nat then Some (c - 48)%nat else None.

(** [s] is a nonempty numeral with value [v] *)
Inductive numeral (digit : nat -> option nat) : ustring -> Z -> Prop :=
| num_one c d : digit c = Some d -> numeral digit [c] (Z.of_nat d)
| num_snoc s v c d : numeral digit s v -> digit c = Some d -> numeral digit (s ++ [c]) (10 * v + Z.of_nat d).

(** what may follow: nothing, or one newline *)
Definition tail (t : ustring) : Prop := t = [] \/ t = [10%nat].

Section Proofs.
  Context (digit : nat -> option nat) (HA : ascii_digits digit).
  Notation digits := (digits digit).

  Lemma strip_spec p s r : strip p s = Some r <-> s = p ++ r.
  Proof.
    revert s. induction p as [|a p IH]; intros s; cbn; [split; congruence|].
    destruct s as [|b s]; [split; discriminate|]. destruct (Nat.eqb_spec a b) as [->|H].
    - rewrite IH. split; [now intros ->|now intros [= ->]].
    - split; [discriminate|intros [= -> _]; contradiction].
  Qed.
  Lemma at_end_spec s : at_end s = true <-> tail s.
  Proof.
    unfold tail. destruct s as [|c [|d s]]; cbn.
    - tauto.
    - rewrite Nat.eqb_eq. split; [intros ->; auto|intros [H|[= ->]]; [discriminate|reflexivity]].
    - split; [discriminate|intros [H|H]; discriminate].
  Qed.
  Lemma digits_app s ds r : digits s = (ds, r) -> exists p, s = p ++ r /\ map digit p = map Some ds.
  Proof.
    revert ds r. induction s as [|c s IH]; intros ds r; cbn.
    - intros [= <- <-]. now exists [].
    - destruct (digit c) as [v|] eqn:E.
      + destruct (digits s) as [ds' r'] eqn:E2. intros [= <- <-]. destruct (IH _ _ eq_refl) as (p & -> & Hp).
        exists (c :: p). split; [reflexivity|]. cbn. now rewrite E, Hp.
      + intros [= <- <-]. now exists [].
  Qed.
  Lemma digits_run p ds c r : map digit p = map Some ds -> digit c = None -> digits (p ++ c :: r) = (ds, c :: r).
  Proof.
    revert ds. induction p as [|x p IH]; intros [|d ds]; cbn; try discriminate.
    - intros _ ->. reflexivity.
    - intros [= H1 H2] Hc. rewrite H1, (IH _ H2 Hc). reflexivity.
  Qed.
  Lemma numeral_values p v : numeral digit p v <->
    exists ds, ds <> [] /\ map digit p = map Some ds /\ to_int ds = v.
  Proof.
    split.
    - induction 1 as [c d H|s v c d Hn IH H].
      + exists [d]. split; [discriminate|]. cbn [map]. rewrite H. split; [reflexivity|].
        cbn [to_int fold_left]. unfold to_int. cbn [fold_left]. lia.
      + destruct IH as (ds & H1 & H2 & <-). exists (ds ++ [d]). split; [destruct ds; discriminate|].
        rewrite !map_app, H2. cbn [map]. rewrite H. split; [reflexivity|]. unfold to_int. now rewrite fold_left_app.
    - intros (ds & H1 & H2 & <-). revert p H2. induction ds as [|d ds IH] using rev_ind; [contradiction|]. intros p Hp.
      rewrite map_app in Hp. cbn [map] in Hp.
      destruct p as [|c p _] using rev_ind; [destruct ds; discriminate|].
      rewrite map_app in Hp. cbn [map] in Hp. apply app_inj_tail in Hp as (H3 & H4).
      unfold to_int. rewrite fold_left_app. cbn [fold_left]. destruct ds as [|d0 ds].
      + destruct p; [|discriminate]. cbn [fold_left app]. replace (10 * 0 + Z.of_nat d) with (Z.of_nat d) by lia.
        now constructor.
      + apply (num_snoc digit p); [|assumption]. apply IH; [discriminate|exact H3].
  Qed.
  Lemma close_not_digit : digit 41 = None. Proof. now rewrite HA by lia. Qed.

  Lemma match_group_spec s ds : match_group digit s = Some ds <->
    exists p t, s = 40%nat :: p ++ 41%nat :: t /\ tail t /\ ds <> [] /\ map digit p = map Some ds.
  Proof.
    unfold match_group. split.
    - destruct s as [|c s]; [discriminate|]. destruct (Nat.eqb_spec c 40) as [->|]; [|discriminate].
      destruct (digits s) as [ds' r] eqn:E. apply digits_app in E as (p & -> & Hp).
      destruct ds' as [|d ds']; [destruct r; discriminate|]. destruct r as [|c' r]; [discriminate|].
      destruct (Nat.eqb_spec c' 41) as [->|]; [|discriminate]. destruct (at_end r) eqn:Er; [|discriminate].
      intros [= <-]. exists p, r. apply at_end_spec in Er. repeat split; auto. discriminate.
    - intros (p & t & -> & Ht & Hds & Hp). rewrite Nat.eqb_refl, (digits_run _ _ _ _ Hp close_not_digit).
      destruct ds as [|d ds]; [contradiction|]. apply at_end_spec in Ht. now rewrite Nat.eqb_refl, Ht.
  Qed.
End Proofs.

(** The whole behaviour, by cases on the string.  [None] behaves as "point" and
    warns. *)
Theorem C31_check_format_variant : forall digit, ascii_digits digit -> forall (degree : Z),
  let run v := check_format_variant digit v degree in
  run None = mkOut true (Ok (Point, None)) /\
  run (Some (lit "point")) = mkOut false (Ok (Point, None)) /\
  (forall t, tail t -> run (Some (lit "integral" ++ t)) =
     mkOut false (if 5 * (degree + 1) <? degree + 1 then Err ValueError else Ok (Integral, Some (5 * (degree + 1))))) /\
  (forall p d t, numeral digit p d -> tail t -> run (Some (lit "integral(" ++ p ++ lit ")" ++ t)) =
     mkOut false (if d <? degree + 1 then Err ValueError else Ok (Integral, Some d))) /\
  (forall s, s <> lit "point" -> (forall t, tail t -> s <> lit "integral" ++ t) ->
     (forall p d t, numeral digit p d -> tail t -> s <> lit "integral(" ++ p ++ lit ")" ++ t) ->
     run (Some s) = mkOut false (Err ValueError)).
Proof.
  intros digit HA degree run. unfold run, check_format_variant. clear run.
  split; [reflexivity|]. split; [reflexivity|]. split; [|split].
  - intros t Ht. f_equal. unfold match_variant.
    rewrite (proj2 (strip_spec _ _ t) eq_refl).
    assert (G : match_group digit t = None) by (destruct Ht as [-> | ->]; reflexivity).
    rewrite G. apply at_end_spec in Ht. rewrite Ht. reflexivity.
  - intros p d t Hp Ht. f_equal. unfold match_variant.
    change (lit "integral(") with (lit "integral" ++ [40%nat]). rewrite <- app_assoc.
    rewrite (proj2 (strip_spec _ _ _) eq_refl). apply numeral_values in Hp as (ds & H1 & H2 & <-).
    change (lit ")") with [41%nat]. cbn [app].
    rewrite (proj2 (match_group_spec digit HA _ ds)); [reflexivity|]. exists p, t. auto.
  - intros s H1 H2 H3. f_equal. unfold match_variant. destruct (strip (lit "integral") s) as [r|] eqn:E.
    + apply strip_spec in E as ->. destruct (match_group digit r) as [ds|] eqn:G.
      * exfalso. apply (match_group_spec digit HA) in G as (p & t & -> & Ht & Hds & Hp).
        apply (H3 p (to_int ds) t); [|exact Ht|reflexivity]. apply numeral_values. eauto.
      * destruct (at_end r) eqn:A; [exfalso; apply at_end_spec in A; now apply (H2 r)|].
        destruct (list_eq_dec Nat.eq_dec (lit "integral" ++ r) (lit "point")); [contradiction|reflexivity].
    + destruct (list_eq_dec Nat.eq_dec s (lit "point")); [contradiction|reflexivity].
Qed.

(** For the degrees the elements pass (nonnegative), the default is accepted. *)
Theorem C31_default_degree : forall digit degree, 0 <= degree ->
  check_format_variant digit (Some (lit "integral")) degree = mkOut false (Ok (Integral, Some (5 * (degree + 1)))).
Proof.
  intros digit degree H. unfold check_format_variant. cbn [match_variant]. unfold match_variant.
  change (strip (lit "integral") (lit "integral")) with (Some (@nil nat)). cbn [match_group at_end].
  destruct (Z.ltb_spec (5 * (degree + 1)) (degree + 1)); [lia|reflexivity].
Qed.

(** "accepts exactly 'integral' and 'integral(d)'" fails in two ways: a
    trailing newline is accepted, and so are non-ASCII decimal digits. *)
Theorem C31_exact_strings_refuted : forall digit, ascii_digits digit -> forall degree, 0 <= degree ->
  chosen (check_format_variant digit (Some (lit "integral" ++ [10%nat])) degree) = Ok (Integral, Some (5 * (degree + 1))) /\
  (digit 1637%nat = Some 5%nat ->   (* U+0665, ARABIC-INDIC DIGIT FIVE *)
   chosen (check_format_variant digit (Some (lit "integral(" ++ [1637%nat] ++ lit ")")) 3) = Ok (Integral, Some 5)).
Proof.
  intros digit HA degree Hd. destruct (C31_check_format_variant digit HA degree) as (_ & _ & H1 & _).
  split.
  - rewrite H1 by (right; reflexivity). cbn [chosen]. destruct (Z.ltb_spec (5 * (degree + 1)) (degree + 1)); [lia|reflexivity].
  - intros H. destruct (C31_check_format_variant digit HA 3) as (_ & _ & _ & H2 & _).
    specialize (H2 [1637%nat] 5 [] (num_one digit 1637%nat 5 H) (or_introl eq_refl)).
    rewrite app_nil_r in H2. rewrite H2. reflexivity.
Qed.

(** non-vacuity: the ASCII classifier, "integral(42)" at degree 3, and a refusal *)
Definition ascii_only (c : nat) : option nat := if (48 <=? c)%nat && (c <=? 57)%nat then Some (c - 48)%nat else None.
Example C31_ascii : ascii_digits ascii_only. Proof. intros c _. reflexivity. Qed.
Example C31_example :
  chosen (check_format_variant ascii_only (Some (lit "integral(42)")) 3) = Ok (Integral, Some 42) /\
  chosen (check_format_variant ascii_only (Some (lit "integral(3)")) 3) = Err ValueError /\
  chosen (check_format_variant ascii_only (Some (lit "integral()")) 3) = Err ValueError /\
  numeral ascii_only (lit "42") 42.
Proof.
  repeat split. change (lit "42") with ([52] ++ [50])%nat. change 42 with (10 * 4 + Z.of_nat 2).
  apply num_snoc; [change 4 with (Z.of_nat 4); now constructor|reflexivity].
Qed.

Print Assumptions C31_check_format_variant.
Print Assumptions C31_default_degree.
Print Assumptions C31_exact_strings_refuted.
