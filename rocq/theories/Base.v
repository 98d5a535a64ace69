(** Shared vocabulary: Python exceptions as values, ranges, finite sums and an
    abstract field standing for exact arithmetic. *)
From Coq Require Export List Arith ZArith Lia Bool.
From Coq Require Export Field_theory Field.
From Coq Require Import Sorted Permutation.
Export ListNotations.

(** Python exceptions that the modelled code raises. *)
Inductive exn : Set :=
| ValueError | RuntimeError | KeyError | AssertionError | NotImplementedError
| TypeError | IndexError | UnboundLocalError | AttributeError | PlainException
| TraceError | LinAlgError.

Inductive result (A : Type) : Type :=
| Ok (a : A)
| Err (e : exn).
Arguments Ok {A} a.
Arguments Err {A} e.

Definition bind {A B} (r : result A) (k : A -> result B) : result B :=
  match r with Ok a => k a | Err e => Err e end.

(** Python's [range(a, b)] on nonnegative integers. *)
Definition range (a b : nat) : list nat := seq a (b - a).

Lemma in_range a b x : In x (range a b) <-> a <= x < b.
Proof. unfold range; rewrite in_seq; lia. Qed.

Lemma length_range a b : length (range a b) = b - a.
Proof. apply seq_length. Qed.

Lemma range_S a b : a < b -> range a b = a :: range (S a) b.
Proof. intros H; unfold range. replace (b - a) with (S (b - S a)) by lia. reflexivity. Qed.

Lemma range_nil a b : b <= a -> range a b = [].
Proof. intros H; unfold range. replace (b - a) with 0 by lia. reflexivity. Qed.

(** Sum of a list of naturals (Python's [sum]). *)
Definition nsum (l : list nat) : nat := fold_right Nat.add 0 l.
Definition nprod (l : list nat) : nat := fold_right Nat.mul 1 l.

Lemma nsum_app l1 l2 : nsum (l1 ++ l2) = nsum l1 + nsum l2.
Proof. induction l1 as [|x l1 IH]; simpl; lia. Qed.

(** Binomial coefficients by Pascal's rule (specification side). *)
Fixpoint binom (n k : nat) : nat :=
  match k, n with
  | 0, _ => 1
  | S _, 0 => 0
  | S k', S n' => binom n' k' + binom n' k
  end.

(** Strict lexicographic order on index lists (specification side). *)
Inductive lexlt : list nat -> list nat -> Prop :=
| lexlt_head x y l1 l2 : x < y -> lexlt (x :: l1) (y :: l2)
| lexlt_tail x l1 l2 : lexlt l1 l2 -> lexlt (x :: l1) (x :: l2).

(** "[l] is strictly increasing for [R]" *)
Definition increasing {A} (R : A -> A -> Prop) (l : list A) : Prop :=
  StronglySorted R l.

Lemma lexlt_irrefl l : ~ lexlt l l.
Proof. induction l as [|x l IH]; intros H; inversion H; subst; [lia|auto]. Qed.

Lemma increasing_NoDup (l : list (list nat)) : increasing lexlt l -> NoDup l.
Proof.
  induction 1 as [|x l Hs IH Hf]; constructor; auto.
  intros Hin. rewrite Forall_forall in Hf. exact (lexlt_irrefl x (Hf x Hin)).
Qed.

Lemma SSorted_app {A} (R : A -> A -> Prop) l1 l2 :
  StronglySorted R l1 -> StronglySorted R l2 ->
  (forall x y, In x l1 -> In y l2 -> R x y) -> StronglySorted R (l1 ++ l2).
Proof.
  induction 1 as [|x l Hs IH Hf]; simpl; intros H2 H; auto.
  constructor.
  - apply IH; [exact H2|]. intros; apply H; simpl; auto.
  - apply Forall_app; split; auto. apply Forall_forall; intros; apply H; simpl; auto.
Qed.

Lemma SSorted_map {A B} (R : A -> A -> Prop) (S : B -> B -> Prop) (f : A -> B) l :
  StronglySorted R l -> (forall x y, In x l -> In y l -> R x y -> S (f x) (f y)) ->
  StronglySorted S (map f l).
Proof.
  induction 1 as [|x l Hs IH Hf]; simpl; intros H; constructor.
  - apply IH. intros; apply H; simpl; auto.
  - rewrite Forall_forall in *. intros y Hy. apply in_map_iff in Hy as (z & <- & Hz).
    apply H; simpl; auto.
Qed.

(** flat_map over a strictly sorted outer list with sorted blocks. *)
Lemma SSorted_flat_map {A B} (R : A -> A -> Prop) (S : B -> B -> Prop) (f : A -> list B) l :
  StronglySorted R l ->
  (forall x, In x l -> StronglySorted S (f x)) ->
  (forall x y u v, In x l -> In y l -> R x y -> In u (f x) -> In v (f y) -> S u v) ->
  StronglySorted S (flat_map f l).
Proof.
  induction 1 as [|x l Hs IH Hf]; simpl; intros H1 H2; [constructor|].
  apply SSorted_app.
  - apply H1; simpl; auto.
  - apply IH; intros; [apply H1|eapply (H2 x0 y)]; simpl; eauto.
  - intros u v Hu Hv. apply in_flat_map in Hv as (y & Hy & Hv).
    rewrite Forall_forall in Hf. eapply (H2 x y); simpl; eauto.
Qed.

Lemma SSorted_seq a n : StronglySorted lt (seq a n).
Proof.
  revert a; induction n as [|n IH]; intros a; simpl; constructor; auto.
  apply Forall_forall; intros y Hy. apply in_seq in Hy. lia.
Qed.

Lemma SSorted_range a b : StronglySorted lt (range a b).
Proof. apply SSorted_seq. Qed.

(** A field: exact arithmetic replacing floating point numbers. *)
Record fieldT := mkField {
  car :> Type;
  f0 : car; f1 : car;
  fadd : car -> car -> car; fmul : car -> car -> car; fsub : car -> car -> car;
  fopp : car -> car; fdiv : car -> car -> car; finv : car -> car;
  f_th : field_theory f0 f1 fadd fmul fsub fopp fdiv finv (@eq car) }.
Arguments f0 {_}. Arguments f1 {_}. Arguments fadd {_}. Arguments fmul {_}.
Arguments fsub {_}. Arguments fopp {_}. Arguments fdiv {_}. Arguments finv {_}.

Declare Scope F_scope.
Delimit Scope F_scope with F.
Infix "+" := fadd : F_scope.
Infix "*" := fmul : F_scope.
Infix "-" := fsub : F_scope.
Infix "/" := fdiv : F_scope.
Notation "- x" := (fopp x) : F_scope.

(** Embedding of the naturals, and characteristic zero. *)
Fixpoint of_nat {K : fieldT} (n : nat) : K :=
  match n with 0 => f0 | S n' => fadd (of_nat n') f1 end.
Definition char0 (K : fieldT) : Prop := forall n, n <> 0 -> @of_nat K n <> f0.

(** Finite sums. *)
Definition fsum {K : fieldT} (l : list K) : K := fold_right fadd f0 l.

From Coq Require Import QArith Qcanon.
(** The rationals, used for concrete instances. *)
Definition QcField : fieldT :=
  mkField Qc 0%Qc 1%Qc Qcplus Qcmult Qcminus Qcopp Qcdiv Qcinv Qcft.

Lemma Qc_of_nat n : (@of_nat QcField n : Qc) = Q2Qc (inject_Z (Z.of_nat n)).
Proof.
  induction n as [|n IH]; [reflexivity|].
  change (@of_nat QcField (S n)) with (Qcplus (@of_nat QcField n) 1%Qc).
  rewrite IH. apply Qc_is_canon. cbn [Qcplus Q2Qc this]. rewrite !Qred_correct.
  unfold Qeq. cbn -[Z.of_nat]. lia.
Qed.

Lemma Qc_char0 : char0 QcField.
Proof.
  intros n Hn H. rewrite Qc_of_nat in H.
  apply (f_equal this) in H. cbn [Q2Qc this] in H.
  assert (E : (Qred (inject_Z (Z.of_nat n)) == 0)%Q) by (rewrite H; reflexivity).
  rewrite Qred_correct in E. unfold Qeq in E; simpl in E. lia.
Qed.
