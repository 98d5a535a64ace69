(** Python's [sorted] modelled by insertion sort, and facts about it. *)
From Coq Require Import Sorted Permutation.
From Verif Require Import Base.

Section Sort.
  Context {A : Type} (leb : A -> A -> bool).

  Fixpoint insert (x : A) (l : list A) : list A :=
    match l with
    | [] => [x]
    | y :: l' => if leb x y then x :: l else y :: insert x l'
    end.
  Fixpoint isort (l : list A) : list A :=
    match l with [] => [] | x :: l' => insert x (isort l') end.

  Lemma insert_perm x l : Permutation (x :: l) (insert x l).
  Proof.
    induction l as [|y l IH]; simpl; [auto|]. destruct (leb x y); [auto|].
    eapply perm_trans; [apply perm_swap|]. apply perm_skip. exact IH.
  Qed.
  Lemma isort_perm l : Permutation l (isort l).
  Proof.
    induction l as [|x l IH]; simpl; [auto|].
    eapply perm_trans; [apply perm_skip; exact IH|apply insert_perm].
  Qed.
  Lemma isort_length l : length (isort l) = length l.
  Proof. symmetry; apply Permutation_length, isort_perm. Qed.
  Lemma isort_in x l : In x (isort l) <-> In x l.
  Proof.
    split; apply Permutation_in; [symmetry|]; apply isort_perm.
  Qed.

  Hypothesis total : forall x y, leb x y = true \/ leb y x = true.
  Hypothesis trans : forall x y z, leb x y = true -> leb y z = true -> leb x z = true.
  Definition leT (x y : A) : Prop := leb x y = true.

  Lemma insert_sorted x l : StronglySorted leT l -> StronglySorted leT (insert x l).
  Proof.
    induction 1 as [|y l Hs IH Hf]; simpl; [repeat constructor|].
    destruct (leb x y) eqn:E.
    - constructor; [constructor; auto|]. constructor; [exact E|].
      eapply Forall_impl; [|exact Hf]. intros z Hz. eapply trans; eauto.
    - constructor; auto. eapply Permutation_Forall; [apply insert_perm|].
      constructor; auto. destruct (total x y); [congruence|auto].
  Qed.
  Lemma isort_sorted l : StronglySorted leT (isort l).
  Proof. induction l as [|x l IH]; simpl; [constructor|apply insert_sorted; auto]. Qed.

  (** sorting an already sorted list changes nothing *)
  Lemma isort_id l : StronglySorted leT l -> isort l = l.
  Proof.
    induction 1 as [|y l Hs IH Hf]; simpl; [reflexivity|]. rewrite IH.
    destruct l as [|z l]; simpl; [reflexivity|].
    inversion Hf as [|? ? H1 H2]; subst. unfold leT in H1. rewrite H1. reflexivity.
  Qed.

  Hypothesis antisym : forall x y, leb x y = true -> leb y x = true -> x = y.
  Lemma sorted_perm_eq l1 l2 :
    StronglySorted leT l1 -> StronglySorted leT l2 -> Permutation l1 l2 -> l1 = l2.
  Proof.
    intros H1; revert l2; induction H1 as [|x l1 Hs IH Hf]; intros l2 H2 P.
    - apply Permutation_nil in P; auto.
    - destruct l2 as [|y l2]; [symmetry in P; apply Permutation_nil in P; discriminate|].
      inversion H2 as [|? ? Hs2 Hf2]; subst.
      assert (x = y).
      { assert (Hx : In x (y :: l2)) by (eapply Permutation_in; [exact P|simpl; auto]).
        assert (Hy : In y (x :: l1)) by (eapply Permutation_in; [symmetry; exact P|simpl; auto]).
        destruct Hx as [->|Hx]; [reflexivity|]. destruct Hy as [->|Hy]; [reflexivity|].
        rewrite Forall_forall in Hf, Hf2. apply antisym; [apply Hf|apply Hf2]; auto. }
      subst y. f_equal. apply IH; auto. eapply Permutation_cons_inv; eauto.
  Qed.
  Lemma isort_perm_eq l1 l2 : Permutation l1 l2 -> isort l1 = isort l2.
  Proof.
    intros P. apply sorted_perm_eq; try apply isort_sorted.
    eapply perm_trans; [symmetry; apply isort_perm|].
    eapply perm_trans; [exact P|apply isort_perm].
  Qed.
End Sort.

Lemma leb_total x y : Nat.leb x y = true \/ Nat.leb y x = true.
Proof. destruct (Nat.leb_spec x y), (Nat.leb_spec y x); auto; lia. Qed.
Lemma leb_trans x y z : Nat.leb x y = true -> Nat.leb y z = true -> Nat.leb x z = true.
Proof. rewrite !Nat.leb_le; lia. Qed.
Lemma leb_antisym x y : Nat.leb x y = true -> Nat.leb y x = true -> x = y.
Proof. rewrite !Nat.leb_le; lia. Qed.

(** Python's [sorted] on integers. *)
Definition nsort : list nat -> list nat := isort Nat.leb.

Lemma nsort_perm l : Permutation l (nsort l).
Proof. apply isort_perm. Qed.
Lemma nsort_sorted l : StronglySorted (leT Nat.leb) (nsort l).
Proof. apply isort_sorted; [apply leb_total|apply leb_trans]. Qed.
Lemma nsort_perm_eq l1 l2 : Permutation l1 l2 -> nsort l1 = nsort l2.
Proof. apply isort_perm_eq; [apply leb_total|apply leb_trans|apply leb_antisym]. Qed.
Lemma nsort_id l : StronglySorted Peano.le l -> nsort l = l.
Proof.
  intros H. apply isort_id. induction H as [|x l Hs IH Hf]; constructor; auto.
  eapply Forall_impl; [|exact Hf]. intros a Ha. unfold leT. apply Nat.leb_le; auto.
Qed.
