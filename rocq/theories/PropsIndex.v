(** C01, C02, C03: enumeration of lattice points, multi-indices and
    components. *)
From Coq Require Import QArith Qcanon.
From Verif Require Import Base ModelIndex SpecIndex ProofsIndex ModelPolySet ProofsPolySet.
Local Open Scope nat_scope.

(** C01: the points returned are, in order, the lattice points of the complete
    duplicate-free list of admissible barycentric indices (last direction
    slowest). *)
Theorem C01_make_lattice_exact :
  forall (K : fieldT) (verts : list (list K)) n interior d dim,
    length verts = S d -> 1 <= d -> @of_nat K n <> f0 ->
    (forall v, In v verts -> length v = dim) ->
    exists idxs,
      (forall k, In k idxs <-> lattice_index d n interior k) /\
      increasing lexlt (map (@rev nat) idxs) /\
      Forall2 (is_lattice_point verts n) idxs (make_lattice verts n interior).
Proof. intros K. exact (@make_lattice_spec K). Qed.
Print Assumptions C01_make_lattice_exact.

(** number of points with no boundary layers removed: C(n+d, d) *)
Theorem C01_make_lattice_count_all :
  forall (K : fieldT) (verts : list (list K)) n d,
    length verts = S d -> 1 <= d -> length (make_lattice verts n 0) = binom (n + d) d.
Proof.
  intros K verts n d Hl Hd. rewrite (make_lattice_length verts n 0 d Hl Hd). f_equal. lia.
Qed.
Print Assumptions C01_make_lattice_count_all.

(** number of interior points: C(n-1, d) *)
Theorem C01_make_lattice_count_interior :
  forall (K : fieldT) (verts : list (list K)) n d,
    length verts = S d -> 1 <= d -> length (make_lattice verts n 1) = binom (n - 1) d.
Proof.
  intros K verts n d Hl Hd. rewrite (make_lattice_length verts n 1 d Hl Hd).
  destruct (Nat.le_gt_cases (S d) n) as [H|H].
  - f_equal. lia.
  - rewrite !binom_lt by lia. reflexivity.
Qed.
Print Assumptions C01_make_lattice_count_interior.

Example C01_nonvacuous :
  let tri : list (list QcField) := [[0%Qc; 0%Qc]; [1%Qc; 0%Qc]; [0%Qc; 1%Qc]] in
  length tri = 3 /\ length (make_lattice tri 3 1) = 1 /\ length (make_lattice tri 3 0) = 10
  /\ @of_nat QcField 3 <> f0 /\ lattice_index 2 3 1 [1; 1].
Proof.
  repeat split; try reflexivity.
  - apply Qc_char0; discriminate.
  - intros x H. destruct H as [<-|[<-|[]]]; auto.
Qed.

(** C02 *)
Theorem C02_mis_exact :
  forall m n, 1 <= m ->
    (forall a, In a (mis m n) <-> multi_index m n a) /\
    NoDup (mis m n) /\
    increasing (fun a b => lexlt b a) (mis m n) /\
    length (mis m n) = binom (n + (m - 1)) (m - 1).
Proof.
  intros m n Hm. split; [intros a; apply mis_in; exact Hm|]. split; [apply mis_NoDup|].
  split; [apply mis_sorted|]. destruct m as [|m]; [lia|].
  replace (S m - 1) with m by lia. apply mis_length.
Qed.
Print Assumptions C02_mis_exact.

Example C02_nonvacuous : mis 2 2 = [[2; 0]; [1; 1]; [0; 2]] /\ multi_index 3 4 [2; 1; 1].
Proof. repeat split. Qed.

(** C03 *)
Theorem C03_index_iterator_exact :
  forall shp, shp <> [] ->
    (forall idx, In idx (index_iterator shp) <-> component_of shp idx) /\
    increasing lexlt (index_iterator shp) /\
    length (index_iterator shp) = nprod shp.
Proof.
  intros shp H. split; [intros idx; apply index_iterator_in; exact H|].
  split; [apply index_iterator_sorted|apply index_iterator_length; exact H].
Qed.
Print Assumptions C03_index_iterator_exact.

(** Vector/tensor polynomial sets: the counter ends at the number of allocated
    members, each member has exactly one unit entry, each (component,
    expansion function) pair belongs to exactly one member. *)
Theorem C03_on_polynomial_set_layout :
  forall shape n,
    fst (on_layout shape n) = on_num_members shape n /\
    (forall b, b < on_num_members shape n ->
       exists idx e, component_of shape idx /\ e < n /\
         forall idx' e', coeff (on_layout shape n) b idx' e' = true <-> (idx' = idx /\ e' = e)) /\
    (forall idx e, component_of shape idx -> e < n ->
       exists b, b < on_num_members shape n /\ coeff (on_layout shape n) b idx e = true /\
         forall b', coeff (on_layout shape n) b' idx e = true -> b' = b).
Proof.
  intros shape n. split; [apply on_layout_count|]. split.
  - intros b Hb. exact (on_layout_member_unique shape n b Hb).
  - intros idx e Hc He. exact (on_layout_entry_unique shape n idx e Hc He).
Qed.
Print Assumptions C03_on_polynomial_set_layout.

(** Members come component by component (row-major), expansion function
    fastest. *)
Theorem C03_on_polynomial_set_order :
  forall shape n b idx e, shape <> [] ->
    (coeff (on_layout shape n) b idx e = true <->
     exists k, nth_error (index_iterator shape) k = Some idx /\ e < n /\ b = k * n + e).
Proof.
  intros shape n b idx e Hs. rewrite on_layout_spec. destruct shape; [congruence|reflexivity].
Qed.
Print Assumptions C03_on_polynomial_set_order.

(** Symmetric tensor sets: members are symmetric, linearly independent unit
    tensors e_ij + e_ji (or e_ii) times one expansion function, and they cover
    every symmetric position exactly once. *)
Theorem C03_on_sym_polynomial_set_layout :
  forall size n,
    fst (sym_layout size n) = sym_num_members size n /\
    (forall b i j e, coeff (sym_layout size n) b [i; j] e = coeff (sym_layout size n) b [j; i] e) /\
    (forall b, b < sym_num_members size n ->
       exists i j e, i <= j /\ j < size /\ e < n /\
         forall idx' e', coeff (sym_layout size n) b idx' e' = true <->
                         ((idx' = [i; j] \/ idx' = [j; i]) /\ e' = e)) /\
    (forall i j e, i < size -> j < size -> e < n ->
       exists b, b < sym_num_members size n /\ coeff (sym_layout size n) b [i; j] e = true /\
         forall b', coeff (sym_layout size n) b' [i; j] e = true -> b' = b).
Proof.
  intros size n. split; [apply sym_layout_count|]. split; [intros; apply sym_layout_symmetric|]. split.
  - intros b Hb. exact (sym_layout_member size n b Hb).
  - intros i j e Hi Hj He. exact (sym_layout_entry_unique size n i j e Hi Hj He).
Qed.
Print Assumptions C03_on_sym_polynomial_set_layout.

Example C03_nonvacuous :
  index_iterator [2; 2] = [[0; 0]; [0; 1]; [1; 0]; [1; 1]] /\ component_of [2; 3] [1; 2]
  /\ on_num_members [3] 4 = 12 /\ sym_num_members 3 4 = 24
  /\ coeff (sym_layout 2 3) 4 [1; 0] 1 = true.
Proof. repeat split; repeat constructor. Qed.
