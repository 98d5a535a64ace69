(** Coefficient layout of orthonormal (vector / symmetric tensor) polynomial
    sets. *)
From Verif Require Import Base ModelIndex.

(** A write [coeffs[b, idx, e] = 1.0] into the zero-initialised array. *)
Definition write := (nat * list nat * nat)%type.

(** One inner loop [for exp_bf in range(n)] (polynomial_set.py l.154-157): the
    counter [cur_bf] is threaded through, every turn performs the writes
    [targets idx] (one index for ONPolynomialSet; one or two for
    ONSymTensorPolynomialSet, l.259-270) and increments the counter. *)
Definition inner_loop (n : nat) (targets : list (list nat)) (st : nat * list write)
  : nat * list write :=
  fold_left (fun (st : nat * list write) exp_bf =>
               let '(cur_bf, ws) := st in
               (S cur_bf, ws ++ map (fun t => (cur_bf, t, exp_bf)) targets))
            (range 0 n) st.

(** polynomial_set.py l.131-157, ONPolynomialSet.__init__: number of members,
    final value of [cur_bf] and the writes.  [n] is
    [polynomial_dimension(ref_el, degree)].  For [shape == ()] the code uses
    [numpy.eye(num_members)]. *)
Definition on_num_members (shape : list nat) (n : nat) : nat :=
  (match shape with [] => 1 | _ => nprod shape end) * n.

Definition on_layout (shape : list nat) (n : nat) : nat * list write :=
  match shape with
  | [] => (on_num_members shape n,
           map (fun i => (i, [], i)) (range 0 (on_num_members shape n)))
  | _ => fold_left (fun st idx => inner_loop n [idx] st) (index_iterator shape) (0, [])
  end.

(** polynomial_set.py l.246-270, ONSymTensorPolynomialSet.__init__. *)
Definition sym_num_members (size n : nat) : nat := (size * (size + 1)) / 2 * n.

Definition sym_layout (size n : nat) : nat * list write :=
  fold_left
    (fun st idx =>
       match idx with
       | [i; j] => if Nat.eqb i j then inner_loop n [[i; j]] st
                   else if Nat.ltb i j then inner_loop n [[i; j]; [j; i]] st
                   else st
       | _ => st   (* unreachable: shape has two entries *)
       end)
    (index_iterator [size; size]) (0, []).

Definition eqb_list (a b : list nat) : bool := if list_eq_dec Nat.eq_dec a b then true else false.
Definition write_eqb (u v : write) : bool :=
  let '(b, i, e) := u in let '(b', i', e') := v in
  Nat.eqb b b' && eqb_list i i' && Nat.eqb e e'.

(** Value of [coeffs[b, idx, e]] (zeros overwritten by ones): [true] means
    1.0, [false] means 0.0. *)
Definition coeff (layout : nat * list write) (b : nat) (idx : list nat) (e : nat) : bool :=
  existsb (write_eqb (b, idx, e)) (snd layout).

(** polynomial_set.py l.193-200, [form_matrix_product] is modelled in
    ModelCiarlet.v; [PolynomialSet.take] l.115-119 selects rows. *)
