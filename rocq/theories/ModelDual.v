(** Functionals, dual sets, Ciarlet elements (functional.py, dual_set.py,
    finite_element.py, polynomial_set.py) over a field: exact arithmetic
    replaces floating point. *)
Set Warnings "-notation-overridden,-ambiguous-paths".
From mathcomp Require Import all_ssreflect all_algebra.
From Verif Require Base.
Set Implicit Arguments. Unset Strict Implicit. Unset Printing Implicit Defensive.
Import GRing.Theory.
Local Open Scope ring_scope.
Notation Ok := Base.Ok.
Notation Err := Base.Err.
Notation result := Base.result.

Section Dual.
Variables (F : fieldType) (P : eqType).      (* scalars; points as hashable tuples *)
Definition comp := seq nat.
Definition alpha := seq nat.

(** functional.py l.65-77, [Functional.__init__].  Dictionaries are
    association lists in insertion order. *)
Record functional := mkFunctional {
  target_shape : seq nat;
  pt_dict : seq (P * seq (F * comp));
  deriv_dict : seq (P * seq (F * alpha * comp)) }.
Definition max_deriv_order (l : functional) : nat :=
  \max_(pw <- deriv_dict l) \max_(wac <- pw.2) sumn wac.1.2.

(** [d[k]] *)
Fixpoint dget {V} (k : P) (d : seq (P * V)) : option V :=
  if d is (k', v) :: d' then if k == k' then Some v else dget k d' else None.

(** Valid components of a shape, in row-major order (the order in which
    numpy.reshape flattens the middle axes). *)
Fixpoint comps (shp : seq nat) : seq comp :=
  if shp is s :: shp' then flatten [seq [seq i :: c | c <- comps shp'] | i <- iota 0 s] else [:: [::]].

(** Expansion set of [nexp] scalar functions on a cell of dimension [sd]:
    values, and derivatives by multi-index (polynomial_set.py l.71-87 returns
    exactly the multi-indices up to the requested order; other keys raise
    KeyError). *)
Record expansion := mkExpansion {
  nexp : nat; sdim : nat;
  phi : nat -> P -> F;
  dphi : alpha -> nat -> P -> F }.

(** numpy arrays written by [+=] *)
Definition rowT := comp -> nat -> F.
Definition mat := nat -> rowT.
Definition row_add (r : rowT) (c : comp) (i : nat) (v : F) : rowT :=
  fun c' i' => if (c' == c) && (i' == i) then r c' i' + v else r c' i'.
Definition mat_add (m : mat) (k : nat) (c : comp) (i : nat) (v : F) : mat :=
  fun k' => if k' == k then row_add (m k) c i v else m k'.

Variable E : expansion.

(** *** functional.py l.106-171, [Functional.to_riesz] for one functional.
    A component that is not an index of the shape raises IndexError (the
    model does not follow numpy's partial indexing for tuples of a wrong
    length). *)
Definition pt_step (shp : seq nat) (pt : P) (i : nat) (r : result rowT) (wc : F * comp) : result rowT :=
  match r with
  | Err e => Err e
  | Ok r => if wc.2 \in comps shp then Ok (row_add r wc.2 i (wc.1 * phi E i pt)) else Err Base.IndexError
  end.
Definition dpt_step (order : nat) (shp : seq nat) (pt : P) (i : nat) (r : result rowT) (wac : F * alpha * comp)
  : result rowT :=
  match r with
  | Err e => Err e
  | Ok r => if (size wac.1.2 == sdim E) && (sumn wac.1.2 <= order)%N
            then if wac.2 \in comps shp then Ok (row_add r wac.2 i (wac.1.1 * dphi E wac.1.2 i pt))
                 else Err Base.IndexError
            else Err Base.KeyError
  end.
Definition functional_to_riesz (shp : seq nat) (l : functional) : result rowT :=
  let r1 := foldl (fun r pw => foldl (fun r i => foldl (pt_step shp pw.1 i) r pw.2) r (iota 0 (nexp E)))
                  (Ok (fun _ _ => 0)) (pt_dict l) in
  if deriv_dict l is [::] then r1
  else foldl (fun r pw => foldl (fun r i => foldl (dpt_step (max_deriv_order l) shp pw.1 i) r pw.2) r (iota 0 (nexp E)))
             r1 (deriv_dict l).

(** *** dual_set.py l.46-135, [DualSet.to_riesz]: points are collected over
    all nodes first. *)
Fixpoint append_at (pt : P) (k : nat) (d : seq (P * seq nat)) : seq (P * seq nat) :=
  if d is (pt', ks) :: d' then
    if pt == pt' then (pt', rcons ks k) :: d' else (pt', ks) :: append_at pt k d'
  else [:: (pt, [:: k])].
Definition collect {V} (dicts : seq (seq (P * V))) : seq (P * seq nat) :=
  foldl (fun d ki => foldl (fun d pt => append_at pt ki.1 d) d [seq pw.1 | pw <- ki.2])
        [::] (zip (iota 0 (size dicts)) dicts).

Definition mpt_step (shp : seq nat) (pt : P) (k i : nat) (m : result mat) (wc : F * comp) : result mat :=
  match m with
  | Err e => Err e
  | Ok m => if wc.2 \in comps shp then Ok (mat_add m k wc.2 i (wc.1 * phi E i pt)) else Err Base.IndexError
  end.
Definition mdpt_step (order : nat) (shp : seq nat) (pt : P) (k i : nat) (m : result mat) (wac : F * alpha * comp)
  : result mat :=
  match m with
  | Err e => Err e
  | Ok m => if (size wac.1.2 == sdim E) && (sumn wac.1.2 <= order)%N
            then if wac.2 \in comps shp then Ok (mat_add m k wac.2 i (wac.1.1 * dphi E wac.1.2 i pt))
                 else Err Base.IndexError
            else Err Base.KeyError
  end.
(** the loop over the collected points: [d] is the node's dictionary,
    [d[pt]] raising KeyError *)
Definition pt_loop {W} (step : P -> nat -> nat -> result mat -> W -> result mat)
  (dicts : seq (seq (P * seq W))) (coll : seq (P * seq nat)) (m : result mat) : result mat :=
  foldl (fun m pk =>
    foldl (fun m k =>
      match dget pk.1 (nth [::] dicts k) with
      | None => Err Base.KeyError
      | Some ws => foldl (fun m i => foldl (step pk.1 k i) m ws) m (iota 0 (nexp E))
      end) m pk.2) m coll.

Definition to_riesz (nodes : seq functional) : result mat :=
  if nodes is l0 :: _ then
    let shp := target_shape l0 in
    let pds := map pt_dict nodes in
    let dds := map deriv_dict nodes in
    let m1 := pt_loop (mpt_step shp) pds (collect pds) (Ok (fun _ _ _ => 0)) in
    let order := \max_(l <- nodes) max_deriv_order l in
    if (0 < order)%N then pt_loop (mdpt_step order shp) dds (collect dds) m1 else m1
  else Err Base.IndexError.

(** *** Polynomial sets: member, component, expansion function *)
Record polyset := mkPolySet { num_members : nat; pshape : seq nat; coeffs : nat -> comp -> nat -> F }.
(** polynomial_set.py l.115-119, [take]; numpy.take raises IndexError *)
Definition take_members (U : polyset) (items : seq nat) : result polyset :=
  if all (fun i => i < num_members U)%N items
  then Ok (mkPolySet (size items) (pshape U) (fun j => coeffs U (nth 0%N items j)))
  else Err Base.IndexError.

(** *** finite_element.py l.112-145, [CiarletElement.__init__].  The middle
    axes are flattened in C order: column [q] is component number
    [q / nexp], expansion function [q mod nexp].  numpy.reshape raises
    ValueError when the sizes differ (the model also refuses different shapes
    of the same size, which no element uses); numpy.linalg.inv raises LinAlgError on
    non-square or singular matrices (exact arithmetic). *)
Definition ncols (shp : seq nat) : nat := (size (comps shp) * nexp E)%N.
Definition flat_row (shp : seq nat) (r : rowT) : 'rV[F]_(ncols shp) :=
  \row_q r (nth [::] (comps shp) (q %/ nexp E)) (q %% nexp E)%N.
Definition flat_mat n (shp : seq nat) (m : mat) : 'M[F]_(n, ncols shp) :=
  \matrix_(i, q) flat_row shp (m i) 0 q.
Definition unflat_mat n (shp : seq nat) (A : 'M[F]_(n, ncols shp)) : mat :=
  fun j c k => match insub j : option 'I_n, insub (index c (comps shp) * nexp E + k)%N : option 'I_(ncols shp) with
               | Some j', Some q => A j' q
               | _, _ => 0
               end.
Definition vandermonde n (shp : seq nat) (R : mat) (C : mat) : 'M[F]_n :=
  flat_mat n shp R *m (flat_mat n shp C)^T.
Definition ciarlet (nodes : seq functional) (U : polyset) : result polyset :=
  match to_riesz nodes with
  | Err e => Err e
  | Ok R =>
    let shp := pshape U in
    if target_shape (head (mkFunctional [::] [::] [::]) nodes) != shp
    then Err Base.ValueError
    else if size nodes != num_members U then Err Base.LinAlgError
    else
      let V := vandermonde (size nodes) shp R (coeffs U) in
      if V \in unitmx
      then Ok (mkPolySet (num_members U) shp
                 (unflat_mat ((invmx V)^T *m flat_mat (size nodes) shp (coeffs U))))
      else Err Base.LinAlgError
  end.
End Dual.
