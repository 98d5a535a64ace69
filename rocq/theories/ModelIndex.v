(** Index enumeration: model of the small generators that every other module
    iterates over. *)
From Verif Require Import Base.

(** reference_element.py l.40-52, [lattice_iter(start, finish, depth)].
    Generators are modelled by the list of yielded values.  Python's
    [finish - ii] cannot be negative because [ii < finish] in the loop. *)
Fixpoint lattice_iter (start finish depth : nat) : list (list nat) :=
  match depth with
  | 0 => []
  | 1 => map (fun ii => [ii]) (range start finish)
  | S d => flat_map (fun ii => map (fun jj => jj ++ [ii])
                                   (lattice_iter start (finish - ii) d))
                    (range start finish)
  end.

(** polynomial_set.py l.23-32, [mis(m, n)].  [m = 0] recurses with [m = -1]
    in Python and never terminates for [n > 0]; callers pass [m >= 1].  The
    model returns [[[0]*0]] for [n = 0] as the code does and [] otherwise. *)
Fixpoint mis (m n : nat) : list (list nat) :=
  match m with
  | 0 => match n with 0 => [[]] | S _ => [] end
  | S m' =>
    match m' with
    | 0 => [[n]]
    | S _ => match n with
             | 0 => [repeat 0 m]
             | S _ => flat_map (fun i => map (fun foo => (n - i) :: foo) (mis m' i))
                               (range 0 (n + 1))
             end
    end
  end.

(** functional.py l.25-38, [index_iterator(shp)]. *)
Fixpoint index_iterator (shp : list nat) : list (list nat) :=
  match shp with
  | [] => []
  | s :: shp_foo =>
    match shp_foo with
    | [] => map (fun i => [i]) (range 0 s)
    | _ :: _ => flat_map (fun i => map (fun foo => [i] ++ foo) (index_iterator shp_foo))
                         (range 0 s)
    end
  end.

(** Vectors of coordinates are lists over a field. *)
Section Points.
  Context {K : fieldT}.
  Local Open Scope F_scope.

  Fixpoint vadd (u v : list K) : list K :=
    match u, v with x :: u', y :: v' => (x + y) :: vadd u' v' | _, _ => [] end.
  Fixpoint vsub (u v : list K) : list K :=
    match u, v with x :: u', y :: v' => (x - y) :: vsub u' v' | _, _ => [] end.
  Definition vscale (a : K) (v : list K) : list K := map (fmul a) v.

  (** [numpy.array(indices).dot(hs)] with [hs] a list of row vectors. *)
  Fixpoint dot_rows (dim : nat) (ks : list nat) (hs : list (list K)) : list K :=
    match ks, hs with
    | k :: ks', h :: hs' => vadd (vscale (of_nat k) h) (dot_rows dim ks' hs')
    | _, _ => repeat f0 dim
    end.

  (** reference_element.py l.55-71, [make_lattice(verts, n, interior=0)]. *)
  Definition make_lattice (verts : list (list K)) (n interior : nat) : list (list K) :=
    match verts with
    | [] => []            (* vs[0] raises IndexError; a cell has a vertex *)
    | v0 :: vs =>
      let hs := map (fun v => map (fun x => x / of_nat n) (vsub v v0)) vs in
      let m := length hs in
      map (fun indices => vadd v0 (dot_rows (length v0) indices hs))
          (lattice_iter interior (n + 1 - interior) m)
    end.
End Points.
