(** Tensor product elements and their flattening (tensor_product.py), and
    sub-element construction of cells (reference_element.py). *)
From Verif Require Import Base ModelIndex ModelCell ModelArray ModelConcat.

(** reference_element.py l.209-215, 461-467, 486-493, 711-718, 795-808,
    858-873, [construct_subelement].  A non-integer dimension passed to a
    simplex falls through [ufc_simplex] (RuntimeError); passed to a cube the
    error message formatting itself raises TypeError; iterating an integer in
    the product case raises TypeError. *)
Fixpoint construct_subelement (c : cell) (d : dimT) : result cell :=
  match c with
  | Point => match d with DI 0 => Ok Point | _ => Err AssertionError end
  | UFCInterval | UFCTriangle | UFCTetrahedron =>
    match d with DI n => ufc_simplex n | DT _ => Err RuntimeError end
  | DefaultLine | DefaultTriangle | DefaultTetrahedron | IntrepidTriangle | IntrepidTetrahedron =>
    Err NotImplementedError
  | TensorProductCell cs =>
    match d with
    | DI _ => Err TypeError
    | DT ds =>
      let fix go (cs : list cell) (ds : list dimT) : result (list cell) :=
        match cs, ds with
        | c' :: cs', d' :: ds' =>
          match construct_subelement c' d' with
          | Err e => Err e
          | Ok s => match go cs' ds' with Err e => Err e | Ok l => Ok (s :: l) end
          end
        | _, _ => Ok []                                    (* zip stops *)
        end
      in match go cs ds with Err e => Err e | Ok l => Ok (TensorProductCell l) end
    end
  | UFCQuadrilateral =>
    match d with
    | DI 2 => Ok UFCQuadrilateral | DI 1 => Ok UFCInterval | DI 0 => Ok Point
    | DI _ => Err ValueError | DT _ => Err TypeError
    end
  | UFCHexahedron =>
    match d with
    | DI 3 => Ok UFCHexahedron | DI 2 => Ok UFCQuadrilateral | DI 1 => Ok UFCInterval | DI 0 => Ok Point
    | DI _ => Err ValueError | DT _ => Err TypeError
    end
  end.

(** ** Numbering: tensor_product.py l.51-66 *)
Definition tpe_entity_ids (Bsdim : nat) (Adofs Bdofs : dict (list nat)) : dict (list nat) :=
  flat_map (fun '(curAdim, esA) =>
    map (fun '(curBdim, esB) =>
      (DT [curAdim; curBdim],
       enumerate (flat_map (fun '(_, lA) =>
         map (fun '(_, lB) => flat_map (fun x => map (fun y => x * Bsdim + y) lB) lA) esB) esA)))
    Bdofs) Adofs.

(** ** Dual nodes: tensor_product.py l.68-205.  A node is represented by what
    the construction inspects: its class and its point dictionary; [W] is the
    type of weight lists. *)
Section Nodes.
  Context {K : Type} (zero : K).
  Definition wlist := list (K * list nat).
  Inductive node :=
  | PointEvaluation (x : list K)
  | PointScaledNormalEvaluation (x : list K) (w : wlist)
  | PointEdgeTangentEvaluation (x : list K) (w : wlist)
  | ComponentPointEvaluation (comp : nat) (shp : list nat) (x : list K)
  | FrobeniusIntegralMoment (pd : list (list K * wlist))
  | IntegralMoment (pd : list (list K * wlist))
  | PointDerivative
  | OtherFunctional                                         (* any other Functional *)
  | GenericFunctional (shp : list nat) (pd : list (list K * wlist))  (* Functional(ref_el, shp, pd, {}, _) *)
  | Undefined.                                              (* Functional(None, None, None, {}, "Undefined") *)

  (** one pair of nodes; [sd] is the spatial dimension of the product cell.
      The Frobenius case appends [(0.0, sd-1)] with a bare integer component;
      the model writes it as the tuple [(sd-1,)]. *)
  Definition tpe_node (sd : nat) (a b : node) : result node :=
    match a with
    | PointEvaluation x =>
      match b with
      | PointEvaluation y => Ok (PointEvaluation (x ++ y))
      | IntegralMoment _ => Ok Undefined
      | PointDerivative => Ok Undefined
      | _ => Err NotImplementedError
      end
    | PointScaledNormalEvaluation x w | PointEdgeTangentEvaluation x w =>
      match b with
      | PointEvaluation y =>
        if Nat.ltb 1 (length y) then Err NotImplementedError
        else Ok (GenericFunctional [sd] [(x ++ y, w ++ [(zero, [length x])])])
      | _ => Err NotImplementedError
      end
    | ComponentPointEvaluation c _ x =>
      match b with
      | PointEvaluation y => Ok (ComponentPointEvaluation c [sd] (x ++ y))
      | _ => Err NotImplementedError
      end
    | FrobeniusIntegralMoment pd =>
      match b with
      | PointEvaluation y =>
        Ok (GenericFunctional [sd] (map (fun '(x, w) => (x ++ y, w ++ [(zero, [sd - 1])])) pd))
      | _ => Err NotImplementedError
      end
    | IntegralMoment pd =>
      match b with
      | PointEvaluation y => Ok (GenericFunctional [sd] (map (fun '(x, w) => (x ++ y, w)) pd))
      | _ => Err NotImplementedError
      end
    | _ => Ok Undefined                                     (* isinstance(Anode, Functional) *)
    end.
  Fixpoint tpe_row (sd : nat) (a : node) (Bs : list node) : result (list node) :=
    match Bs with
    | [] => Ok []
    | b :: Bs' => match tpe_node sd a b with
                  | Err e => Err e
                  | Ok n => match tpe_row sd a Bs' with Err e => Err e | Ok l => Ok (n :: l) end
                  end
    end.
  Fixpoint tpe_nodes (sd : nat) (As Bs : list node) : result (list node) :=
    match As with
    | [] => Ok []
    | a :: As' => match tpe_row sd a Bs with
                  | Err e => Err e
                  | Ok r => match tpe_nodes sd As' Bs with Err e => Err e | Ok l => Ok (r ++ l) end
                  end
    end.
End Nodes.
Arguments node K : clear implicits.

(** ** Arrays *)
Section Arr.
  Context {K : Type}.
  (** [a[..., j]] *)
  Definition last_slice (a : array K) (j : nat) : array K :=
    mkArray (removelast (ashape a)) (fun idx => aget a (idx ++ [j])).
  (** [numpy.outer(u, v)] flattens both arguments *)
  Definition outer (mul : K -> K -> K) (u v : array K) : array K :=
    mkArray [nprod (ashape u); nprod (ashape v)]
      (fun idx => match idx with
                  | i :: k :: _ => mul (aget u (unravel (ashape u) i)) (aget v (unravel (ashape v) k))
                  | _ => mul (aget u []) (aget v [])
                  end).
  (** [a.ravel()] *)
  Definition flat (a : array K) : array K :=
    mkArray [nprod (ashape a)] (fun idx => aget a (unravel (ashape a) (hd 0 idx))).
  (** [numpy.array([f(0), ..., f(n-1)])] with [n > 0] and equal shapes *)
  Definition stack (n : nat) (f : nat -> array K) : array K :=
    mkArray (n :: ashape (f 0)) (fun idx => aget (f (hd 0 idx)) (tl idx)).
  (** [a.transpose(perm)]: axis [k] of the result is axis [perm[k]] of [a] *)
  Definition place (perm idx : list nat) (n : nat) : list nat :=
    map (fun ax => match find (fun '(p, _) => Nat.eqb p ax) (combine perm idx) with
                   | Some (_, i) => i | None => 0 end) (seq 0 n).
  Definition transpose (perm : list nat) (a : array K) : array K :=
    mkArray (map (fun p => nth p (ashape a) 0) perm)
            (fun idx => aget a (place perm idx (length (ashape a)))).
End Arr.

(** ** Tabulation: tensor_product.py l.231-336.
    The value shapes are [vA], [vB]; the factor tables are given.  [npts > 0]
    points ([numpy.array([])] of an empty list has no second axis). *)
Section Tab.
  Context {K : Type} (mul : K -> K -> K).

  Definition get_key (k : list nat) (t : list (list nat * array K)) : result (array K) :=
    match tlookup k t with Some a => Ok a | None => Err KeyError end.

  (** the four branches of the inner loop, for one multi-index *)
  Definition tpe_entry (vA vB npts : nat) (a b : array K) : result (array K) :=
    match vA, vB with
    | 0, 0 =>
      Ok (transpose [1; 0] (stack npts (fun j => flat (outer mul (last_slice a j) (last_slice b j)))))
    | 1, 0 =>
      let temp := stack npts (fun j => outer mul (last_slice a j) (last_slice b j)) in
      match ashape temp with
      | [n0; n1; n2] =>
        if Nat.eqb (n1 mod 2) 0 then
          match reshape temp [n0; n1 / 2; 2; n2] with
          | Err e => Err e
          | Ok t => match reshape_last (transpose [0; 2; 1; 3] t) [n0; 2] with
                    | Err e => Err e
                    | Ok t' => Ok (transpose [2; 1; 0] t')
                    end
          end
        else Err AssertionError
      | _ => Err IndexError
      end
    | 0, 1 =>
      (* range(len(Atab[alpha][0])) is range(npts) for a scalar A *)
      let temp := stack npts (fun j => outer mul (last_slice a j) (last_slice b j)) in
      match ashape temp with
      | [n0; n1; n2] =>
        if Nat.eqb (n2 mod 2) 0 then
          match reshape temp [n0; n1; n2 / 2; 2] with
          | Err e => Err e
          | Ok t => match reshape t [n0; nprod (ashape t) / (n0 * 2); 2] with
                    | Err e => Err e
                    | Ok t' => Ok (transpose [1; 2; 0] t')
                    end
          end
        else Err AssertionError
      | _ => Err IndexError
      end
    | _, _ => Err NotImplementedError
    end.

  Fixpoint tpe_keys (sdA sdB vA vB npts : nat) (Atab Btab : list (list nat * array K))
    (alphas : list (list nat)) (acc : list (list nat * array K)) : result (list (list nat * array K)) :=
    match alphas with
    | [] => Ok acc
    | alpha :: alphas' =>
      match get_key (firstn sdA alpha) Atab with
      | Err e => Err e
      | Ok a =>
        match get_key (firstn sdB (skipn sdA alpha)) Btab with
        | Err e => Err e
        | Ok b =>
          match tpe_entry vA vB npts a b with
          | Err e => Err e
          | Ok r => tpe_keys sdA sdB vA vB npts Atab Btab alphas' (tset alpha r acc)
          end
        end
      end
    end.
  Definition tpe_combine (sdA sdB vA vB npts order : nat) (Atab Btab : list (list nat * array K))
    : result (list (list nat * array K)) :=
    if Nat.ltb 1 (vA + vB) then Err NotImplementedError
    else tpe_keys sdA sdB vA vB npts Atab Btab
           (flat_map (fun i => mis (sdA + sdB) i) (seq 0 (S order))) [].

  (** A factor element as tabulation sees it. *)
  Record factor := { fe_cell : cell; fe_vdim : nat;                          (* len(value_shape()) *)
    fe_tab : nat -> list (list K) -> dimT -> nat -> result (list (list nat * array K)) }.

  (** l.234-250: entity [(DT [dA; dB], id)] is split by [unravel_index]
      (ValueError outside the range); points are split at the dimension of A's
      sub-entity. *)
  Definition tpe_tabulate (A B : factor) (order : nat) (points : list (list K))
    (entity : option (dimT * nat)) : result (list (list nat * array K)) :=
    let '(ed, eid) := match entity with
                      | Some e => e
                      | None => (get_dimension (TensorProductCell [fe_cell A; fe_cell B]), 0)
                      end in
    match ed with
    | DT [dA; dB] =>
      match dlookup dA (topology (fe_cell A)), dlookup dB (topology (fe_cell B)) with
      | Some esA, Some esB =>
        let shape := [length esA; length esB] in
        if Nat.ltb eid (nprod shape) then
          match unravel shape eid with
          | [idA; idB] =>
            match construct_subelement (fe_cell A) dA with
            | Err e => Err e
            | Ok sA =>
              match construct_subelement (fe_cell B) dB with
              | Err e => Err e
              | Ok sB =>
                let pA := spatial_dimension sA in
                let pB := spatial_dimension sB in
                match fe_tab A order (map (firstn pA) points) dA idA with
                | Err e => Err e
                | Ok Atab =>
                  match fe_tab B order (map (fun p => firstn pB (skipn pA p)) points) dB idB with
                  | Err e => Err e
                  | Ok Btab =>
                    tpe_combine (spatial_dimension (fe_cell A)) (spatial_dimension (fe_cell B))
                      (fe_vdim A) (fe_vdim B) (length points) order Atab Btab
                  end
                end
              end
            end
          | _ => Err ValueError
          end
        else Err ValueError
      | _, _ => Err KeyError
      end
    | DT _ => Err ValueError                                   (* unpacking *)
    | DI _ => Err TypeError                                    (* zip of an int *)
    end.
End Tab.
Arguments factor K : clear implicits.

(** tensor_product.py l.363-407, FlattenedDimensions: the numbering is
    flattened; tabulation on the flat entity [(d, e)] is tabulation on the
    product entity found in the unflattening map of the product cell's
    topology (KeyError when absent). *)
Definition flattened_entity_ids (ids : dict (list nat)) : list (nat * ents (list nat)) := flatten_entities ids.
(** l.373-380: the reference cell; ValueError unless 2 or 3 dimensional *)
Definition flattened_cell (product : cell) : result cell :=
  match spatial_dimension product with
  | 2 => Ok UFCQuadrilateral | 3 => Ok UFCHexahedron | _ => Err ValueError end.
Definition flattened_tabulate {K} (product : cell)
  (tab : nat -> list (list K) -> option (dimT * nat) -> result (list (list nat * array K)))
  (order : nat) (points : list (list K)) (entity : option (nat * nat)) : result (list (list nat * array K)) :=
  let '(d, e) := match entity with Some de => de | None => (spatial_dimension product, 0) end in
  match ulookup (compute_unflattening_map (topology product)) d e with
  | None => Err KeyError
  | Some pe => tab order points (Some pe)
  end.
