(** hdivcurl.py: [Hdiv] and [Hcurl] of a tensor product element. *)
From Verif Require Import Base ModelIndex ModelCell ModelArray ModelConcat ModelTPE.

(** mapping strings *)
Inductive mapping := Affine | ContravariantPiola | CovariantPiola | OtherMapping.
Definition is_affine (m : mapping) : bool := match m with Affine => true | _ => false end.

(** tensor_product.py l.42-49: mapping of a product *)
Definition tp_mapping (a b : mapping) : result mapping :=
  match a, b with
  | Affine, Affine => Ok Affine
  | _, Affine => Ok a
  | Affine, _ => Ok b
  | _, _ => Err ValueError
  end.

Section Hdiv.
  Context {K : fieldT}.
  (** what the constructors read of a factor: tabulation (see [factor]), form
      degree, mapping and dual nodes *)
  Record subelement := { se_tab : factor K; se_form : option nat; se_map : mapping; se_nodes : list (node K) }.
  Definition sdim (e : subelement) : nat := spatial_dimension (fe_cell (se_tab e)).
  (** the returned element: value shape, mapping, form degree, tabulate, dual nodes *)
  Record wrapped := { w_shape : list nat; w_mapping : mapping; w_form : nat;
    w_tabulate : nat -> list (list K) -> option (dimT * nat) -> result (list (list nat * array K));
    w_nodes : list (node K) }.

  (** [temp = zeros((n, sd, npts)); temp[:, k, :] = s(temp_old[:, :])], hdivcurl.py l.54-74, 176-195;
      IndexError when the axis of extent [sd] is empty or [temp_old] has fewer than two axes *)
  Definition put_scalar (sd k : nat) (s : K -> K) (old : array K) : result (array K) :=
    match ashape old with
    | [n; npts] =>
      if Nat.ltb k sd then
        Ok (mkArray [n; sd; npts] (fun idx =>
              match idx with
              | [i; c; p] => if Nat.eqb c k then s (aget old [i; p]) else f0
              | _ => f0
              end))
      else Err IndexError
    | _ => Err IndexError
    end.
  (** [temp = zeros((n, sd, npts)); temp[:, lo:hi, :] = source[:, :, :]], the
      number of functions and points being read from [old] *)
  Definition put_vector (sd lo hi : nat) (old source : array K) : result (array K) :=
    match ashape old with
    | [n; _; npts] => assign_slice (zeros f0 [n; sd; npts]) [(0, n); (lo, hi)] source
    | _ => Err IndexError
    end.
  (** [temp_perp], hdivcurl.py l.99-103, 108-112, 221-225, 230-234: components 0 and 1
      replaced, the others zero; [r] gives the two from the old ones.  IndexError
      without two components. *)
  Definition perp (r : K -> K -> K * K) (old : array K) : result (array K) :=
    match ashape old with
    | [n; m; npts] =>
      if Nat.ltb 1 m then
        Ok (mkArray [n; m; npts] (fun idx =>
              match idx with
              | [i; c; p] => let xy := r (aget old [i; 0; p]) (aget old [i; 1; p]) in
                             match c with 0 => fst xy | 1 => snd xy | _ => f0 end
              | _ => f0
              end))
      else Err IndexError
    | _ => Err IndexError
    end.

  Definition is_form (k : nat) (e : subelement) : bool := match se_form e with Some d => Nat.eqb d k | None => false end.

  (** hdivcurl.py l.51-116, one table entry of [Hdiv(element).tabulate].  In the last branch
      [Asd] is an unbound local. *)
  Definition hdiv_entry (A B : subelement) (oldmap : mapping) (sd : nat) (old : array K) : result (array K) :=
    match oldmap with
    | Affine =>
      if is_form 0 A then put_scalar sd 0 fopp old
      else if is_form 0 B then put_scalar sd (sd - 1) (fun x => x) old
      else Err PlainException
    | ContravariantPiola =>
      match se_map A with
      | ContravariantPiola => put_vector sd 0 (sdim A) old old
      | _ => match se_map B with
             | ContravariantPiola => put_vector sd (sdim A) sd old old
             | _ => Err ValueError
             end
      end
    | CovariantPiola =>
      match se_map A with
      | CovariantPiola =>
        if Nat.eqb (sdim A) 2 then
          match perp (fun x y => (y, fopp x)) old with
          | Err e => Err e
          | Ok t => put_vector sd 0 (sdim A) old t
          end
        else Err ValueError
      | _ => match se_map B with
             | CovariantPiola =>
               if Nat.eqb (sdim B) 2 then
                 match perp (fun x y => (y, fopp x)) old with
                 | Err e => Err e
                 | Ok t => Err UnboundLocalError
                 end
               else Err ValueError
             | _ => Err ValueError
             end
      end
    | OtherMapping => Err UnboundLocalError                    (* temp never assigned *)
    end.
  (** hdivcurl.py l.173-238, one table entry of [Hcurl(element).tabulate] *)
  Definition hcurl_entry (A B : subelement) (oldmap : mapping) (sd : nat) (old : array K) : result (array K) :=
    match oldmap with
    | Affine =>
      if is_form 1 A then put_scalar sd 0 (fun x => x) old
      else if is_form 1 B then put_scalar sd (sd - 1) (fun x => x) old
      else Err PlainException
    | CovariantPiola =>
      match se_map A with
      | CovariantPiola => put_vector sd 0 (sdim A) old old
      | _ => match se_map B with
             | CovariantPiola => put_vector sd (sdim A) sd old old
             | _ => Err ValueError
             end
      end
    | ContravariantPiola =>
      match se_map A with
      | ContravariantPiola =>
        if Nat.eqb (sdim A) 2 then
          match perp (fun x y => (fopp y, x)) old with
          | Err e => Err e
          | Ok t => put_vector sd 0 (sdim A) old t
          end
        else Err ValueError
      | _ => match se_map B with
             | ContravariantPiola =>
               if Nat.eqb (sdim B) 2 then
                 match perp (fun x y => (fopp y, x)) old with
                 | Err e => Err e
                 | Ok t => Err UnboundLocalError
                 end
               else Err ValueError
             | _ => Err ValueError
             end
      end
    | OtherMapping => Err UnboundLocalError
    end.

  Fixpoint map_entries (f : array K -> result (array K)) (t : list (list nat * array K)) : result (list (list nat * array K)) :=
    match t with
    | [] => Ok []
    | (alpha, old) :: t' =>
      match f old with
      | Err e => Err e
      | Ok r => match map_entries f t' with Err e => Err e | Ok l => Ok ((alpha, r) :: l) end
      end
    end.
  (** hdivcurl.py l.120-130, 242-252: point evaluations are replaced *)
  Definition splat (oldmap : mapping) (nodes : list (node K)) : list (node K) :=
    match oldmap with
    | Affine => map (fun n => match n with PointEvaluation _ => Undefined | _ => n end) nodes
    | _ => nodes
    end.

  (** the shared structure of hdivcurl.py l.13-132 and l.135-254 *)
  Definition wrap (newmap : mapping) (good : nat -> nat -> bool)
    (entry : subelement -> subelement -> mapping -> nat -> array K -> result (array K)) (A B : subelement) : result wrapped :=
    match se_form A, se_form B with
    | Some fA, Some fB =>
      let sd := spatial_dimension (TensorProductCell [fe_cell (se_tab A); fe_cell (se_tab B)]) in
      if good (fA + fB) sd then
        match tp_mapping (se_map A) (se_map B) with
        | Err e => Err e
        | Ok oldmap =>
          match tpe_nodes f0 sd (se_nodes A) (se_nodes B) with
          | Err e => Err e
          | Ok nodes =>
            Ok {| w_shape := [sd]; w_mapping := newmap; w_form := fA + fB;
                  w_tabulate := fun order points entity =>
                    match tpe_tabulate fmul (se_tab A) (se_tab B) order points entity with
                    | Err e => Err e
                    | Ok t => map_entries (entry A B oldmap sd) t
                    end;
                  w_nodes := splat oldmap nodes |}
          end
        end
      else Err ValueError
    | _, _ => Err ValueError
    end.
  (** hdivcurl.py l.13-132 (the comparison is with sd - 1 in the integers) *)
  Definition Hdiv := wrap ContravariantPiola (fun f sd => Nat.eqb (S f) sd) hdiv_entry.
  (** hdivcurl.py l.135-254 *)
  Definition Hcurl := wrap CovariantPiola (fun f sd => Nat.eqb f 1) hcurl_entry.
End Hdiv.
Arguments subelement : clear implicits.
Arguments wrapped : clear implicits.
