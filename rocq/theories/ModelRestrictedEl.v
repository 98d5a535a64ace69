(** [RestrictedElement] as a nodal element (restricted.py, bubble.py). *)
Set Warnings "-notation-overridden,-ambiguous-paths".
From mathcomp Require Import all_ssreflect all_algebra.
From Coq Require Import String.
From Verif Require Base ModelCell ModelRestricted.
From Verif Require Import ModelDual.
Set Implicit Arguments. Unset Strict Implicit. Unset Printing Implicit Defensive.
Import GRing.Theory.
Local Open Scope ring_scope.

Section El.
Variables (F : fieldType) (P : eqType) (M : eqType) (E : expansion F P).
Notation nil_f := (mkFunctional [::] [::] [::] : functional F P).

(** A nodal finite element as its users see it (finite_element.py l.23-79 and
    l.112-145): dual nodes, entity dofs, nodal basis, mapping name, spatial
    dimension of the cell. *)
Record nodal_element := mkEl {
  el_nodes : seq (functional F P);
  el_ids : seq (ModelCell.dimT * seq (nat * seq nat));
  el_basis : polyset F;
  el_mapping : M;
  el_sd : nat }.

(** restricted.py l.14-62, [RestrictedElement.__init__].  Indices are
    nonnegative (numpy.take would wrap a negative index, and the count
    assertion then refuses it: no dof is negative).  [nodes_old[dof]] raises
    IndexError; [mapping()] repeats the mapping name [space_dimension()]
    times. *)
Definition restricted (el : nodal_element) (indices : seq nat) (domain : string) : result nodal_element :=
  match ModelRestricted.choose_indices (el_ids el) (el_sd el) indices domain with
  | Err e => Err e
  | Ok idx =>
    match take_members (el_basis el) idx with
    | Err e => Err e
    | Ok U =>
      let: (ids', (dof_counter, T)) := ModelRestricted.restrict_dict idx (el_ids el) (0%N, [::]) in
      if has (fun dof => size (el_nodes el) <= dof)%N T then Err Base.IndexError
      else if dof_counter != size idx then Err Base.AssertionError
      else
        let mapping_old := nseq (size (el_nodes el)) (el_mapping el) in
        if has (fun dof => size mapping_old <= dof)%N idx then Err Base.IndexError
        else
          let mapping_new := [seq nth (el_mapping el) mapping_old dof | dof <- idx] in
          if ~~ all (fun m => m == head (el_mapping el) mapping_new) mapping_new then Err Base.AssertionError
          else
            let nodes := [seq nth nil_f (el_nodes el) dof | dof <- T] in
            match ciarlet E nodes U with
            | Err e => Err e
            | Ok U' => Ok (mkEl nodes ids' U' (head (el_mapping el) mapping_new) (el_sd el))
            end
    end
  end.

(** bubble.py l.14-27, given the Lagrange element [lag] on a cell of dimension
    [cell_dim]. *)
Definition codim_bubble (lag : nodal_element) (cell_dim codim : nat) : result nodal_element :=
  match ModelRestricted.codim_bubble_indices (el_ids lag) cell_dim codim with
  | Err e => Err e
  | Ok dofs => restricted lag dofs ""
  end.
End El.
