(** [create_quadrature] (quadrature_schemes.py), in exact arithmetic. *)
Set Warnings "-notation-overridden,-ambiguous-paths".
From Coq Require Import ZArith QArith String.
From mathcomp Require Import all_ssreflect all_algebra.
From Verif Require Base.
From Verif Require Import ModelQuad ModelTables.
Set Implicit Arguments. Unset Strict Implicit. Unset Printing Implicit Defensive.
Import GRing.Theory.
Local Open Scope ring_scope.

(** The [degree] argument: an integer or a tuple. *)
Inductive darg := DInt (z : Z) | DTuple (ds : seq darg).

Section Scheme.
Variable F : fieldType.
(** rational literals as elements of the field *)
Fixpoint posF (p : positive) : F :=
  match p with xH => 1 | xO p' => posF p' + posF p' | xI p' => 1 + (posF p' + posF p') end.
Definition zF (z : Z) : F := match z with Z0 => 0 | Zpos p => posF p | Zneg p => - posF p end.
Definition qF (q : Q) : F := zF (Qnum q) / posF (Qden q).
Definition qpts (l : seq (seq Q)) : seq (seq F) := [seq [seq qF c | c <- x] | x <- l].
Definition qwts (l : seq Q) : seq F := [seq qF w | w <- l].

Variable gjp : nat -> nat -> nat -> seq F.

(** l.86-93, [_fiat_scheme] *)
Definition fiat_scheme (c : qcell F) (degree : nat) : Base.result (rule F) :=
  make_quadrature gjp c ((degree + 1 + 1) %/ 2).

(** l.328-403, [_triangle_scheme]; l.406-522, [_tetrahedron_scheme] *)
Definition triangle_scheme (degree : nat) : Base.result (rule F) :=
  if (degree <= 6)%N
  then quadrature_rule (UFCTriangle F) (qpts (tri_table degree).1) (qwts (tri_table degree).2)
  else fiat_scheme (UFCTriangle F) degree.
Definition tetrahedron_scheme (degree : nat) : Base.result (rule F) :=
  if (degree <= 6)%N
  then quadrature_rule (UFCTetrahedron F) (qpts (tet_table degree).1) (qwts (tet_table degree).2)
  else fiat_scheme (UFCTetrahedron F) degree.

(** l.96-325, [_kmv_lump_scheme] on a simplex with spatial dimension [sd].
    [make_points(1, e, 2)] gives the midpoint of edge [e] (edges numbered by
    the opposite vertex), [make_points(2, 0, 3)] the barycentre; the unassigned
    locals of degree 0 and of degree 6 and above are an UnboundLocalError. *)
Definition mean (l : seq (seq F)) : seq F :=
  mkseq (fun j => (\sum_(v <- l) nth 0 v j) / (size l)%:R) (size (head [::] l)).
Definition edge_midpoints (verts : seq (seq F)) : seq (seq F) :=
  let v i := nth [::] verts i in [:: mean [:: v 1%N; v 2%N]; mean [:: v 0%N; v 2%N]; mean [:: v 0%N; v 1%N]].
Definition kmv_scheme (sd : nat) (verts : seq (seq F)) (degree : nat) : Base.result (rule F) :=
  let tri x w := quadrature_rule (UFCTriangle F) (verts ++ x) (qwts w) in
  let tet x w := quadrature_rule (UFCTetrahedron F) (verts ++ x) (qwts w) in
  match sd, degree with
  | 2%N, 1%N => tri [::] kmv_tri_w1
  | 3%N, 1%N => tet [::] kmv_tet_w1
  | 2%N, 2%N => tri (edge_midpoints verts ++ [:: mean verts]) kmv_tri_w2
  | 3%N, 2%N => tet (qpts kmv_tet_x2) kmv_tet_w2
  | 2%N, 3%N => tri (qpts kmv_tri_x3) kmv_tri_w3
  | 3%N, 3%N => tet (qpts kmv_tet_x3) kmv_tet_w3
  | 2%N, 4%N => tri (edge_midpoints verts ++ qpts kmv_tri_x4) kmv_tri_w4
  | 2%N, 5%N => tri (qpts kmv_tri_x5) kmv_tri_w5
  | 3%N, 4%N | 3%N, 5%N => Base.Err Base.ValueError
  | 2%N, _ | 3%N, _ => Base.Err Base.UnboundLocalError
  | _, _ => Base.Err Base.ValueError
  end.

(** l.66-83: the part of [create_quadrature] for a simplex. *)
Definition simplex_quadrature (dim : nat) (ufc : bool) (verts : seq (seq F)) (degree : darg) (scheme : string) : Base.result (rule F) :=
  let c := QSimp dim ufc verts in
  match degree with
  | DTuple _ => Base.Err Base.TypeError
  | DInt z =>
    if Z.ltb z 0 then Base.Err Base.ValueError
    else
      let d := Z.to_nat z in
      if String.eqb scheme "default" then
        match dim, ufc with
        | 2%N, true => triangle_scheme d
        | 3%N, true => tetrahedron_scheme d
        | _, _ => fiat_scheme c d
        end
      else if String.eqb scheme "canonical" then fiat_scheme c d
      else if String.eqb scheme "KMV" then kmv_scheme dim verts d
      else Base.Err Base.ValueError
  end.

(** l.52-61: a product of the given cells *)
Section Product.
Variable cq : qcell F -> darg -> Base.result (rule F).
Fixpoint quad_rules (cells : seq (qcell F)) (ds : seq darg) {struct cells} : Base.result (seq (rule F)) :=
  match cells, ds with
  | c :: cs, d :: ds' => Base.bind (cq c d) (fun q => Base.bind (quad_rules cs ds') (fun qs => Base.Ok (q :: qs)))
  | _, _ => Base.Ok [::]
  end.
Definition product_quadrature (cells : seq (qcell F)) (degree : darg) : Base.result (rule F) :=
  let ds := match degree with DTuple l => l | DInt _ => nseq (size cells) degree end in
  if size cells != size ds then Base.Err Base.AssertionError
  else Base.bind (quad_rules cells ds) (fun qs => tp_quadrature qs).
End Product.

(** l.38-83, [create_quadrature]; [ref_el.product] of the quadrilateral and the
    hexahedron is a product of UFC intervals. *)
Definition ufc_interval_quadrature (scheme : string) (c : qcell F) (d : darg) :=
  simplex_quadrature 1 true [:: [:: 0]; [:: 1]] d scheme.
Fixpoint create_quadrature (c : qcell F) (degree : darg) (scheme : string) {struct c} : Base.result (rule F) :=
  match c with
  | QProd cells => product_quadrature (fun c d => create_quadrature c d scheme) cells degree
  | QQuad => product_quadrature (ufc_interval_quadrature scheme) [:: UFCInterval F; UFCInterval F] degree
  | QHex => product_quadrature (ufc_interval_quadrature scheme) [:: UFCInterval F; UFCInterval F; UFCInterval F] degree
  | QSimp dim ufc verts => simplex_quadrature dim ufc verts degree scheme
  end.
End Scheme.
