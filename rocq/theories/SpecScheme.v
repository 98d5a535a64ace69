(** Specification vocabulary for the quadrature schemes: iterated sums, and the
    integral of a polynomial integrand over a (product) cell. *)
Set Warnings "-notation-overridden,-ambiguous-paths".
From Coq Require Import ZArith QArith String.
From mathcomp Require Import all_ssreflect all_algebra.
From Verif Require Base.
From Verif Require Import SpecJacobi SpecExpansion ModelQuad SpecQuad ModelScheme.
Set Implicit Arguments. Unset Strict Implicit. Unset Printing Implicit Defensive.
Import GRing.Theory.
Local Open Scope ring_scope.

Section Spec.
Variable F : fieldType.
(** topological dimension *)
Fixpoint cdim (c : qcell F) : nat :=
  match c with
  | QSimp d _ _ => d
  | QProd cs => sumn (map cdim cs)
  | QQuad => 2
  | QHex => 3
  end.
(** as many weights as points *)
Definition balanced (q : rule F) : Prop := size (q_wts q) = size (q_pts q).
(** the rule applied factor by factor *)
Fixpoint iterated (qs : seq (rule F)) (f : seq F -> F) : F :=
  if qs is q :: qs' then integrate q (fun x => iterated qs' (fun y => f (x ++ y))) else f [::].

(** [integ_on c d f I]: on the cell [c] the integrand [f] is a polynomial of
    degree at most [d] (on a product: of degree at most [d_i] in the
    coordinates of factor [i]) and its integral over [c] is [I].  On a product
    the integral is the iterated one. *)
Inductive integ_on : qcell F -> darg -> (seq F -> F) -> F -> Prop :=
  | io_point ufc v z f : Z.le 0 z -> integ_on (QSimp 0 ufc v) (DInt z) f (f [::])
  | io_line ufc v z f (P : {poly F}) : Z.le 0 z -> simplex_verts 1 v -> (size P <= (Z.to_nat z).+1)%N ->
      (forall x, f [:: x] = P.[x]) -> integ_on (QSimp 1 ufc v) (DInt z) f (int_interval v P)
  | io_tri ufc v z f (P : {poly {poly F}}) : Z.le 0 z -> simplex_verts 2 v -> deg2_le (Z.to_nat z) P ->
      (forall x y, f [:: x; y] = ev2 P x y) -> integ_on (QSimp 2 ufc v) (DInt z) f (int_triangle v P)
  | io_tet ufc v z f (P : {poly {poly {poly F}}}) : Z.le 0 z -> simplex_verts 3 v -> deg3_le (Z.to_nat z) P ->
      (forall x y t, f [:: x; y; t] = ev3 P x y t) -> integ_on (QSimp 3 ufc v) (DInt z) f (int_tetrahedron v P)
  | io_prod cs ds f I : integ_list cs ds f I -> integ_on (QProd cs) (DTuple ds) f I
  | io_prod_int cs z f I : integ_list cs (nseq (size cs) (DInt z)) f I -> integ_on (QProd cs) (DInt z) f I
  | io_quad d f I : integ_on (QProd [:: UFCInterval F; UFCInterval F]) d f I -> integ_on (QQuad F) d f I
  | io_hex d f I : integ_on (QProd [:: UFCInterval F; UFCInterval F; UFCInterval F]) d f I -> integ_on (QHex F) d f I
with integ_list : seq (qcell F) -> seq darg -> (seq F -> F) -> F -> Prop :=
  | il_nil f : integ_list [::] [::] f (f [::])
  | il_cons c cs d ds f g I :
      (forall y, size y = sumn (map cdim cs) -> integ_on c d (fun x => f (x ++ y)) (g y)) ->
      integ_list cs ds g I -> integ_list (c :: cs) (d :: ds) f I.
(** no factor of the cell is a UFC triangle or tetrahedron with a degree
    between 0 and 6 *)
Fixpoint table_free (c : qcell F) (d : darg) : Prop :=
  match c with
  | QSimp dim ufc _ => if d is DInt z then ((dim == 2)%N || (dim == 3)%N) && ufc -> Z.lt z 0 \/ Z.lt 6 z else True
  | QProd cs => 
    (fix tf (cs : seq (qcell F)) (ds : seq darg) : Prop :=
       match cs, ds with c :: cs', d :: ds' => table_free c d /\ tf cs' ds' | _, _ => True end)
      cs (match d with DTuple l => l | DInt _ => nseq (size cs) d end)
  | _ => True
  end.
(** a cell flagged as a UFC simplex has the vertices of that class *)
Fixpoint ufc_ok (c : qcell F) : Prop :=
  match c with
  | QSimp 2 true v => v = [:: [:: 0; 0]; [:: 1; 0]; [:: 0; 1]]
  | QSimp 3 true v => v = [:: [:: 0; 0; 0]; [:: 1; 0; 0]; [:: 0; 1; 0]; [:: 0; 0; 1]]
  | QProd cs => (fix ok (l : seq (qcell F)) := match l with c :: l' => ufc_ok c /\ ok l' | _ => True end) cs
  | _ => True
  end.
(** the cell of the rule: quadrilaterals and hexahedra become products *)
Fixpoint norm_cell (c : qcell F) : qcell F :=
  match c with
  | QSimp d u v => QSimp d u v
  | QProd cs => QProd (map norm_cell cs)
  | QQuad => QProd [:: UFCInterval F; UFCInterval F]
  | QHex => QProd [:: UFCInterval F; UFCInterval F; UFCInterval F]
  end.
(** points of the canonical rule: m = (degree + 2) / 2 per direction *)
Definition npts1 (dim : nat) (d : darg) : nat := if d is DInt z then ((Z.to_nat z + 2) %/ 2) ^ dim else 0.
Fixpoint npts (c : qcell F) (d : darg) : nat :=
  match c with
  | QSimp dim _ _ => npts1 dim d
  | QProd cs =>
    (fix np (cs : seq (qcell F)) (ds : seq darg) : nat :=
       match cs, ds with c :: cs', d :: ds' => npts c d * np cs' ds' | _, _ => 1 end)%N
      cs (match d with DTuple l => l | DInt _ => nseq (size cs) d end)
  | QQuad => match d with DTuple [:: d1; d2] => (npts1 1 d1 * npts1 1 d2)%N | _ => npts1 2 d end
  | QHex => match d with DTuple [:: d1; d2; d3] => (npts1 1 d1 * npts1 1 d2 * npts1 1 d3)%N | _ => npts1 3 d end
  end.
End Spec.

Section Norms.
Variable F : numDomainType.
(** sums of the absolute values of the coefficients *)
Definition norm2 (P : {poly {poly F}}) : F := \sum_(i < size P) \sum_(j < size P`_i) `|P`_i`_j|.
Definition norm3 (P : {poly {poly {poly F}}}) : F := \sum_(i < size P) \sum_(j < size P`_i) \sum_(k < size P`_i`_j) `|P`_i`_j`_k|.
(** the closed unit simplex *)
Definition in_unit_simplex (p : seq F) : bool := all (fun c => 0 <= c) p && (\sum_(c <- p) c <= 1).
End Norms.
