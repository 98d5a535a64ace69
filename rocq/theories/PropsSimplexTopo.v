(** C42: the simplex classes list every sub-simplex exactly once. *)
Set Warnings "-notation-overridden,-ambiguous-paths".
From mathcomp Require Import all_ssreflect.
From Verif Require Base ModelCell.
Set Implicit Arguments. Unset Strict Implicit. Unset Printing Implicit Defensive.

(** the simplex classes of reference_element.py *)
Inductive simplex_class : ModelCell.cell -> Prop :=
| sc1 : simplex_class ModelCell.Point | sc2 : simplex_class ModelCell.DefaultLine | sc3 : simplex_class ModelCell.UFCInterval
| sc4 : simplex_class ModelCell.DefaultTriangle | sc5 : simplex_class ModelCell.UFCTriangle | sc6 : simplex_class ModelCell.IntrepidTriangle
| sc7 : simplex_class ModelCell.DefaultTetrahedron | sc8 : simplex_class ModelCell.IntrepidTetrahedron | sc9 : simplex_class ModelCell.UFCTetrahedron.
(** [c.get_topology()[d][i]] is [V] *)
Definition entity_is (c : ModelCell.cell) (d i : nat) (V : seq nat) : Prop := ModelCell.lookup (ModelCell.topology c) (ModelCell.DI d) i = Some V.
Definition look (c : ModelCell.cell) (d i : nat) : option (seq nat) := ModelCell.lookup (ModelCell.topology c) (ModelCell.DI d) i.
Definition dims_of (c : ModelCell.cell) : seq nat := [seq (if x.1 is ModelCell.DI d then d else 99) | x <- ModelCell.topology c].
Definition same_set (V W : seq nat) : bool := all (fun v => v \in W) V && all (fun v => v \in V) W.
(** the entity numbers of dimension [d] whose vertex set is [V] *)
Definition hits (c : ModelCell.cell) (d : nat) (V : seq nat) : seq nat :=
  [seq i <- iota 0 12 | if look c d i is Some W then same_set V W else false].

Lemma look_bound c d i W : simplex_class c -> look c d i = Some W ->
  [/\ (i < 12)%N, (d < ModelCell.num_vertices c)%N, uniq W, size W = d.+1 & all (fun v => v < ModelCell.num_vertices c)%N W].
Proof.
rewrite /look => Hc. case: Hc; case: d => [|[|[|[|d]]]] //; do 7 (try (case: i => [|i] //)); by move=> [<-].
Qed.
Lemma hits_one c (b : seq bool) : simplex_class c -> size b = 4%N ->
  let W := [seq v <- iota 0 (ModelCell.num_vertices c) | nth false b v] in (W != [::]) ==> (size (hits c (size W).-1 W) == 1)%N.
Proof. by case; case: b => [|[] [|[] [|[] [|[] [|]]]]] // _; vm_compute. Qed.

(** Every entity of dimension d has d+1 distinct vertices of the cell, and every
    nonempty set of vertices is the vertex set of exactly one entity, whose
    dimension is its size minus one.  Entities 0, 1, ... of dimension zero are the
    vertices 0, 1, ... *)
Theorem C42_simplex_topology_complete c : simplex_class c ->
  (forall d i V, entity_is c d i V -> [/\ uniq V, size V = d.+1 & all (fun v => v < ModelCell.num_vertices c)%N V]) /\
  (forall V, V != [::] -> uniq V -> all (fun v => v < ModelCell.num_vertices c)%N V ->
     exists i W, entity_is c (size V).-1 i W /\ V =i W /\
       forall d' i' W', entity_is c d' i' W' -> V =i W' -> d' = (size V).-1 /\ i' = i) /\
  (forall v, (v < ModelCell.num_vertices c)%N -> entity_is c 0 v [:: v]).
Proof.
move=> Hc. split; [|split].
- move=> d i V H. by have [_ _ H1 H2 H3] := look_bound Hc H.
- move=> V V0 Vu Va. pose W := [seq v <- iota 0 (ModelCell.num_vertices c) | v \in V].
  have HW : perm_eq V W.
  { apply: uniq_perm => //; first by rewrite filter_uniq // iota_uniq. move=> v. rewrite mem_filter mem_iota /= add0n.
    case Hv: (v \in V) => //=. by rewrite (allP Va v Hv). }
  have Hs : forall U, same_set V U = same_set W U.
  { move=> U. rewrite /same_set (perm_all _ HW). congr (_ && _). apply: eq_all => v. exact: (perm_mem HW). }
  have key := @hits_one c [seq v \in V | v <- iota 0 4] Hc erefl.
  have EW : [seq v <- iota 0 (ModelCell.num_vertices c) | nth false [seq v0 \in V | v0 <- iota 0 4] v] = W.
  { apply: eq_in_filter => v. rewrite mem_iota /= add0n => Hv. have : (v < 4)%N by apply: leq_trans Hv _; case: Hc. by case: v {Hv} => [|[|[|[|]]]]. }
  rewrite EW in key. have {}key : (size (hits c (size W).-1 W) == 1)%N by apply: (implyP key); apply: contra V0 => /eqP E0; rewrite -size_eq0 (perm_size HW) E0.
  have Hh : forall d i, (i \in hits c d W) = (if look c d i is Some U then same_set V U else false).
  { move=> d i. rewrite mem_filter mem_iota. case E: (look c d i) => [U|] //. have [Hi _ _ _ _] := look_bound Hc E. by rewrite leq0n add0n Hi !andbT Hs. }
  case E: (hits _ _ _) key => [|i [|]] // _. have := Hh (size W).-1 i. rewrite E mem_head. case El: (look _ _ _) => [U|] // /esym HU.
  have same : forall U', same_set V U' <-> V =i U'.
  { move=> U'. split.
    - case/andP => A1 A2 v. apply/idP/idP; [exact: (allP A1)|exact: (allP A2)].
    - move=> A. rewrite /same_set. apply/andP; split; apply/allP => v; by rewrite A. }
  exists i, U. rewrite (perm_size HW). split=> //. split; first exact/same.
  move=> d' i' W' H'. have [_ _ U1 U2 _] := look_bound Hc H'. move=> HV.
  have Ed : d' = (size W).-1. { rewrite -(perm_size HW). have := perm_size (uniq_perm Vu U1 HV). rewrite U2 => ->. by []. }
  split=> //. have := Hh d' i'. rewrite [look _ _ _]H' (proj2 (same W') HV) Ed E inE. by move/eqP.
- by case: Hc; case=> [|[|[|[|v]]]].
Qed.
