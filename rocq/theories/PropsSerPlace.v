(** C35: serendipity basis functions sit on the entities their numbers say. *)
Set Warnings "-notation-overridden,-ambiguous-paths".
From mathcomp Require Import all_ssreflect all_algebra zify.
From Verif Require Base ModelCell SpecCell SpecConcat ModelSerIds ProofsSerIds ProofsIds.
From Verif Require Import FieldTac ModelFunctional PropsFunctional ModelSer ProofsSer PropsSer ProofsSerPlace.
Set Implicit Arguments. Unset Strict Implicit. Unset Printing Implicit Defensive.
Import GRing.Theory.
Local Open Scope ring_scope.

Lemma memIn (A : eqType) (l : seq A) x : List.In x l <-> x \in l.
Proof. elim: l => //= y l IH. rewrite inE; split; [case=> [->|/IH ->]; rewrite ?eqxx ?orbT //|case/orP => [/eqP ->|/IH]; by [left|right]]. Qed.
Lemma dlookup_mem V (t : ModelCell.dict V) d es : ModelCell.dlookup d t = Some es -> List.In (d, es) t.
Proof.
elim: t => //= -[d' es'] t IH. case E: (ModelCell.deqb d d'); last by move/IH; right.
by move/ProofsCell.deqb_eq: E => -> [->]; left. Qed.
Lemma elookup_mem V (t : ModelCell.ents V) e v : ModelCell.elookup e t = Some v -> List.In (e, v) t.
Proof.
elim: t => //= -[e' v'] t IH. case: PeanoNat.Nat.eqb_spec => [-> [->]|_ /IH]; by [left|right]. Qed.
Lemma allIn A (p : A -> bool) l x : all p l -> List.In x l -> p x.
Proof. elim: l => //= y l IH /andP [Hy Hl] [<- //|]; exact: IH. Qed.

Section Place.
Variables (F : fieldType) (c : ModelCell.cell) (degree : nat).
Hypothesis Hc : unit_cell c.
Hypothesis Hdeg : (0 < degree)%N.
Let dim := ModelCell.spatial_dimension c.

Lemma on_const (V : seq nat) (p : nat -> F) k b : on_entity c V p -> (k < dim)%N ->
  (forall i, i \in V -> (i < size (corners dim))%N /\ (k < size (nth [::] (corners dim) i))%N) -> const dim V k b -> p k = bitF F b.
Proof.
move=> [w [Hw Hp]] Hk Hi Hconst. rewrite Hp //.
rewrite [RHS](_ : _ = \sum_(i <- V) w i * bitF F b); last by rewrite -mulr_suml Hw mul1r.
apply: eq_big_seq => i Hv. congr (_ * _). rewrite /coord verticesE // -/dim.
have [H1 H2] := Hi i Hv.
rewrite (nth_map [::]) // (nth_map false) //. by move/allP: Hconst => /(_ i Hv) /eqP ->. Qed.
Definition range_check (c : ModelCell.cell) : bool :=
  let n := ModelCell.spatial_dimension c in
  all (fun de => all (fun eW => all (fun i => (i < size (corners n))%N && (n <= size (nth [::] (corners n) i))%N) eW.2) de.2) (ModelCell.topology c).
Lemma range_checked : range_check c.
Proof. by case: Hc; vm_compute. Qed.

(** ** C35: a basis function numbered on an entity vanishes on every entity that
    does not contain it, so the functions that do not vanish on an entity are
    among those numbered on it and its parts. *)
Theorem C35_placement ids n basis (p : nat -> F) d e l f V d' e' W :
  Serendipity F c degree = Base.Ok (IsSerendipity ids n basis) ->
  ModelCell.lookup ids d e = Some l -> f \in l ->
  ModelCell.lookup (ModelCell.topology c) d e = Some V -> ModelCell.lookup (ModelCell.topology c) d' e' = Some W ->
  ~~ part_of V W -> on_entity c W p ->
  nth 0 (basis (p 0%N) (p 1%N) (p 2%N)) f = 0.
Proof.
have [H1 [H2 [H3 [H4 H5]]]] := @ser_result F c degree (unit_ser Hc) Hdeg.
rewrite H1 => -[<- _ <-] /H4 [x [Hx [Hu El]]] Hf HV HW HVW Hon.
have HW' : exists es, List.In (d', es) (ModelCell.topology c) /\ List.In (e', W) es.
  move: HW; rewrite /ModelCell.lookup; case E: (ModelCell.dlookup _ _) => [es|] //= HE.
  by exists es; split; [exact: dlookup_mem|exact: elookup_mem].
case: HW' => es [Hes HeW].
have := allIn (place_checked Hc) Hx; rewrite -/dim Hu HV => Hp1.
have Hp2 := allIn Hp1 Hes; have := allIn Hp2 HeW; rewrite {Hp1 Hp2} [X in part_of _ X]/= (negbTE HVW) orFb => /hasP [k Hk /hasP [b _ /andP [Hconst Hkill]]].
rewrite mem_iota add0n /= in Hk.
have Hpk : p k = bitF F b.
  apply: (on_const Hon Hk _ Hconst) => i Hi.
  have /allP /(_ i Hi) /andP := allIn (allIn range_checked Hes) HeW; rewrite -/dim => -[-> Hs]. split=> //. exact: leq_trans Hk Hs.
have [_ [Hcu [_ [Hd Hsd]]]] := ProofsSerIds.ser_checks _ (unit_ser Hc).
rewrite flat_mapE seqE in H5.
rewrite El in Hf.
have HfN : (f < serendipity_dim dim degree)%N.
  have : f \in flatten [seq ser_block c degree x | x <- ModelSerIds.flat_entities (ProofsSerIds.flat_of c)].
    by apply/flatten_mapP; exists x => //; apply/memIn.
  by rewrite H5 mem_iota.
have Hsz := @size_s_list F c degree (unit_ser Hc) Hdeg (p 0%N) (p 1%N) (p 2%N). rewrite -/dim in Hsz.
move: Hkill Hk; rewrite /code -/dim.
case: Hd => Hd.
- have Ed : dim = 2%N by []. rewrite Ed /= => Hkill Hk.
  have Efl : ProofsSerIds.flat_of c = ModelCell.UFCQuadrilateral by rewrite /ProofsSerIds.flat_of Hd.
  rewrite Ed s_list2 size_map in Hsz. rewrite Ed in HfN.
  rewrite s_list2 (nth_map (false, (0,0)%N)) ?Hsz //.
  rewrite Efl in H5 Hx.
  have Hb := @nth_block degree Hdeg _ _ ents2 (ser_block c degree) (b2 degree) (false, (0,0)%N) _ _ H5.
  rewrite -[f in nth _ _ f]subn0.
  have Hsz2 : forall y, y \in ents2 -> size (ser_block c degree y) = size (b2 degree y).
    move=> y Hy; rewrite /ser_block /ProofsSerIds.block seqE size_iota -/dim Ed.
    rewrite ents2E !inE in Hy.
    by repeat (case/orP: Hy => [/eqP -> | Hy]; [rewrite /= ?size_map ?size_iota ?subn1 //; lia|]); move/eqP: Hy => -> /=; rewrite !size_map size_kj tr_binom.
  have := Hb Hsz2 x f (proj1 (memIn _ _) Hx) Hf.
  case/b2_code => [[A0 A1]|]; last by rewrite (proj1 (memIn _ _) Hx).
  rewrite /val2 subn0. rewrite subn0 in A0 A1.
  case: k Hk Hpk Hconst Hkill => [|[|k]] // _ Hpk _ Hkill; rewrite Hpk.
  + by rewrite (psi_kill F A0 Hkill) mulr0 mul0r.
  + by rewrite (psi_kill F A1 Hkill) mulr0.
- have Ed : dim = 3%N by []. rewrite Ed /= => Hkill Hk.
  have Efl : ProofsSerIds.flat_of c = ModelCell.UFCHexahedron by rewrite /ProofsSerIds.flat_of Hd.
  rewrite Ed s_list3 size_map in Hsz. rewrite Ed in HfN.
  rewrite s_list3 (nth_map (false, (0,0,0)%N)) ?Hsz //.
  rewrite Efl in H5 Hx.
  have Hb := @nth_block degree Hdeg _ _ ents3 (ser_block c degree) (b3 degree) (false, (0,0,0)%N) _ _ H5.
  have Hsz2 : forall y, y \in ents3 -> size (ser_block c degree y) = size (b3 degree y).
    move=> y Hy; rewrite /ser_block /ProofsSerIds.block seqE size_iota -/dim Ed.
    rewrite ents3E !inE in Hy.
    by repeat (case/orP: Hy => [/eqP -> | Hy]; [rewrite /= ?size_map ?size_iota ?size_kj ?tr_binom ?subn1 //; lia|]); move/eqP: Hy => -> /=; rewrite !size_map size_ljk.
  have := Hb Hsz2 x f (proj1 (memIn _ _) Hx) Hf.
  case/b3_code => [[A0 [A1 A2]]|]; last by rewrite (proj1 (memIn _ _) Hx).
  rewrite /val3. rewrite subn0 in A0 A1 A2.
  case: k Hk Hpk Hconst Hkill => [|[|[|k]]] // _ Hpk _ Hkill; rewrite Hpk.
  + by rewrite (psi_kill F A0 Hkill) mulr0 !mul0r.
  + by rewrite (psi_kill F A1 Hkill) mulr0 !mul0r.
  + by rewrite (psi_kill F A2 Hkill) mulr0.
Qed.
End Place.

(** ** where the placement fails.  On the product of an interval and a
    quadrilateral dof 10 of degree 2 is stored on the edge {0, 2}, but its
    function does not vanish on the edge {4, 5}, on the opposite face; on a
    product of lines [-1, 1], whose corners are not those of the unit square,
    the function of vertex 3 does not vanish at vertex 0. *)
Definition interval_by_quad := ModelCell.TensorProductCell [:: ModelCell.UFCInterval; ModelCell.UFCQuadrilateral].
Theorem C35_interval_by_quadrilateral_misplaced : exists ids n basis (p : nat -> rat) d e l f V d' e' W,
  Serendipity [fieldType of rat] interval_by_quad 2 = Base.Ok (IsSerendipity ids n basis) /\
  ModelCell.lookup ids d e = Some l /\ f \in l /\
  ModelCell.lookup (ModelCell.topology interval_by_quad) d e = Some V /\
  ModelCell.lookup (ModelCell.topology interval_by_quad) d' e' = Some W /\
  ~~ part_of V W /\ on_entity (F := [fieldType of rat]) interval_by_quad W p /\
  nth 0 (basis (p 0%N) (p 1%N) (p 2%N)) f != 0.
Proof.
have Hc : ProofsSerIds.ser_cell interval_by_quad by constructor; left.
have [H1 _] := @ser_result [fieldType of rat] _ 2 Hc isT.
do 2 eexists. exists (@s_list [fieldType of rat] 2 3).
exists (fun k => [:: 1; 0; 1 / 2]`_k).
exists (ModelCell.DT [:: ModelCell.DI 0; ModelCell.DI 1]), 2%N, [:: 10%N], 10%N, [:: 0; 2]%N.
exists (ModelCell.DT [:: ModelCell.DI 0; ModelCell.DI 1]), 4%N, [:: 4; 5]%N.
split; first exact: H1.
do 5 (split; first by vm_compute). split; last by rewrite s_list3.
exists (fun=> 1 / 2); split; first by rewrite !big_cons big_nil.
move=> [|[|[|k]]] Hk; last (by exfalso; move: Hk); by rewrite !big_cons big_nil; apply/eqP; vm_compute. Qed.

Definition default_square := ModelCell.TensorProductCell [:: ModelCell.DefaultLine; ModelCell.DefaultLine].
Theorem C35_default_lines_misplaced : exists ids n basis (p : nat -> rat) d e l f V d' e' W,
  Serendipity [fieldType of rat] default_square 1 = Base.Ok (IsSerendipity ids n basis) /\
  ModelCell.lookup ids d e = Some l /\ f \in l /\
  ModelCell.lookup (ModelCell.topology default_square) d e = Some V /\
  ModelCell.lookup (ModelCell.topology default_square) d' e' = Some W /\
  ~~ part_of V W /\ on_entity (F := [fieldType of rat]) default_square W p /\
  nth 0 (basis (p 0%N) (p 1%N) (p 2%N)) f != 0.
Proof.
have Hc : ProofsSerIds.ser_cell default_square by constructor; right.
have [H1 _] := @ser_result [fieldType of rat] _ 1 Hc isT.
do 2 eexists. exists (@s_list [fieldType of rat] 1 2).
exists (fun k => [:: -1; -1]`_k).
exists (ModelCell.DT [:: ModelCell.DI 0; ModelCell.DI 0]), 3%N, [:: 3%N], 3%N, [:: 3]%N.
exists (ModelCell.DT [:: ModelCell.DI 0; ModelCell.DI 0]), 0%N, [:: 0]%N.
split; first exact: H1.
do 5 (split; first by vm_compute). split; last by rewrite s_list2.
exists (fun=> 1); split; first by rewrite !big_cons big_nil.
move=> [|[|k]] Hk; last (by exfalso; move: Hk); by rewrite !big_cons big_nil; apply/eqP; vm_compute. Qed.
(** the hypotheses of [C35_placement] hold: dof 10 on an edge of the cube *)
Example C35_placement_instance : exists ids n basis V W (p : nat -> rat),
  Serendipity [fieldType of rat] ModelCell.UFCHexahedron 2 = Base.Ok (IsSerendipity ids n basis) /\
  ModelCell.lookup ids (ModelCell.DI 1) 2 = Some [:: 10%N] /\
  ModelCell.lookup (ModelCell.topology ModelCell.UFCHexahedron) (ModelCell.DI 1) 2 = Some V /\
  ModelCell.lookup (ModelCell.topology ModelCell.UFCHexahedron) (ModelCell.DI 2) 0 = Some W /\
  ~~ part_of V W /\ on_entity (F := [fieldType of rat]) ModelCell.UFCHexahedron W p.
Proof.
have [H1 _] := @ser_result [fieldType of rat] _ 2 ProofsSerIds.sc_hex isT.
do 3 eexists. exists [:: 4; 5]%N, [:: 0; 1; 2; 3]%N, (fun k => [:: 0; 1 / 2; 1 / 2]`_k).
split; first exact: H1.
do 4 (split; first by vm_compute).
exists (fun=> 1 / 4); split; first by rewrite !big_cons big_nil.
move=> [|[|[|k]]] Hk; last (by exfalso; move: Hk); by rewrite !big_cons big_nil; apply/eqP; vm_compute. Qed.
