(** Serendipity: where the basis functions live. *)
Set Warnings "-notation-overridden,-ambiguous-paths".
From mathcomp Require Import all_ssreflect all_algebra zify.
From Verif Require Base ModelCell SpecCell SpecConcat ModelSerIds ProofsSerIds ProofsIds.
From Verif Require Import FieldTac ModelFunctional PropsFunctional ModelSer ProofsSer PropsSer.
Set Implicit Arguments. Unset Strict Implicit. Unset Printing Implicit Defensive.
Import GRing.Theory.
Local Open Scope ring_scope.

(** ** specification: points of an entity *)
Section Spec.
Variable F : fieldType.
Definition mcF : Base.fieldT := @Base.mkField F _ _ _ _ _ _ _ _ (mc_field_theory F).
(** coordinate [k] of vertex [i] of [c] *)
Definition coord (c : ModelCell.cell) (i k : nat) : F := nth 0 (nth [::] (ModelCell.vertices mcF c) i) k.
(** [p] is an affine combination of the vertices [V] *)
Definition on_entity (c : ModelCell.cell) (V : seq nat) (p : nat -> F) : Prop :=
  exists w : nat -> F, \sum_(i <- V) w i = 1 /\
    forall k, (k < ModelCell.spatial_dimension c)%N -> p k = \sum_(i <- V) w i * coord c i k.
End Spec.
(** the entity with vertices [V] is part of the one with vertices [W] *)
Definition part_of (V W : seq nat) : bool := all (fun i => i \in W) V.

(** the cells whose vertices are the corners of the unit square or cube *)
Inductive unit_cell : ModelCell.cell -> Prop :=
| uc_quad : unit_cell ModelCell.UFCQuadrilateral
| uc_hex : unit_cell ModelCell.UFCHexahedron
| uc_2 : unit_cell (ModelCell.TensorProductCell [:: ModelCell.UFCInterval; ModelCell.UFCInterval])
| uc_3 : unit_cell (ModelCell.TensorProductCell [:: ModelCell.UFCInterval; ModelCell.UFCInterval; ModelCell.UFCInterval])
| uc_qi : unit_cell (ModelCell.TensorProductCell [:: ModelCell.UFCQuadrilateral; ModelCell.UFCInterval]).
Lemma unit_ser c : unit_cell c -> ProofsSerIds.ser_cell c.
Proof. by case; constructor; left. Qed.

Definition corners (n : nat) : seq (seq bool) := ModelCell.tp_vertices (nseq n [:: [:: false]; [:: true]]).
Definition bitF (F : fieldType) (b : bool) : F := if b then 1 else 0.
Lemma verticesE F c : unit_cell c ->
  ModelCell.vertices (mcF F) c = [seq [seq bitF F b | b <- v] | v <- corners (ModelCell.spatial_dimension c)].
Proof. by case. Qed.

(** the factor of the functions of flat entity [x] in direction [k] *)
Definition code2 (x : nat * nat) (k : nat) : option bool :=
  match x, k with
  | (0, e), 0 => Some (odd (e %/ 2)) | (0, e), _ => Some (odd e)
  | (1, 0), 0 => Some false | (1, 1), 0 => Some true | (1, 2), 1 => Some false | (1, 3), 1 => Some true
  | _, _ => None
  end.
Definition code3 (x : nat * nat) (k : nat) : option bool :=
  match x with
  | (0, e) => match k with 0 => Some (odd (e %/ 4)) | 1 => Some (odd (e %/ 2)) | _ => Some (odd e) end
  | (1, e) =>
    let u := odd ((e %% 4) %/ 2) in let v := odd e in
    match (e %/ 4)%N, k with
    | 0, 0 => Some u | 0, 1 => Some v | 1, 0 => Some u | 1, 2 => Some v | 2, 1 => Some u | 2, 2 => Some v | _, _ => None
    end
  | (2, e) => let u := odd e in match (e %/ 2)%N, k with 0, 0 => Some u | 1, 1 => Some u | 2, 2 => Some u | _, _ => None end
  | _ => None
  end.
Definition agrees (a : nat) (o : option bool) : bool := match o with Some b => a == b :> nat | None => (1 < a)%N end.

(** value of coordinate [k] on the vertices [V], when constant *)
Definition const (n : nat) (V : seq nat) (k : nat) (b : bool) : bool :=
  all (fun i => nth false (nth [::] (corners n) i) k == b) V.
Definition kills (o : option bool) (b : bool) : bool := match o with Some b' => b != b' | None => true end.
Definition place_check (c : ModelCell.cell) (code : nat * nat -> nat -> option bool) : bool :=
  let n := ModelCell.spatial_dimension c in
  all (fun x =>
    match ModelCell.ulookup (ModelCell.compute_unflattening_map (ModelCell.topology c)) x.1 x.2 with
    | None => true
    | Some (d, e) =>
      match ModelCell.lookup (ModelCell.topology c) d e with
      | None => false
      | Some V => all (fun de => all (fun eW => part_of V eW.2 ||
          has (fun k => has (fun b => const n eW.2 k b && kills (code x k) b) [:: false; true]) (iota 0 n)) de.2) (ModelCell.topology c)
      end
    end) (ModelSerIds.flat_entities (ProofsSerIds.flat_of c)).
Definition code (c : ModelCell.cell) := if ModelCell.spatial_dimension c == 2%N then code2 else code3.
Lemma place_checked c : unit_cell c -> place_check c (code c).
Proof. by case; vm_compute. Qed.

Section Place.
Variables (F : fieldType) (degree : nat).
Hypothesis Hdeg : (0 < degree)%N.
Lemma psi_kill a o b : agrees a o -> kills o b -> psi a (bitF F b) = 0.
Proof.
case: o => [b'|] /=.
- move=> /eqP -> ; by case: b' b => [] [] // _; rewrite /= /bitF ?subrr.
- by case: a => [|[|a]] // _ _; rewrite /= /bitF; case: b; rewrite ?subrr ?mulr0 ?mul0r ?mulr0. Qed.
Lemma b2_code x i : i \in b2 degree x -> agrees i.2.1 (code2 x 0) /\ agrees i.2.2 (code2 x 1) \/ ~~ (x \in ents2).
Proof.
move=> H. case: (boolP (x \in ents2)) => Hx; last by right.
left; move: H; rewrite ents2E !inE in Hx.
repeat (case/orP: Hx => [/eqP -> | Hx]; [by move=> /= H; first [rewrite inE in H; move/eqP: H => -> // | case/mapP: H => j /mapP [j' _ ->] -> //]|]).
by move: Hx => /eqP -> /= /mapP [q /mapP [j _ ->] ->]. Qed.
Lemma b3_code x i : i \in b3 degree x -> agrees i.2.1.1 (code3 x 0) /\ agrees i.2.1.2 (code3 x 1) /\ agrees i.2.2 (code3 x 2) \/ ~~ (x \in ents3).
Proof.
move=> H. case: (boolP (x \in ents3)) => Hx; last by right.
left; move: H; rewrite ents3E !inE in Hx.
repeat (case/orP: Hx => [/eqP -> | Hx]; [by move=> /= H; first [rewrite inE in H; move/eqP: H => -> // | case/mapP: H => j /mapP [j' _ ->] -> //]|]).
by move: Hx => /eqP -> /= /mapP [q /mapP [j _ ->] ->]. Qed.

(** the functions of a block are consecutive *)
Lemma nth_block (X T : eqType) (ents : seq X) (B : X -> seq nat) (b : X -> seq T) d0 : forall a n,
  flatten [seq B x | x <- ents] = iota a n -> (forall x, x \in ents -> size (B x) = size (b x)) ->
  forall x f, x \in ents -> f \in B x -> nth d0 (flatten [seq b y | y <- ents]) (f - a) \in b x.
Proof.
elim: ents => // y ents IH a n /= E Hs x f.
have Sy := Hs y (mem_head _ _).
have L : (size (B y) <= n)%N by rewrite -(size_iota a n) -E size_cat; lia.
have [E1 E2] : B y = iota a (size (b y)) /\ flatten [seq B x | x <- ents] = iota (a + size (b y)) (n - size (b y)).
  move: E. have -> : n = (size (b y) + (n - size (b y)))%N by lia.
  rewrite iotaD => /eqP. rewrite eqseq_cat ?size_iota // => /andP [/eqP -> /eqP ->]. split=> //. congr iota; lia.
rewrite inE => /orP [/eqP -> | Hx].
- rewrite E1 mem_iota => /andP [H1 H2]. rewrite nth_cat. case: ltnP => H; last by lia. exact: mem_nth.
- move=> Hf. have Ha : (a + size (b y) <= f)%N.
    have : f \in flatten [seq B x | x <- ents] by apply/flatten_mapP; exists x.
    by rewrite E2 mem_iota => /andP [].
  rewrite nth_cat ifN; last by lia. rewrite -subnDA.
  apply: (IH _ _ E2) => // z Hz. by apply: Hs; rewrite inE Hz orbT. Qed.
End Place.
