(** C34 for the Kong-Mulder-Veldhuizen elements: entity ids against the points
    of the KMV quadrature rule. *)
Set Warnings "-notation-overridden,-ambiguous-paths".
From Coq Require Import ZArith QArith Qabs String.
From mathcomp Require Import all_ssreflect all_algebra zify.
From Verif Require Base ModelCell SpecCell SpecConcat ModelFam SpecFam ModelKmvEl Sorting ProofsFam ProofsFam5.
From Verif Require Import FieldTac SpecJacobi ProofsJacobi SpecExpansion ModelQuad SpecQuad ProofsQuadMap ModelTables ModelScheme SpecScheme ProofsScheme ProofsBeta ProofsTables ProofsGaussReal PropsScheme PropsTables ProofsKmv PropsKmv.
Set Implicit Arguments. Unset Strict Implicit. Unset Printing Implicit Defensive.
Import Order.TTheory GRing.Theory Num.Theory.
Local Open Scope ring_scope.

Local Arguments kmv_scheme : simpl never.
(** barycentric coordinates on the unit simplex *)
Definition bary (F : fieldType) (v : nat) (x : seq F) : F :=
  if v is v'.+1 then nth 0 x v' else 1 - \sum_(c <- x) c.
(** [x] is in the relative interior of the face spanned by the vertices [vs],
    up to rounding of the tabulated coordinates *)
Definition on_face (F : realFieldType) (sd : nat) (vs : seq nat) (x : seq F) : Prop :=
  forall v, (v <= sd)%N -> if v \in vs then 100%:R^-1 <= bary v x else `|bary v x| <= tol F.

Definition qbary (v : nat) (x : seq Q) : Q :=
  if v is v'.+1 then nth Q0 x v' else Qminus Q1 (foldr Qplus Q0 x).
Definition qon_face (sd : nat) (vs : seq nat) (x : seq Q) : bool :=
  all (fun v => if v \in vs then Qle_bool (1 # 100) (qbary v x) else Qle_bool (Qabs (qbary v x)) (dec 1 15)) (iota 0 sd.+1).

Lemma qbaryE (F : realFieldType) v x : qF F (qbary v x) = bary v [seq qF F c | c <- x].
Proof.
case: v => [|v]; last by rewrite /bary nth_qF. by rewrite /qbary /bary qFB qF1 qF_sum.
Qed.
Lemma qon_faceP (F : realFieldType) sd vs x : qon_face sd vs x -> on_face sd vs [seq qF F c | c <- x].
Proof.
move=> /allP H v Hv. have := H v. rewrite mem_iota /= add0n ltnS => /(_ Hv). rewrite -qbaryE.
case: (v \in vs) => E.
- have -> : 100%:R^-1 = qF F (1 # 100) by rewrite /qF posFE div1r. apply: qF_le. exact/Qle_bool_iff.
- rewrite /tol -(qF_dec F 15). apply: qF_abs. exact/Qle_bool_iff.
Qed.

(** the placement check: every dof of every entity *)
Definition check_places (c : ModelCell.cell) (ids : ModelCell.dict (seq nat)) (pts : seq (seq Q)) : bool :=
  all (fun de : ModelCell.dimT * ModelCell.ents (seq nat) => all (fun el : nat * seq nat =>
        all (fun i => (i < size pts)%N && qon_face (ModelCell.spatial_dimension c)
               (SpecCell.dofs_on (ModelCell.topology c) (de.1, el.1)) (nth [::] pts i)) el.2) de.2) ids.
Lemma check_placesP (F : realFieldType) c ids pts : check_places c ids pts ->
  forall d e i, List.In i (SpecCell.dofs_on ids (d, e)) -> (i < size pts)%N /\
    on_face (ModelCell.spatial_dimension c) (SpecCell.dofs_on (ModelCell.topology c) (d, e)) (nth [::] (qpts F pts) i).
Proof.
move=> H d e i. rewrite {1}/SpecCell.dofs_on /=. case E: (ModelCell.lookup ids d e) => [l|] //= Hi.
have {E} : exists es, List.In (d, es) ids /\ List.In (e, l) es.
{ move: E. rewrite /ModelCell.lookup. case E: (ModelCell.dlookup d ids) => [es|] // E2. exists es.
  split; [exact: ProofsFam.dlookup_weak E|exact: ProofsFam.elookup_weak E2]. }
case=> es [H1 H2].
have inP (T : eqType) (x : T) s : List.In x s -> x \in s by elim: s => //= y s IH [->|/IH]; rewrite inE ?eqxx // => ->; rewrite orbT.
have allIn (T : Type) (P : pred T) s x : all P s -> List.In x s -> P x.
{ elim: s => //= y s IH /andP [A B] [<-//|]. exact: IH. }
have := allIn _ _ _ _ H H1 => /= {}H. have := allIn _ _ _ _ H H2 => /= {}H. have := allIn _ _ _ _ H Hi => /andP [A B].
split=> //. rewrite /qpts (nth_map [::]) //. exact: qon_faceP B.
Qed.

Definition kmv_ok (c : ModelCell.cell) (t : nat -> seq (seq Q) * seq Q) p : bool :=
  if ModelKmvEl.kmv_ids c p is Base.Ok ids then check_places c ids (t p).1 else false.
Lemma kmv2_places : all (kmv_ok ModelCell.UFCTriangle kmv2) (iota 1 5). Proof. vm_cast_no_check (erefl true). Qed.
Lemma kmv3_places : all (kmv_ok ModelCell.UFCTetrahedron kmv3) (iota 1 3). Proof. vm_cast_no_check (erefl true). Qed.

(** Triangle, degrees 1-5: the ids partition the quadrature points; every dof's
    point is interior to its entity. *)
Theorem C34_kmv_triangle : forall (F : realFieldType) (gjp : nat -> nat -> nat -> seq F) (p : nat), (1 <= p <= 5)%N ->
  exists r ids, [/\ create_quadrature gjp (UFCTriangle F) (DInt (Z.of_nat p)) "KMV" = Base.Ok r,
    ModelKmvEl.kmv_ids ModelCell.UFCTriangle p = Base.Ok ids,
    SpecConcat.partitions ids (size (q_pts r)) /\ SpecConcat.same_entities ids (ModelCell.topology ModelCell.UFCTriangle),
    (forall d e i, List.In i (SpecCell.dofs_on ids (d, e)) ->
       on_face 2 (SpecCell.dofs_on (ModelCell.topology ModelCell.UFCTriangle) (d, e)) (nth [::] (q_pts r) i)) &
    forall K, ModelKmvEl.kmv_members K ModelCell.UFCTriangle p = Base.Ok (size (q_pts r))].
Proof.
move=> F gjp p Hp. have [_ _ _ [C4 C5 _]] := kmv2_checks Hp.
have := allP kmv2_places p. rewrite mem_iota => /(_ Hp). rewrite /kmv_ok.
case E: (ModelKmvEl.kmv_ids ModelCell.UFCTriangle p) => [ids|//] Hc.
exists (Rule (UFCTriangle F) (qpts F (kmv2 p).1) (qwts F (kmv2 p).2)), ids. split=> //.
- rewrite /= /simplex_quadrature /=. case: Z.ltb_spec => [|_]; first lia. by rewrite Nat2Z.id (kmv2E _ Hp) /quadrature_rule !size_map C4 eqxx.
- rewrite [q_pts _]/= size_map C5. split.
  + apply: ProofsFam5.perm_check. by case: p Hp E {Hc C4 C5} => [|[|[|[|[|[|p]]]]]] // _ [<-].
  + apply: ProofsFam.same_skel. by case: p Hp E {Hc C4 C5} => [|[|[|[|[|[|p]]]]]] // _ [<-].
- move=> d e i Hi. exact: (proj2 (check_placesP F Hc Hi)).
- move=> K. rewrite [q_pts _]/= size_map C5. by case: p Hp {E Hc C4 C5} => [|[|[|[|[|[|p]]]]]].
Qed.
Theorem C34_kmv_tetrahedron : forall (F : realFieldType) (gjp : nat -> nat -> nat -> seq F) (p : nat), (1 <= p <= 3)%N ->
  exists r ids, [/\ create_quadrature gjp (UFCTetrahedron F) (DInt (Z.of_nat p)) "KMV" = Base.Ok r,
    ModelKmvEl.kmv_ids ModelCell.UFCTetrahedron p = Base.Ok ids,
    SpecConcat.partitions ids (size (q_pts r)) /\ SpecConcat.same_entities ids (ModelCell.topology ModelCell.UFCTetrahedron),
    (forall d e i, List.In i (SpecCell.dofs_on ids (d, e)) ->
       on_face 3 (SpecCell.dofs_on (ModelCell.topology ModelCell.UFCTetrahedron) (d, e)) (nth [::] (q_pts r) i)) &
    forall K, ModelKmvEl.kmv_members K ModelCell.UFCTetrahedron p = Base.Ok (size (q_pts r))].
Proof.
move=> F gjp p Hp. have [_ _ _ [C4 C5 _]] := kmv3_checks Hp.
have := allP kmv3_places p. rewrite mem_iota => /(_ Hp). rewrite /kmv_ok.
case E: (ModelKmvEl.kmv_ids ModelCell.UFCTetrahedron p) => [ids|//] Hc.
exists (Rule (UFCTetrahedron F) (qpts F (kmv3 p).1) (qwts F (kmv3 p).2)), ids. split=> //.
- rewrite /= /simplex_quadrature /=. case: Z.ltb_spec => [|_]; first lia. by rewrite Nat2Z.id (kmv3E _ Hp) /quadrature_rule !size_map C4 eqxx.
- rewrite [q_pts _]/= size_map C5. split.
  + apply: ProofsFam5.perm_check. by case: p Hp E {Hc C4 C5} => [|[|[|[|p]]]] // _ [<-].
  + apply: ProofsFam.same_skel. by case: p Hp E {Hc C4 C5} => [|[|[|[|p]]]] // _ [<-].
- move=> d e i Hi. exact: (proj2 (check_placesP F Hc Hi)).
- move=> K. rewrite [q_pts _]/= size_map C5. by case: p Hp {E Hc C4 C5} => [|[|[|[|p]]]].
Qed.
(** Other cells and higher degrees are refused. *)
Theorem C34_kmv_refused : forall (K : Base.fieldT) (c : ModelCell.cell) (degree : nat) pts,
  (c <> ModelCell.UFCTriangle -> c <> ModelCell.UFCTetrahedron ->
     ModelKmvEl.KongMulderVeldhuizen K c degree pts = Base.Err Base.ValueError) /\
  ((5 < degree)%N -> ModelKmvEl.KongMulderVeldhuizen K ModelCell.UFCTriangle degree pts = Base.Err Base.NotImplementedError) /\
  ((3 < degree)%N -> ModelKmvEl.KongMulderVeldhuizen K ModelCell.UFCTetrahedron degree pts = Base.Err Base.NotImplementedError).
Proof.
move=> K c degree pts. split; [|split].
- by case: c.
- move=> H. rewrite /ModelKmvEl.KongMulderVeldhuizen. by have -> : PeanoNat.Nat.ltb 5 degree = true by apply/PeanoNat.Nat.ltb_lt; lia.
- move=> H. rewrite /ModelKmvEl.KongMulderVeldhuizen. by have -> : PeanoNat.Nat.ltb 3 degree = true by apply/PeanoNat.Nat.ltb_lt; lia.
Qed.
Print Assumptions C34_kmv_triangle.
Print Assumptions C34_kmv_tetrahedron.
Print Assumptions C34_kmv_refused.
