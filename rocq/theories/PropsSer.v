(** C35: serendipity dof map. *)
Set Warnings "-notation-overridden,-ambiguous-paths".
From mathcomp Require Import all_ssreflect all_algebra zify.
From Verif Require Base ModelCell SpecCell SpecConcat ModelSerIds ProofsSerIds ProofsIds.
From Verif Require Import ModelFunctional PropsFunctional ModelSer ProofsSer.
Set Implicit Arguments. Unset Strict Implicit. Unset Printing Implicit Defensive.
Import GRing.Theory.
Local Open Scope ring_scope.

(** the serendipity dimension of Arnold and Awanou, sum over d <= n of
    2^(n-d) C(n,d) C(r-d,d): each of the 2^(n-d) C(n,d) faces of dimension d
    of the n-cube carries C(r-d,d) dofs *)
Definition face_dofs (r d : nat) : nat := 'C(r - d, d).
Definition serendipity_dim (n r : nat) : nat := (\sum_(d < n.+1) 2 ^ (n - d) * 'C(n, d) * face_dofs r d)%N.

(** ** counting *)
Lemma tr_binom n : (0 < n)%N -> ModelSerIds.tr n = 'C(n - 2, 2).
Proof.
move=> n0; rewrite /ModelSerIds.tr; case: PeanoNat.Nat.leb_spec => H; first by have -> : n = 1%N by lia.
rewrite bin2. have -> : (n - 2).-1 = (n - 3)%N by lia.
have D m : PeanoNat.Nat.div m 2 = m./2.
  symmetry; apply (PeanoNat.Nat.div_unique m 2 m./2 (odd m)); [by case: odd; lia|by have := odd_double_half m; lia].
rewrite D. congr _./2. lia. Qed.
Lemma size_kj i : size (kj i) = 'C(i - 2, 2).
Proof.
rewrite /kj size_flatten /shape -map_comp sumnE big_map.
under eq_bigr => k _ do rewrite /= size_map size_iota.
elim: i => [|i IH]; first by rewrite big_nil.
case: (ltnP i 3) => Hi; first by (have -> : (i.+2 - 4 = 0)%N by lia); rewrite big_nil bin_small //; lia.
have -> : (i.+2 - 4 = (i.+1 - 4) + 1)%N by lia.
rewrite iotaD big_cat big_seq1 /= IH.
have -> : (4 + (i.+1 - 4) - 3 = i - 2)%N by lia.
have -> : (i.+1 - 2 = (i - 2).+1)%N by lia.
by rewrite binS bin1. Qed.
Lemma size_ljk i : size (ljk i) = 'C(i - 3, 3).
Proof.
rewrite /ljk size_flatten /shape -map_comp sumnE big_map.
have E l : size (flatten [seq [seq (l, j, k) | k <- iota 0 j.+1] | j <- iota 0 (l - 5)]) = 'C((l - 5).+1, 2).
  rewrite size_flatten /shape -map_comp sumnE big_map. elim: (l - 5)%N => [|m IH]; first by rewrite big_nil.
  have -> : iota 0 m.+1 = iota 0 m ++ [:: m] by rewrite -addn1 iotaD.
  rewrite big_cat big_seq1 IH [in RHS]binS bin1 /= size_map size_iota; lia.
under eq_bigr => l _ do rewrite /= E.
elim: i => [|i IH]; first by rewrite big_nil.
case: (ltnP i 5) => Hi; first by (have -> : (i.+2 - 6 = 0)%N by lia); rewrite big_nil bin_small //; lia.
have -> : (i.+2 - 6 = (i.+1 - 6) + 1)%N by lia.
rewrite iotaD big_cat big_seq1 /= IH.
have -> : ((6 + (i.+1 - 6) - 5).+1 = i - 3)%N by lia.
have -> : (i.+1 - 3 = (i - 3).+1)%N by lia.
by rewrite [in RHS]binS. Qed.

Lemma sdim2 r : serendipity_dim 2 r = (4 + 4 * (r - 1) + 'C(r - 2, 2))%N.
Proof.
rewrite /serendipity_dim !big_ord_recr big_ord0 /face_dofs /= bin0 !bin1 subn0 !binn /= !subSS subn0 subnn expn0 expn1 ?bin0; lia. Qed.
Lemma sdim3 r : serendipity_dim 3 r = (8 + 12 * (r - 1) + 6 * 'C(r - 2, 2) + 'C(r - 3, 3))%N.
Proof.
rewrite /serendipity_dim !big_ord_recr big_ord0 /face_dofs /= !bin0 !bin1 subn0 !binn /=.
have -> : 'C(3, 2) = 3%N by []. rewrite (_ : (3 - 1)%N = 2%N) // (_ : (3 - 2)%N = 1%N) // subnn expn0 expn1 ?bin0; lia. Qed.
Section Numbering.
Variable F : fieldType.
Variables (c : ModelCell.cell) (degree : nat).
Hypothesis Hc : ProofsSerIds.ser_cell c.
Hypothesis Hdeg : (0 < degree)%N.
Let flat := ProofsSerIds.flat_of c.
Let dim := ModelCell.spatial_dimension c.
Let nI := 'C(degree - 3, 3).
Lemma size_interior (x y z : F) : size (interior degree dim x y z) = if dim == 3%N then nI else 0%N.
Proof. rewrite /interior; case: ifP => // _. by rewrite size_map size_ljk. Qed.
Lemma size_s_list (x y z : F) : size (s_list degree dim x y z) = serendipity_dim dim degree.
Proof.
have [_ [_ [_ [Hd _]]]] := ProofsSerIds.ser_checks _ Hc.
rewrite /s_list !size_cat size_interior.
have K := size_kj degree.
case: Hd => Hd; rewrite /dim Hd /v_lambda_0 /e_lambda_0 /f_lambda_0 /=.
- rewrite sdim2 !size_cat !size_map size_iota K /=; lia.
- rewrite sdim3 /nI !cats0 /= !size_cat !size_map !size_iota !K; lia.
Qed.
End Numbering.

Section Main.
Variable F : fieldType.
Variables (c : ModelCell.cell) (degree : nat).
Hypothesis Hc : ProofsSerIds.ser_cell c.
Hypothesis Hdeg : (0 < degree)%N.
Let flat := ProofsSerIds.flat_of c.
Let dim := ModelCell.spatial_dimension c.
Let nI := if dim == 3%N then 'C(degree - 3, 3) else 0%N.
Let ids0 := (ModelSerIds.flat_ids flat degree nI).1.
Definition ser_ids := ProofsSerIds.uids c flat ids0.
Definition ser_block := ProofsSerIds.block dim degree nI.
Lemma ser_total : ProofsSerIds.total dim degree nI = serendipity_dim dim degree.
Proof.
have [_ [_ [_ [Hd _]]]] := ProofsSerIds.ser_checks _ Hc.
by case: Hd => Hd; rewrite /nI /dim Hd /= (tr_binom Hdeg) ?sdim2 ?sdim3. Qed.
Lemma ser_result :
  Serendipity F c degree = Base.Ok (IsSerendipity ser_ids (serendipity_dim dim degree) (@s_list F degree dim)) /\
  SpecConcat.partitions ser_ids (serendipity_dim dim degree) /\
  SpecConcat.same_entities ser_ids (ModelCell.topology c) /\
  (forall d e l, ModelCell.lookup ser_ids d e = Some l <->
     exists x, List.In x (ModelSerIds.flat_entities flat) /\
       ModelCell.ulookup (ModelCell.compute_unflattening_map (ModelCell.topology c)) x.1 x.2 = Some (d, e) /\ l = ser_block x) /\
  List.flat_map ser_block (ModelSerIds.flat_entities flat) = List.seq 0 (serendipity_dim dim degree).
Proof.
have [Hf [Hcu [Hck [Hd Hsd]]]] := ProofsSerIds.ser_checks _ Hc.
have Hd1 : (1 <= degree)%coq_nat by lia.
have [Hcur [Hlk Hfm]] := @ProofsSerIds.flat_ids_ok flat degree nI Hcu Hd1.
rewrite /= Hsd -/dim ser_total in Hcur Hlk Hfm.
split; [|split; [|split; [|split]]].
- rewrite /Serendipity Hf Hsd -/dim -/flat.
  have -> : (dim == 1%N) = false by rewrite /dim; case: Hd => ->.
  have -> : (dim == 0%N) = false by rewrite /dim; case: Hd => ->.
  rewrite (@size_interior F c degree) size_s_list // -/dim -/nI.
  have E : ModelSerIds.flat_ids flat degree nI = (ids0, BinInt.Z.of_nat (serendipity_dim dim degree)) by rewrite -Hcur /ids0; case: (ModelSerIds.flat_ids _ _ _).
  by rewrite E BinInt.Z.eqb_refl /= (ProofsSerIds.unflatten_eq _ _ _ Hck).
- rewrite /SpecConcat.partitions -Hfm. exact: (ProofsSerIds.unflatten_perm _ _ _ _ Hck Hlk).
- exact: (ProofsSerIds.uids_same _ _ _ _ Hck Hlk).
- move=> d e l. exact: (ProofsSerIds.uids_lookup _ _ _ _ Hlk).
- exact: Hfm.
Qed.

(** ** C35: for every degree >= 1 and every square or cube cell, the constructor
    succeeds; the number of basis functions is the documented dimension; the
    entity dofs are a partition of 0..dim-1 over exactly the entities of the
    cell; each entity of dimension d carries C(degree - d, d) of them. *)
Theorem C35_numbering : exists ids n basis,
  Serendipity F c degree = Base.Ok (IsSerendipity ids n basis) /\
  n = serendipity_dim (ModelCell.spatial_dimension c) degree /\
  (forall x y z, size (basis x y z) = n) /\
  SpecConcat.partitions ids n /\
  SpecConcat.same_entities ids (ModelCell.topology c) /\
  forall d e l, ModelCell.lookup ids d e = Some l -> size l = face_dofs degree (ModelCell.tuple_sum d).
Proof.
have [H1 [H2 [H3 [H4 H5]]]] := ser_result.
exists ser_ids, (serendipity_dim dim degree), (@s_list F degree dim); do ![split=> //].
- by move=> x y z; exact: size_s_list.
- move=> d e l /H4 [[fd fe] [Hx [Hu ->]]].
  have [Hp Hs] := PropsCell.C17_product_cells_admissible c.
  have [_ [_ [H6 _]]] := PropsCell.C17_flatten_unflatten _ (ModelCell.topology c) Hp Hs.
  have [E _] := H6 _ _ _ _ Hu. rewrite -E /ser_block /ProofsSerIds.block /= seqE size_iota /face_dofs.
  have [_ [Hcu [_ [Hd Hsd]]]] := ProofsSerIds.ser_checks _ Hc.
  have Hle : (fd <= dim)%N.
    move: Hx. rewrite /dim -Hsd /flat.
    by case: Hcu => ->; rewrite /=; do ? (case=> [[<- _] //|]); case.
  move: Hle; rewrite /nI; case: fd {Hx Hu E} => [|[|[|[|fd]]]] /= Hle; rewrite ?bin0 ?bin1 ?tr_binom ?subn1 //.
  + lia.
  + by move: Hle; rewrite /dim; case: Hd => ->.
  + by move: Hle; rewrite /dim; case: Hd => ->.
Qed.
End Main.

(** the other cells: an interval gives a Lagrange element, a point is refused,
    and degree 0 fails an assertion *)
Theorem C35_interval F degree : Serendipity F ModelCell.UFCInterval degree = Base.Ok (IsLagrange _ ModelCell.UFCInterval degree).
Proof. by []. Qed.
Theorem C35_degree_zero_refused F c : ProofsSerIds.ser_cell c -> Serendipity F c 0 = Base.Err Base.AssertionError.
Proof.
move=> Hc. have [Hf [Hcu [Hck [Hd Hsd]]]] := ProofsSerIds.ser_checks _ Hc.
rewrite /Serendipity Hf Hsd. case: Hd => Hd; rewrite Hd /=; move: Hcu Hsd; rewrite Hd => -[] -> //. Qed.
Theorem C35_simplex_refused F degree : Serendipity F ModelCell.UFCTriangle degree = Base.Err Base.TypeError /\
  Serendipity F ModelCell.UFCTetrahedron degree = Base.Err Base.TypeError.
Proof. by []. Qed.
Example C35_quad3 F : exists ids basis, Serendipity F ModelCell.UFCQuadrilateral 4 = Base.Ok (IsSerendipity ids 17 basis) /\
  ModelCell.lookup ids (ModelCell.DI 1) 2 = Some [:: 10; 11; 12]%N /\ ModelCell.lookup ids (ModelCell.DI 2) 0 = Some [:: 16]%N.
Proof.
have [H _] := @ser_result F _ 4 ProofsSerIds.sc_quad isT. rewrite sdim2 in H.
by eexists; eexists; split; first exact: H. Qed.
