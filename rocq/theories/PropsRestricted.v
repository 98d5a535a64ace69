(** C13: restriction of nodal elements. *)
Set Warnings "-notation-overridden,-ambiguous-paths".
From mathcomp Require Import all_ssreflect all_algebra.
From Coq Require Import String Permutation.
From Verif Require Base ModelCell SpecCell SpecConcat ModelRestricted ProofsRestricted.
From Verif Require Import ModelDual SpecDual ProofsDual PropsDual ModelRestrictedEl.
Set Implicit Arguments. Unset Strict Implicit. Unset Printing Implicit Defensive.
Import GRing.Theory.
Local Open Scope ring_scope.

Section Props.
Variables (F : fieldType) (P : eqType) (M : eqType) (E : expansion F P).
Notation nil_f := (mkFunctional [::] [::] [::] : functional F P).
Notation element := (nodal_element F P M).

(** A nodal element: the basis was constructed from well-formed nodes by the
    Ciarlet constructor, and its dofs partition the dual basis. *)
Definition is_nodal (el : element) : Prop :=
  exists U, [/\ ciarlet E (el_nodes el) U = Ok (el_basis el), (0 < size (el_nodes el))%N,
    all (fun l => [&& target_shape l == pshape U, wf_functional E (pshape U) l &
                      (deriv_dict l == [::]) || (0 < max_deriv_order l)%N]) (el_nodes el) &
    SpecConcat.partitions (el_ids el) (size (el_nodes el))].

Lemma strong_good (nodes : seq (functional F P)) (U : polyset F) shp : (0 < size nodes)%N -> pshape U = shp ->
  all (fun l => [&& target_shape l == shp, wf_functional E shp l &
                      (deriv_dict l == [::]) || (0 < max_deriv_order l)%N]) nodes -> good_nodes E nodes U.
Proof.
move=> H0 Hs Ha. split=> //.
- case: nodes H0 Ha => // l nodes _ /= /andP [/and3P [/eqP -> _ _] _]. by rewrite Hs.
- rewrite Hs. apply: sub_all Ha => l /and3P [] //.
- move=> /(has_nthP nil_f) [i Hi Hd]. have /and3P [_ _] := all_nthP nil_f Ha i Hi.
  rewrite (negbTE Hd) /= => Hp. apply: leq_trans Hp _.
  rewrite (big_nth nil_f) big_mkord. exact: (leq_bigmax (Ordinal Hi)).
Qed.

Lemma memb_mem x (l : seq nat) : ModelRestricted.memb x l = (x \in l).
Proof. apply/idP/idP; last by move=> H; apply/ProofsRestricted.memb_in; elim: l H => //= a l IH; rewrite inE => /orP [/eqP ->|/IH]; [left|right].
move=> /ProofsRestricted.memb_in. elim: l => //= a l IH [->|/IH]; by rewrite inE ?eqxx // => ->; rewrite orbT. Qed.
Lemma In_mem (x : nat) l : List.In x l <-> x \in l.
Proof. rewrite -memb_mem. by split=> /ProofsRestricted.memb_in. Qed.
Lemma NoDup_uniq (l : seq nat) : List.NoDup l <-> uniq l.
Proof. elim: l => [|a l IH] /=; first by split=> // _; constructor. split.
- move=> H; inversion H as [|? ? H1 H2]; subst. apply/andP; split; [by apply/negP => /In_mem|exact/IH].
- move=> /andP [H1 H2]; constructor; [by move/In_mem; apply/negP|exact/IH]. Qed.
Lemma length_size T (l : seq T) : List.length l = size l. Proof. by []. Qed.
Lemma nth_List T (d : T) l i : List.nth i l d = nth d l i.
Proof. by elim: l i => [|a l IH] [|i] //=. Qed.
Lemma map_eq A B (f : A -> B) l : List.map f l = [seq f x | x <- l]. Proof. by []. Qed.

(** The restricted element has exactly the selected basis functions: function
    [j] of the restriction is function [T_j] of the original, node [j] is node
    [T_j], and the dofs of every entity are the selected dofs of that entity,
    renumbered through [T]. *)
Theorem C13_restriction_keeps_functions :
  forall (el : element) indices domain idx,
    is_nodal el ->
    ModelRestricted.choose_indices (el_ids el) (el_sd el) indices domain = Ok idx ->
    uniq idx -> all (fun i => i < size (el_nodes el))%N idx ->
    exists el' T, restricted E el indices domain = Ok el' /\ Permutation T idx /\
      size (el_nodes el') = size idx /\ num_members (el_basis el') = size idx /\
      el_mapping el' = el_mapping el /\ is_nodal el' /\
      SpecConcat.same_entities (el_ids el) (el_ids el') /\
      (forall j, (j < size idx)%N ->
         nth nil_f (el_nodes el') j = nth nil_f (el_nodes el) (nth 0%N T j) /\
         forall c k, c \in comps (pshape (el_basis el)) -> (k < nexp E)%N ->
           coeffs (el_basis el') j c k = coeffs (el_basis el) (nth 0%N T j) c k) /\
      (forall x, [seq nth 0%N T k | k <- SpecCell.dofs_on (el_ids el') x] =
                 [seq k <- SpecCell.dofs_on (el_ids el) x | k \in idx]).
Proof.
move=> el indices domain idx [U [HC H0 Hst HP]] Hidx Huniq Hlt.
have HG := strong_good H0 (erefl _) Hst.
have [Hn1 Hn2 Hsh Hdelta _] := C10_nodal_basis HG HC.
have [ids' [Hr [Hsame [Hall Hon]]]] := ProofsRestricted.restrict_ids_ok idx (el_ids el).
set T := ProofsRestricted.sel idx (SpecConcat.all_dofs (el_ids el)) in Hr Hall Hon.
have [_ HperT] := ProofsRestricted.sel_count idx _ _ HP.
have HT : Permutation T idx. { apply: HperT; first exact/NoDup_uniq. move=> i /In_mem Hi. apply/ltP. exact: (allP Hlt). }
have HTs : size T = size idx by rewrite -!length_size; exact: Permutation_length.
have HTmem : forall i, (i \in T) = (i \in idx).
{ move=> i; apply/idP/idP => /In_mem Hi; apply/In_mem; [exact: (Permutation_in _ HT)|exact: (Permutation_in _ (Permutation_sym HT))]. }
have HTlt : forall i, i \in T -> (i < size (el_nodes el))%N by move=> i; rewrite HTmem => /(allP Hlt).
have HTu : uniq T. { apply/NoDup_uniq. apply: (Permutation_NoDup (Permutation_sym HT)). exact/NoDup_uniq. }
have Hne : (0 < size idx)%N.
{ move: Hidx; rewrite /ModelRestricted.choose_indices. case: indices => [|a l]; last by case=> <-.
  case: String.eqb => //. by case: ModelRestricted.get_indices => // -[|a l] // [<-]. }
set nodes' := [seq nth nil_f (el_nodes el) dof | dof <- T].
have Hst' : all (fun l => [&& target_shape l == pshape U, wf_functional E (pshape U) l &
                      (deriv_dict l == [::]) || (0 < max_deriv_order l)%N]) nodes'.
{ apply/(all_nthP nil_f) => j. rewrite size_map => Hj. rewrite (nth_map 0%N) //.
  apply: (all_nthP nil_f Hst). apply: HTlt. exact: mem_nth. }
set Us := mkPolySet (size idx) (pshape (el_basis el)) (fun j => coeffs (el_basis el) (nth 0%N idx j)).
have Htake : take_members (el_basis el) idx = Ok Us.
{ rewrite /take_members Hn1 Hlt. by []. }
have Hns : size nodes' = size idx by rewrite size_map.
have HG' : good_nodes E nodes' Us. { apply: (strong_good (shp := pshape U)) => //. by rewrite Hns. }
(* action of the selected nodes on the selected functions *)
have Hlin : forall (a : nat -> F) i, (i < size idx)%N ->
  apply (nth nil_f nodes' i) (combination E Us a) = \sum_(j < size idx) a j * (nth 0%N T i == nth 0%N idx j)%:R.
{ move=> a i Hi. have HiT : (i < size T)%N by rewrite HTs.
  have Hw : wf_functional E (pshape U) (nth nil_f nodes' i).
  { have := all_nthP nil_f Hst' i. rewrite Hns => /(_ Hi) /and3P [] //. }
  transitivity (\sum_(j < size idx) a j * apply (nth nil_f nodes' i) (member E (el_basis el) (nth 0%N idx j))).
  - rewrite /member (apply_expand _ Hw). under [RHS]eq_bigr do rewrite (apply_expand _ Hw) mulr_sumr.
    rewrite [RHS]exchange_big /=. apply: eq_bigr => c _. under [RHS]eq_bigr do rewrite mulr_sumr.
    rewrite [RHS]exchange_big /=. apply: eq_bigr => k _. rewrite mulr_sumr. apply: eq_bigr => j _. by rewrite mulrCA.
  - apply: eq_bigr => j _. congr (_ * _). rewrite (nth_map 0%N) //. apply: Hdelta; first by apply: HTlt; exact: mem_nth.
    apply: (allP Hlt). exact: mem_nth. }
have HU' : unisolvent E nodes' Us.
{ split=> // a Ha j Hj. rewrite /= in Hj.
  have Hin : nth 0%N idx j \in T by rewrite HTmem mem_nth.
  have := Ha (seq.index (nth 0%N idx j) T). rewrite Hns Hlin -?HTs ?index_mem // => /(_ Hin). rewrite nth_index //.
  rewrite HTs (bigD1 (Ordinal Hj)) //= eqxx mulr1 big1 ?addr0 // => k Hk.
  rewrite nth_uniq // (_ : _ == _ = false) ?mulr0 //. apply/negbTE. by rewrite eq_sym. }
have [[U' HU''] _] := (proj1 (C10_construction_iff_unisolvent HG') HU', I).
have [Hm1 _ Hsh' _ [_ [_ Huniqb]]] := C10_nodal_basis HG' HU''.
exists (mkEl nodes' ids' U' (el_mapping el) (el_sd el)), T.
have Hmap : [seq nth (el_mapping el) (nseq (size (el_nodes el)) (el_mapping el)) dof | dof <- idx] = nseq (size idx) (el_mapping el).
{ elim: (idx) Hlt => //= i l IH /andP [Hi Hl]. by rewrite IH // nth_nseq if_same. }
split.
{ rewrite /restricted Hidx Htake Hr.
  have -> : has (fun dof => size (el_nodes el) <= dof)%N T = false.
  { apply/negbTE/hasPn => i Hi. by rewrite -ltnNge HTlt. }
  rewrite length_size HTs eqxx /=.
  have -> : has (fun dof => size (nseq (size (el_nodes el)) (el_mapping el)) <= dof)%N idx = false.
  { apply/negbTE/hasPn => i Hi. by rewrite size_nseq -ltnNge (allP Hlt). }
  rewrite Hmap.
  have -> : head (el_mapping el) (nseq (size idx) (el_mapping el)) = el_mapping el by case: (size idx).
  rewrite all_nseq eqxx orbT /=. rewrite -/nodes' HU''. by []. }
split=> //. split; first by rewrite /= Hns. split; first by rewrite /= Hm1 Hns. split=> //.
split.
{ exists Us; split=> //=; rewrite ?Hns //; last first.
  - rewrite /SpecConcat.partitions Hall length_size HTs. exact: Permutation_refl.
  - by rewrite Hsh. }
split=> //. split; last first.
{ move=> x. rewrite -[RHS]/(filter _ _). have <- : ProofsRestricted.sel idx (SpecCell.dofs_on (el_ids el) x) = [seq nth 0%N T k | k <- SpecCell.dofs_on ids' x].
  { rewrite -Hon map_eq. apply: eq_map => k. exact: nth_List. } rewrite /ProofsRestricted.sel.
  elim: (SpecCell.dofs_on _ _) => //= k l IH. rewrite memb_mem. by case: ifP => _; rewrite IH. }
move=> j Hj. split; first by rewrite /= (nth_map 0%N) ?HTs.
move=> c k Hc Hk. rewrite /=.
have HjT : (j < size T)%N by rewrite HTs.
have Hin : nth 0%N T j \in idx by rewrite -HTmem mem_nth.
rewrite Hsh in Hc.
have <- := Huniqb (fun j l => (l == seq.index (nth 0%N T j) idx)%:R) _ j c k _ _ Hk; rewrite ?Hns //=; last by rewrite Hsh.
- have Hx : (seq.index (nth 0%N T j) idx < size idx)%N by rewrite index_mem.
  rewrite (bigD1 (Ordinal Hx)) //= eqxx mul1r nth_index // big1 ?addr0 // => l Hl.
  rewrite (_ : _ == _ = false) ?mul0r //. apply/negbTE. move: Hl; rewrite -val_eqE /=. by [].
- move=> i j' Hi Hj'. rewrite Hlin // .
  have HjT' : (j' < size T)%N by rewrite HTs. have HiT : (i < size T)%N by rewrite HTs.
  have Hin' : nth 0%N T j' \in idx by rewrite -HTmem mem_nth.
  have Hx : (seq.index (nth 0%N T j') idx < size idx)%N by rewrite index_mem.
  rewrite (bigD1 (Ordinal Hx)) //= eqxx mul1r nth_index // nth_uniq // big1 ?addr0 // => l Hl.
  rewrite (_ : _ == _ = false) ?mul0r //. apply/negbTE. move: Hl; rewrite -val_eqE /=. by [].
Qed.

(** Duplicate or unattached indices are refused. *)
Theorem C13_bad_indices_refused :
  forall (el : element) indices domain,
    is_nodal el -> (0 < size indices)%N ->
    ~~ (uniq indices && all (fun i => i < size (el_nodes el))%N indices) ->
    restricted E el indices domain = Err (if all (fun i => i < size (el_nodes el))%N indices
                                          then Base.AssertionError else Base.IndexError).
Proof.
move=> el indices domain [U [HC H0 Hst HP]] Hne Hbad.
have HG := strong_good H0 (erefl _) Hst.
have [Hn1 Hn2 Hsh Hdelta _] := C10_nodal_basis HG HC.
have Hidx : ModelRestricted.choose_indices (el_ids el) (el_sd el) indices domain = Ok indices by case: (indices) Hne.
rewrite /restricted Hidx /take_members Hn1. case: ifP => // Hall.
have [ids' [Hr _]] := ProofsRestricted.restrict_ids_ok indices (el_ids el).
rewrite Hr. set T := ProofsRestricted.sel _ _.
have -> : has (fun dof => size (el_nodes el) <= dof)%N T = false.
{ apply/negbTE/hasPn => i /In_mem /List.filter_In [_ Hi]. rewrite memb_mem in Hi. by rewrite -ltnNge (allP Hall). }
rewrite length_size. case: eqP => //= Hc. exfalso.
have [[Hc1 _] _] := ProofsRestricted.sel_count indices _ _ HP.
have [Hu _] := Hc1 Hc. move/negP: Hbad; apply. rewrite Hall andbT. exact/NoDup_uniq.
Qed.

(** Bubbles: the dofs of the Lagrange element on the entities of the given
    codimension, and an error exactly when there are none. *)
Theorem C13_bubble_is_codim_restriction :
  forall (lag : element) cell_dim codim es,
    is_nodal lag -> SpecCell.proper_dict (el_ids lag) ->
    ModelRestricted.max_key (el_ids lag) = Some (ModelCell.DI cell_dim) -> (codim <= cell_dim)%N ->
    ModelCell.dlookup (ModelCell.DI (cell_dim - codim)) (el_ids lag) = Some es ->
    exists idx, [/\ sorted ltn idx,
      (forall i, i \in idx <-> exists e, List.In i (SpecCell.dofs_on (el_ids lag) (ModelCell.DI (cell_dim - codim), e))) &
      if idx is [::] then codim_bubble E lag cell_dim codim = Err Base.RuntimeError
      else codim_bubble E lag cell_dim codim = restricted E lag idx "" /\
           exists el', restricted E lag idx "" = Ok el'].
Proof.
move=> lag cd codim es Hnod HD Hmax Hcd Hes. have [U [HC H0 Hst HP]] := Hnod.
set L := List.flat_map snd es.
have HNA : List.NoDup (SpecConcat.all_dofs (el_ids lag)).
{ apply: (Permutation_NoDup (Permutation_sym HP)). exact: List.seq_NoDup. }
have Hin : List.In (ModelCell.DI (cd - codim), es) (el_ids lag).
{ apply/ProofsCell.dlookup_in; last exact: Hes. exact: (proj1 HD). }
have HL : List.NoDup L.
{ have [H _] := ProofsRestricted.NoDup_flat_map_inv _ _ HNA. exact: (H _ Hin). }
have Hon : forall i, List.In i L <-> exists e, List.In i (SpecCell.dofs_on (el_ids lag) (ModelCell.DI (cd - codim), e)).
{ move=> i. have := ProofsRestricted.in_dim_indices _ (ModelCell.DI (cd - codim)) i HD. rewrite Hes => H.
  split=> Hi; [apply/H|move/H: Hi] => *; first apply: (Permutation_in _ (Permutation_sym (ProofsRestricted.entity_indices_perm es))) => //.
  apply: (Permutation_in _ (ProofsRestricted.entity_indices_perm es)). by []. }
have Hcat : ModelRestricted.codim_bubble_indices (el_ids lag) cd codim =
   match Sorting.nsort L with nil => Err Base.RuntimeError | l => Ok l end.
{ rewrite /ModelRestricted.codim_bubble_indices Hmax ProofsCell.deqb_refl.
  have -> : Nat.ltb cd codim = false by apply/PeanoNat.Nat.ltb_ge/leP.
  by rewrite -/(subn _ _) Hes. }
have Hmem : forall i, i \in Sorting.nsort L <-> List.In i L.
{ move=> i. rewrite -In_mem. split=> H; apply: (Permutation_in _ _ H); [apply: Permutation_sym|]; exact: Sorting.nsort_perm. }
have Hnd : List.NoDup (Sorting.nsort L) by apply: (Permutation_NoDup (Sorting.nsort_perm L)).
exists (Sorting.nsort L); split.
- have Hs := Sorting.nsort_sorted L. rewrite sorted_pairwise; last exact: ltn_trans.
  elim: Hs Hnd => [|a l Hs IH Hf Hnd] //=. inversion Hnd as [|? ? H1 H2]; subst.
  apply/andP; split; last exact: IH.
  apply/allP => x /In_mem Hx. have /List.Forall_forall /(_ x Hx) /PeanoNat.Nat.leb_le /leP Hle := Hf.
  have -> : ltn a x = (a != x) && (a <= x)%N by exact: ltn_neqAle.
  rewrite Hle andbT. apply/eqP => Heq. by subst.
- move=> i. by rewrite Hmem.
- rewrite /codim_bubble Hcat. case El : (Sorting.nsort L) => [|a l] //. split=> //.
  have Hu : uniq (a :: l) by rewrite -El; apply/NoDup_uniq.
  have Hlt : all (fun i => i < size (el_nodes lag))%N (a :: l).
  { apply/allP => i. rewrite -El => /Hmem /Hon [e He]. apply/ltP. exact: (ProofsRestricted.on_entity_lt _ _ _ _ HP HD He). }
  have [el' [T [Hr _]]] := C13_restriction_keeps_functions (indices := a :: l) (domain := ""%string) Hnod (erefl _) Hu Hlt.
  by exists el'.
Qed.
End Props.
Print Assumptions C13_restriction_keeps_functions.
Print Assumptions C13_bad_indices_refused.
Print Assumptions C13_bubble_is_codim_restriction.

(** Non-vacuity: a three-function element on an interval (two vertices and the
    interior), restricted to dofs 2 and 0 given out of order. *)
Section Example.
Import ModelCell.
Let E : expansion [fieldType of rat] [eqType of nat] :=
  mkExpansion 3 1 (fun i x => (i == x)%:R) (fun a i x => 0).
Let pe (x : nat) : functional [fieldType of rat] [eqType of nat] := mkFunctional [::] [:: (x, [:: (1, [::])])] [::].
Let U : polyset [fieldType of rat] := mkPolySet 3 [::] (fun j _ k => (j == k)%:R).
Let ids := [:: (DI 0, [:: (0, [:: 0]); (1, [:: 1])]); (DI 1, [:: (0, [:: 2])])]%N.
Lemma pe_apply x f : apply (pe x) f = fval f [::] x.
Proof. by rewrite /apply /= !(big_cons, big_nil) /= !(mul1r, addr0). Qed.
Example C13_nonvacuous : exists el el' : nodal_element _ _ [eqType of bool],
  is_nodal E el /\ el_ids el = ids /\ size (el_nodes el) = 3%N /\
  restricted E el [:: 2; 0]%N "" = Ok el' /\
  el_ids el' = [:: (DI 0, [:: (0, [:: 0]); (1, [::])]); (DI 1, [:: (0, [:: 1])])]%N.
Proof.
pose nodes := [:: pe 0; pe 1%N; pe 2].
have HG : good_nodes E nodes U by split.
have HU : unisolvent E nodes U.
{ split=> // a Ha. have H := fun i => Ha i. case=> [|[|[|]]] // _.
  - have := H 0%N isT. by rewrite pe_apply /= !(big_ord_recl, big_ord0) /= /bump /= !(mulr0, mulr1, mul0r, mul1r, addr0, add0r).
  - have := H 1%N isT. by rewrite pe_apply /= !(big_ord_recl, big_ord0) /= /bump /= !(mulr0, mulr1, mul0r, mul1r, addr0, add0r).
  - have := H 2%N isT. by rewrite pe_apply /= !(big_ord_recl, big_ord0) /= /bump /= !(mulr0, mulr1, mul0r, mul1r, addr0, add0r). }
have [U' HU'] := proj1 (C10_construction_iff_unisolvent HG) HU.
pose el := mkEl nodes ids U' true 1%N.
have Hn : is_nodal E el by exists U; split.
have [el' [T [Hr _]]] := C13_restriction_keeps_functions (el := el) (indices := [:: 2; 0]%N) (domain := ""%string) Hn (erefl _) isT isT.
exists el, el'. split=> //. split=> //. split=> //. split=> //.
move: Hr. rewrite /restricted. cbn [ModelRestricted.choose_indices].
cbv beta iota zeta. case: (take_members _ _) => // U2.
set R := ModelRestricted.restrict_dict _ _ _. vm_compute in R. rewrite /R. cbv beta iota zeta.
have H : forall (b : bool) (e : Base.exn) (r : result (nodal_element [fieldType of rat] [eqType of nat] [eqType of bool])),
  (if b then Err e else r) = Ok el' -> r = Ok el' by case.
do 4 (let h := fresh in move=> h; apply H in h; move: h). case: (ciarlet _ _ _) => // U3 [<-]. by [].
Qed.
End Example.
