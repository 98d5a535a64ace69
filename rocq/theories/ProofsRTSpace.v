(** The space of the Raviart-Thomas element: the stacked members of
    [vec_Pk_from_Pkp1] and [PkHx] span the fields p + x q. *)
Set Warnings "-notation-overridden,-ambiguous-paths".
From mathcomp Require Import all_ssreflect all_algebra zify.
From Verif Require Base ModelIndex ModelPolySet ProofsPolySet PropsIndex ModelCell ModelFam SpecFam ModelQuad ProofsIndex.
From Verif Require Import ModelJacobi SpecJacobi ModelExpansion PropsExpansion ModelDmats ProofsDmats ModelAffine ModelQuad SpecQuad ProofsQuad ModelDual SpecDual ProofsDual ProofsDmatsReg SpecPoly ModelSpace SpecVec
  ProofsLagLat ProofsSpace ProofsSpaceCell ProofsElem ProofsPolyClo ProofsDefQuad ProofsDubiner ProofsVecElem ModelNormal SpecNormal ProofsNormal ModelRT ProofsUnion.
Set Implicit Arguments. Unset Strict Implicit. Unset Printing Implicit Defensive.
Import Order.TTheory GRing.Theory Num.Theory.
Local Open Scope ring_scope.

Lemma fin_choice (T : Type) (t0 : T) (P : nat -> T -> Prop) m : (forall j, (j < m)%N -> exists t, P j t) -> exists f, forall j, (j < m)%N -> P j (f j).
Proof.
elim: m => [|m IH] H; first by exists (fun _ => t0).
have [f Hf] := IH (fun j Hj => H j (ltnW Hj)). have [t Ht] := H m (ltnSn m).
exists (fun j => if j == m then t else f j) => j Hj. case: eqP => [->|Hne] //. apply: Hf. lia.
Qed.
Lemma exps_nested sd k n : (k <= n)%N -> (size (exps sd k) <= size (exps sd n))%N.
Proof.
move=> H. apply: uniq_leq_size; first exact: exps_uniq. move=> a. rewrite !exps_mem => /andP [-> /= Ha]. exact: leq_trans H.
Qed.

Section Low.
Variable F : fieldType.
Variables (sqrt : F -> F) (c : cell) (n : nat) (r : rule F) (s : F) (ph : nat -> seq F -> F).
Hypothesis Q : quad_ortho sqrt c n r s ph.
Notation sd := (sdim_of c).
Notation Nd k := (size (exps sd k)).
Lemma int_ext f g : (forall x, size x = sd -> f x = g x) -> integrate r f = integrate r g.
Proof.
move=> H. case: Q => [[_ Hp] _ _ _]. rewrite /integrate. apply: eq_big_seq => xw Hxw. congr (_ * _). apply: H. apply: Hp.
have := map_f fst Hxw. move=> H1. have : xw.1 \in unzip1 (zip (q_pts r) (q_wts r)) by [].
clear. elim: (q_pts r) (q_wts r) => [|x l IH] [|y l'] //=. rewrite !inE => /orP [->|/IH ->] //. by rewrite orbT.
Qed.
Lemma int_sum m (a : nat -> F) (f : nat -> seq F -> F) : integrate r (fun x => \sum_(j < m) a j * f j x) = \sum_(j < m) a j * integrate r (f j).
Proof.
rewrite /integrate. under eq_bigr do rewrite mulr_sumr. rewrite exchange_big /=. apply: eq_bigr => j _. rewrite mulr_sumr. apply: eq_bigr => xw _. by rewrite mulrCA.
Qed.
(** coefficients by integration *)
Lemma int_coef (a : nat -> F) m k : (m <= Nd n)%N -> (k < Nd n)%N -> integrate r (fun x => ph k x * \sum_(j < m) a j * ph j x) = if (k < m)%N then s * a k else 0.
Proof.
move=> Hm Hk. case: Q => _ _ _ Ho. transitivity (integrate r (fun x => \sum_(j < m) a j * (ph k x * ph j x))).
{ rewrite /integrate. apply: eq_bigr => xw _. congr (_ * _). rewrite mulr_sumr. apply: eq_bigr => j _. by rewrite mulrCA. }
rewrite (int_sum m a (fun j x => ph k x * ph j x)). rewrite (eq_bigr (fun j : 'I_m => a j * (s * (k == j :> nat)%:R))); last by move=> j _; rewrite Ho // (leq_trans (ltn_ord j)).
case: ltnP => Hkm.
- rewrite (bigD1 (Ordinal Hkm)) //= eqxx mulr1 big1 ?addr0; first by rewrite mulrC. move=> j Hj. case: eqP => [Ej|_]; last by rewrite !mulr0.
  case/eqP: Hj. exact: val_inj.
- rewrite big1 // => j _. case: eqP => [Ej|_]; last by rewrite !mulr0. by have := leq_trans (ltn_ord j) Hkm; rewrite -Ej ltnn.
Qed.
Lemma ph_indep (a : nat -> F) m : (m <= Nd n)%N -> (forall x, size x = sd -> \sum_(j < m) a j * ph j x = 0) -> forall k, (k < m)%N -> a k = 0.
Proof.
move=> Hm H k Hk. case: (Q) => [[Hs _] _ _ _].
have := int_coef a Hm (leq_trans Hk Hm). rewrite Hk (@int_ext _ (fun x => \sum_(j < 0) 0 * ph j x)) => [|x Hx]; last by rewrite H // mulr0 big_ord0.
rewrite (int_sum 0 (fun _ => 0) ph) big_ord0 => /esym /eqP. by rewrite mulf_eq0 (negbTE Hs) => /eqP.
Qed.
(** the first [dim P_k] expansion functions are a basis of P_k *)
Lemma low_span k f : (k <= n)%N -> is_poly sd k f -> exists e : nat -> F, forall x, size x = sd -> f x = \sum_(j < Nd k) e j * ph j x.
Proof.
move=> Hk [cg Hf]. case: (Q) => _ _ Hlow _.
have [cf Hcf] := fin_choice (fun _ => 0 : F) (Hlow k ^~ Hk).
pose V := \matrix_(j < Nd k, i < Nd k) cf j (nth [::] (exps sd k) i).
have HV : V \in unitmx.
{ rewrite -unitmx_tr. apply: unit_eval => a Ha. apply/rowP => j. rewrite mxE.
  pose a' i := if insub i is Some k' then a 0 (k' : 'I_(Nd k)) else 0.
  have Ea i : a' (val i) = a 0 i by rewrite /a' valK.
  rewrite -Ea. apply: (ph_indep (exps_nested sd Hk)) (ltn_ord j) => x Hx.
  rewrite (eq_bigr (fun j0 : 'I_(Nd k) => a' j0 * pval sd k (cf j0) x)); last by move=> j0 _; rewrite Hcf.
  rewrite pval_sum /pval big1_seq // => al /andP [_ Hal]. have Hi : (index al (exps sd k) < Nd k)%N by rewrite index_mem.
  rewrite [X in X * _](_ : _ = 0) ?mul0r // -[RHS](Ha (Ordinal Hi)). apply: eq_bigr => k' _. by rewrite -Ea mxE mxE /= nth_index. }
pose g : 'rV[F]_(Nd k) := \row_i cg (nth [::] (exps sd k) i).
pose a := g *m invmx V. exists (fun j => if insub j is Some k' then a 0 (k' : 'I_(Nd k)) else 0) => x Hx.
rewrite Hf //. rewrite (eq_bigr (fun j : 'I_(Nd k) => a 0 j * pval sd k (cf j) x)); last by move=> j _; rewrite valK Hcf.
have -> : pval sd k cg x = \sum_(i < Nd k) g 0 i * mono (nth [::] (exps sd k) i) x.
{ rewrite /pval (big_nth [::]) big_mkord. apply: eq_bigr => i _. by rewrite mxE. }
have -> : g = a *m V by rewrite /a mulmxKV.
transitivity (\sum_(i < Nd k) \sum_(j < Nd k) a 0 j * cf j (nth [::] (exps sd k) i) * mono (nth [::] (exps sd k) i) x).
- apply: eq_bigr => i _. rewrite [(_ *m V) 0 i]mxE mulr_suml. apply: eq_bigr => j _. by rewrite [V _ _]mxE.
- rewrite exchange_big /=. apply: eq_bigr => j _. rewrite /pval (big_nth [::]) big_mkord mulr_sumr. apply: eq_bigr => i _. by rewrite mulrA.
Qed.
End Low.

(** the coefficients of the vector valued orthonormal set *)
Lemma seq_nth_error a n k : List.nth_error (List.map (fun i : nat => [:: i]) (List.seq a n)) k = if (k < n)%N then Some [:: (a + k)%N] else None.
Proof. elim: n a k => [|n IH] a [|k] //=; first by rewrite addn0. rewrite IH. by rewrite addSnnS. Qed.
Lemma on_vec_coef d N b i e : ModelPolySet.coeff (ModelPolySet.on_layout [:: d] N) b [:: i] e = [&& (i < d)%N, (e < N)%N & b == (i * N + e)%N].
Proof.
apply/idP/idP.
- move/(proj1 (ProofsPolySet.on_layout_spec _ _ _ _ _)) => [k [/= H1 [H2 H3]]].
  move: H1. rewrite /Base.range PeanoNat.Nat.sub_0_r seq_nth_error. case: ltnP => // Hk [<-]. rewrite Hk /= H3. apply/andP; split; [exact/ssrnat.ltP|by rewrite add0n].
- case/and3P => Hi /ssrnat.ltP He /eqP ->. apply/(ProofsPolySet.on_layout_spec _ _ _ _ _). exists i. split=> //=.
  by rewrite /Base.range PeanoNat.Nat.sub_0_r seq_nth_error Hi.
Qed.
Lemma flat_items sd N N0 i k : (i < sd)%N -> (k < N0)%N -> nth 0%N (rt_items sd N N0) (i * N0 + k) = (i * N + k)%N.
Proof.
move=> Hi Hk. rewrite /rt_items.
have -> : [seq iota (i0 * N) N0 | i0 <- iota 0 sd] = [seq [seq (i0 * N + k0)%N | k0 <- iota 0 N0] | i0 <- iota 0 sd].
{ apply: eq_map => j. by rewrite -[X in iota X]addn0 iotaDl. }
rewrite (flatten_blocks 0%N (fun a b => a * N + b)%N); last by rewrite size_iota; nia.
by rewrite divnMDl ?divn_small ?addn0 ?nth_iota ?modnMDl ?modn_small //; lia.
Qed.
Lemma rt_items_size sd N N0 : size (rt_items sd N N0) = (sd * N0)%N.
Proof.
rewrite /rt_items -[X in _ = (X * _)%N](size_iota 0 sd). elim: (iota 0 sd) => [|i l IH] //=. by rewrite size_cat IH size_iota mulSn.
Qed.
Lemma rt_items_all sd N N0 : (N0 <= N)%N -> all (fun i => (i < sd * N)%N) (rt_items sd N N0).
Proof.
move=> H. apply/allP => x /flattenP [l /mapP [i]]. rewrite mem_iota => Hi -> . rewrite mem_iota => Hx. nia.
Qed.

Section Space.
Variable R : rcfType.
Variables (sqrt : R -> R) (svd : seq (seq R) -> seq (seq R) * seq R * seq (seq R)) (gjp : nat -> nat -> nat -> seq R).
Hypothesis Hsq : sqrt_exact sqrt.
Hypothesis Hsvd : svd_correct svd.
Variables (c : cell) (deg : nat).
Hypothesis Hc : SpecFam.simplex c.
Hypothesis Hd : (2 <= sdim_of c)%N.
Hypothesis HG : gauss_points gjp (2 * deg + 2).
Notation sd := (sdim_of c).
Notation Nd k := (size (exps sd k)).
Definition Nlow : nat := if deg is deg'.+1 then Nd deg' else 0%N.
Lemma R0 : char_zero R. Proof. move=> m Hm. rewrite pnatr_eq0. by case: m Hm. Qed.
Lemma dim_ok n : ModelFam.polynomial_dimension c n = Base.Ok (Nd n).
Proof. by have [N [cf [H1 H2 _]]] := exp_ok R0 Hsq n Hc; rewrite H1 H2. Qed.
Lemma Nlow_le : (Nlow <= Nd deg)%N. Proof. rewrite /Nlow. case: deg => // n. exact: exps_nested. Qed.
Lemma N0_le : (Nd deg <= Nd deg.+1)%N. Proof. exact: exps_nested. Qed.
Definition sets_spec (A B : polyset R) r (s : R) ph : Prop :=
  [/\ quad_ortho sqrt c deg.+1 r s ph, pshape A = [:: sd] /\ pshape B = [:: sd], num_members A = (sd * Nd deg)%N /\ num_members B = (Nd deg - Nlow)%N,
      forall i i' k l, (i < sd)%N -> (i' < sd)%N -> (k < Nd deg)%N -> (l < Nd deg.+1)%N -> coeffs A (i * Nd deg + k)%N [:: i'] l = ((i == i') && (k == l))%:R &
      forall t j k, (j < sd)%N -> (t < Nd deg - Nlow)%N -> (k < Nd deg.+1)%N ->
        coeffs B t [:: j] k = integrate r (fun x => ph k x * (ph (Nlow + t)%N x * nth 0 x j))].
Lemma rt_sets_ok : exists A B r s ph, rt_sets sqrt gjp c deg = Ok (A, B) /\ [/\ sets_spec A B r s ph, make_quadrature gjp (quad_cell R c) (2 * deg + 2) = Base.Ok r & s = (scl R c / 2%:R) ^+ sd].
Proof.
have mq0 : (0 < 2 * deg + 2)%N by lia. have Hn : (0 < deg.+1 < 2 * deg + 2)%N by lia.
have [r [s [ph [Hr [Q Es]]]]] := quad_ortho_ok R0 Hsq mq0 HG Hc Hd Hn (match c with ModelCell.UFCInterval | ModelCell.UFCTriangle | ModelCell.UFCTetrahedron => true | _ => false end).
have Hon : on_vec_set sqrt c deg.+1 = Ok (mkPolySet (ModelPolySet.on_num_members [:: sd] (Nd deg.+1)) [:: sd]
  (fun j cmp i => (ModelPolySet.coeff (ModelPolySet.on_layout [:: sd] (Nd deg.+1)) j cmp i)%:R)).
{ rewrite /on_vec_set dim_ok. have [N' [cf [_ _ [_ H _]]]] := exp_ok R0 Hsq deg.+1 Hc. by have [js [-> _]] := H [::] 0%N. }
have Ed n : dim_of c n = Ok (Nd n) by rewrite /dim_of dim_ok.
have El : (if deg is deg'.+1 then dim_of c deg' else Ok 0%N) = Ok Nlow by rewrite /Nlow; case: (deg) => // n; rewrite Ed.
have Nm : ModelPolySet.on_num_members [:: sd] (Nd deg.+1) = (sd * Nd deg.+1)%N by rewrite /ModelPolySet.on_num_members /Base.nprod /= PeanoNat.Nat.mul_1_r.
rewrite /rt_sets Hon bindE !Ed !bindE El bindE /take_members Nm [num_members (mkPolySet (sd * _) _ _)]/= rt_items_all ?N0_le // bindE.
rewrite (on_set_ok R0 Hsq _ Hc) bindE [num_members (mkPolySet _ [::] _)]/=.
have -> : all (fun i => (i < Nd deg.+1)%N) (iota Nlow (Nd deg - Nlow)).
{ apply/allP => i. rewrite mem_iota subnKC ?Nlow_le // => /andP [_ Hi]. exact: leq_trans Hi N0_le. }
rewrite bindE /quad_cell Hr. case: (Q) => _ Ht _ _.
have -> : map_res (exp_table sqrt c deg.+1) (q_pts r) = Ok [seq [seq ph k x | k <- iota 0 (Nd deg.+1)] | x <- q_pts r].
{ elim: (q_pts r) => [|x l IH] //=. by rewrite Ht /= IH. }
rewrite bindE. do 2 eexists. exists r, s, ph. split; first by []. split; [|by []|exact: Es].
split=> //; first by rewrite /= rt_items_size size_iota.
- move=> i i' k l Hi Hi' Hk Hl /=. rewrite flat_items // on_vec_coef Hi' Hl /=. congr (_%:R). congr nat_of_bool.
  have HkN : (k < Nd deg.+1)%N := leq_trans Hk N0_le. apply/eqP/andP => [E|[/eqP -> /eqP ->]] //.
  have := congr1 (modn ^~ (Nd deg.+1)) E. rewrite !modnMDl !modn_small // => Ek. split; last exact/eqP. apply/eqP.
  move: E. rewrite Ek => /addIn /eqP. rewrite eqn_pmul2r; last by apply: leq_ltn_trans HkN. by move/eqP.
- move=> t j k Hj Ht' Hk /=. rewrite /integrate.
  have HtN : (Nlow + t < Nd deg.+1)%N. { apply: (@leq_trans (Nd deg)); last exact: N0_le. have := Nlow_le. lia. }
  have V x i : (i < Nd deg.+1)%N -> value_at (mkPolySet (Nd deg.+1) [::] (fun j0 (_ : seq nat) i0 => (i0 == j0)%:R)) i [seq ph k0 x | k0 <- iota 0 (Nd deg.+1)] = ph i x.
  { move=> Hi. rewrite /value_at size_map size_iota /= (bigD1 (Ordinal Hi)) //= eqxx mul1r nth_map_iota // big1 ?addr0 // => l Hl.
    case: eqP => [El'|_]; last by rewrite mul0r. case/eqP: Hl. exact: val_inj. }
  have W x : value_at (mkPolySet (size (iota Nlow (Nd deg - Nlow))) [::] (fun j0 (_ : seq nat) i0 => (i0 == nth 0%N (iota Nlow (Nd deg - Nlow)) j0)%:R)) t [seq ph k0 x | k0 <- iota 0 (Nd deg.+1)] = ph (Nlow + t)%N x.
  { rewrite -(V x _ HtN) /value_at /= nth_iota //. }
  elim: (q_pts r) (q_wts r) => [|x l IH] [|w l'] //=; rewrite ?big_nil // !big_cons IH /=. congr (_ + _). rewrite V // W. by rewrite [in RHS]mulrC -!mulrA.
Qed.

Variables (A B : polyset R) (r : rule R) (s : R) (ph : nat -> seq R -> R).
Hypothesis SP : sets_spec A B r s ph.
Notation N := (Nd deg.+1).
Notation N0 := (Nd deg).
Notation m := (num_members A + num_members B)%N.
Lemma Q_of : quad_ortho sqrt c deg.+1 r s ph. Proof. by case: SP. Qed.
Lemma A_val i i' k x : (i < sd)%N -> (i' < sd)%N -> (k < N0)%N -> \sum_(l < N) coeffs A (i * N0 + k)%N [:: i'] l * ph l x = (i == i')%:R * ph k x.
Proof.
move=> Hi Hi' Hk. case: SP => _ _ _ HA _. have HkN : (k < N)%N := leq_trans Hk N0_le.
rewrite (bigD1 (Ordinal HkN)) //= HA // eqxx andbT big1 ?addr0 // => l Hl. rewrite HA //. case: (k =P l) => [Ek|_]; last by rewrite andbF mul0r.
case/eqP: Hl. exact: val_inj.
Qed.
Lemma B_val t j x : (j < sd)%N -> (t < N0 - Nlow)%N -> size x = sd -> \sum_(l < N) coeffs B t [:: j] l * ph l x = s * (nth 0 x j * ph (Nlow + t)%N x).
Proof.
move=> Hj Ht Hx. case: SP => Q _ _ _ HB. have HtN : (Nlow + t < N0)%N by have := Nlow_le; lia.
have Hp : is_poly sd deg.+1 (fun x => ph (Nlow + t)%N x * nth 0 x j).
{ rewrite -addn1. apply: is_poly_mul; last exact: is_poly_coord. case: Q => _ _ H _. exact: H. }
have [a Ha] := low_span Q (leqnn _) Hp. rewrite [nth 0 x j * _]mulrC Ha // mulr_sumr. apply: eq_bigr => l _. rewrite HB // mulrA. congr (_ * _).
rewrite (int_ext Q (g := fun x => ph l x * \sum_(j0 < N) a j0 * ph j0 x)); last by move=> y Hy; rewrite Ha.
by rewrite (int_coef Q) // ltn_ord.
Qed.
Lemma s_neq0 : s != 0. Proof. by case: Q_of => [[]]. Qed.
Lemma ph_low k : (k < N0)%N -> is_poly sd deg (ph k). Proof. case: Q_of => _ _ H _ Hk. exact: (H deg). Qed.
Lemma rows_sum (a : nat -> R) i x : (i < sd)%N -> size x = sd ->
  \sum_(j < m) a j * (\sum_(k < N) row_of A B j [:: i] k * ph k x) =
  \sum_(k < N0) a (i * N0 + k)%N * ph k x + nth 0 x i * (\sum_(t < N0 - Nlow) s * a (sd * N0 + t)%N * ph (Nlow + t)%N x).
Proof.
move=> Hi Hx. case: SP => _ _ [-> ->] _ _. rewrite big_split_ord /=. congr (_ + _).
- transitivity (\sum_(q < sd * N0) a q * \sum_(k < N) coeffs A q [:: i] k * ph k x).
  { apply: eq_bigr => q _. congr (_ * _). apply: eq_bigr => k _. rewrite /row_of. case: SP => _ _ [-> _] _ _. by rewrite ltn_ord. }
  rewrite (sum_blocks (fun q => a q * \sum_(k < N) coeffs A q [:: i] k * ph k x)) (bigD1 (Ordinal Hi)) //= [X in _ + X]big1 ?addr0.
  + apply: eq_bigr => k _. by rewrite A_val // eqxx mul1r.
  + move=> i' Hi'. rewrite big1 // => k _. rewrite A_val //. have -> : (i' == i :> nat) = false by apply/eqP => E; case/eqP: Hi'; exact: val_inj. by rewrite mul0r mulr0.
- rewrite mulr_sumr. apply: eq_bigr => t _. rewrite [RHS]mulrCA [s * _]mulrC -mulrA -(@B_val t i x) //.
  congr (_ * _). apply: eq_bigr => k _. rewrite /row_of. case: SP => _ _ [-> _] _ _. by rewrite ltnNge leq_addr /= addKn.
Qed.
(** combinations of the rows are fields p + x q ... *)
Lemma rows_fwd (a : nat -> R) : exists p q, forall i x, (i < sd)%N -> size x = sd ->
  \sum_(j < m) a j * (\sum_(k < N) row_of A B j [:: i] k * ph k x) = pval sd deg (p i) x + nth 0 x i * pval sd deg q x.
Proof.
have [p Hp] := fin_choice (P := fun i cf => forall x, size x = sd -> \sum_(k < N0) a (i * N0 + k)%N * ph k x = pval sd deg cf x) (m := sd) (fun _ => 0 : R)
  (fun i _ => @is_poly_sumo R sd deg N0 (fun k x => a (i * N0 + k)%N * ph k x) (fun k Hk => is_poly_scale _ (ph_low Hk))).
have [q Hq] : is_poly sd deg (fun x => \sum_(t < N0 - Nlow) s * a (sd * N0 + t)%N * ph (Nlow + t)%N x).
{ apply: (@is_poly_sumo R sd deg _ (fun t x => s * a (sd * N0 + t)%N * ph (Nlow + t)%N x)) => t Ht. apply: is_poly_scale. apply: ph_low. have := Nlow_le; lia. }
exists p, q => i x Hi Hx. by rewrite rows_sum // Hp // Hq.
Qed.
(** ... and all of them *)
Lemma rows_bwd (p : nat -> seq nat -> R) (q : seq nat -> R) : exists a : nat -> R, forall i x, (i < sd)%N -> size x = sd ->
  \sum_(j < m) a j * (\sum_(k < N) row_of A B j [:: i] k * ph k x) = pval sd deg (p i) x + nth 0 x i * pval sd deg q x.
Proof.
have [e He] := low_span Q_of (leqnSn deg) (is_poly_pval sd deg q).
have Hlow i : is_poly sd deg (fun x => pval sd deg (p i) x + nth 0 x i * \sum_(l < Nlow) e l * ph l x).
{ apply: is_poly_add; first exact: is_poly_pval. rewrite /Nlow. case Ed : deg => [|d'].
  - apply: is_poly_ext (is_poly0 R sd 0) => x _. by rewrite big_ord0 mulr0.
  - rewrite -addn1 addnC. apply: is_poly_mul; first exact: is_poly_coord. apply: (@is_poly_sumo R sd d' _ (fun l x => e l * ph l x)) => l Hl. apply: is_poly_scale.
    case: Q_of => _ _ H _. apply: H => //. lia. }
have [b Hb] := fin_choice (P := fun i (b : nat -> R) => forall x, size x = sd -> pval sd deg (p i) x + nth 0 x i * (\sum_(l < Nlow) e l * ph l x) = \sum_(k < N0) b k * ph k x) (m := sd) (fun _ => 0 : R)
  (fun i _ => low_span Q_of (leqnSn deg) (Hlow i)).
pose a0 j := if (j < sd * N0)%N then b (j %/ N0)%N (j %% N0)%N else s^-1 * e (Nlow + (j - sd * N0))%N. exists a0 => i x Hi Hx.
rewrite rows_sum // He // /a0.
have -> : \sum_(k < N0) (if (i * N0 + k < sd * N0)%N then b ((i * N0 + k) %/ N0)%N ((i * N0 + k) %% N0)%N else s^-1 * e (Nlow + (i * N0 + k - sd * N0))%N) * ph k x = \sum_(k < N0) b i k * ph k x.
{ apply: eq_bigr => k _. have Hk := ltn_ord k. have -> : (i * N0 + k < sd * N0)%N by nia. by rewrite divnMDl ?divn_small ?addn0 ?modnMDl ?modn_small //; lia. }
rewrite -Hb // -addrA -mulrDr. congr (_ + _ * _).
have EN : N0 = (Nlow + (N0 - Nlow))%N by rewrite subnKC // Nlow_le.
rewrite -[RHS](big_mkord xpredT (fun l => e l * ph l x)) (big_cat_nat _ _ _ (leq0n Nlow) Nlow_le) /= big_mkord. congr (_ + _).
have -> : \sum_(Nlow <= l < N0) e l * ph l x = \sum_(t < N0 - Nlow) e (t + Nlow)%N * ph (t + Nlow)%N x by rewrite -[X in \sum_(X <= _ < _) _]add0n big_addn big_mkord.
apply: eq_bigr => t _. rewrite ltnNge leq_addr /= addKn mulrA divff ?s_neq0 // mul1r. by rewrite [(t + _)%N]addnC.
Qed.
End Space.
