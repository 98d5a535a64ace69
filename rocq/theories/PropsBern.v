(** C25: Bernstein elements. *)
Set Warnings "-notation-overridden,-ambiguous-paths".
From mathcomp Require Import all_ssreflect all_algebra zify.
From SsrMultinomials Require Import mpoly.
From Verif Require Base ModelIndex SpecIndex ProofsIndex.
From Verif Require Import FieldTac ModelBern SpecBern ProofsBern SpecHull.
Set Implicit Arguments. Unset Strict Implicit. Unset Printing Implicit Defensive.
Import Order.TTheory GRing.Theory Num.Theory.
Local Open Scope ring_scope.

Section Main.
Variables (F : fieldType) (d : nat).
Hypothesis F0 : forall m : nat, m.+1%:R != 0 :> F.
Variable (vs : seq (seq F)).
Notation wid := (widen_ord (leqnSn d)).
Lemma at_affine (a : 'I_d -> F) b p : at_point (affine_poly a b) p = \sum_j a j * nth 0 p j + b.
Proof. rewrite /at_point /affine_poly mevalD mevalC. congr (_ + _). rewrite raddf_sum. apply: eq_bigr => j _. by rewrite /= mevalZ mevalXU. Qed.
Section Coefs.
Variables (a : 'I_d.+1 -> 'I_d -> F) (b : 'I_d.+1 -> F).
Hypothesis Hv : forall i j : 'I_d.+1, at_point (affine_poly (a i) (b i)) (nth [::] vs j) = (i == j)%:R.
Definition M : 'M[F]_(d.+1) := \matrix_(i, j) (if unlift ord_max j is Some j' then a i j' else b i).
Lemma M_wid i j : M i (wid j) = a i j.
Proof. rewrite mxE. have -> : wid j = lift ord_max j by apply: val_inj; rewrite /= /fintype.bump leqNgt ltn_ord. by rewrite liftK. Qed.
Lemma M_max i : M i ord_max = b i.
Proof. by rewrite mxE unlift_none. Qed.
Lemma M_B2R : M *m B2R d vs = 1%:M.
Proof.
apply/matrixP => i k. rewrite !mxE big_ord_recr /= M_max [B2R _ _ _ _]mxE ltnn mulr1 -Hv at_affine. congr (_ + _).
apply: eq_bigr => j _. by rewrite M_wid mxE /= ltn_ord. Qed.
Lemma R2B_ok : R2B d vs = Base.Ok M.
Proof.
have [H1 H2] := mulmx1_unit M_B2R. rewrite /R2B H2. congr Base.Ok. by rewrite -[RHS]mulmx1 -(mulmxV H2) mulmxA M_B2R mul1mx. Qed.
Lemma to_baryE p (i : 'I_d.+1) : nth 0 (to_bary M p) i = at_point (affine_poly (a i) (b i)) p.
Proof.
rewrite /to_bary (nth_map i) ?size_enum_ord // nth_ord_enum at_affine big_ord_recr /= ltnn mul1r M_max. congr (_ + _).
apply: eq_bigr => j _. by rewrite ltn_ord M_wid mulrC. Qed.
Lemma size_to_bary p : size (to_bary M p) = d.+1.
Proof. by rewrite size_map size_enum_ord. Qed.
Definition kap (n order : nat) : F := if order == n then n`!%:R else 1.
Lemma DxE ks alpha p : size ks = d.+1 -> size alpha = d ->
  kap (sumn ks) (sumn alpha) * bernstein_Dx M (to_bary M p) ks alpha = at_point (derivative alpha (bern_poly (fun i => affine_poly (a i) (b i)) ks)) p.
Proof.
move=> Hk Ha. have E0 : bern_poly (fun i => affine_poly (a i) (b i)) ks = G a b ks (cnt (d := d) [::]).
{ rewrite /bern_poly /G /coef. have -> : [forall i : 'I_d.+1, (cnt [::] i <= nth 0%N ks i)%N] by apply/forallP => i. congr (_ / _ *: _); apply: eq_bigr => i _; by rewrite /cnt /= subn0. }
have S := @Inv_start F d F0 a b ks (fun j => nth 0 p j) (kap (sumn ks) (sumn alpha)) (to_bary M p) Hk (size_to_bary p) (fun i => esym (to_baryE p i)) (sumn alpha) erefl.
have Es : sumn [seq nth 0%N alpha (nat_of_ord j) | j <- enum 'I_d] = sumn alpha.
{ rewrite (sumn_nth Ha) sumnE big_map big_enum /=. by []. }
have I := @Inv_foldl F d F0 a b ks M _ _ M_wid alpha (enum 'I_d) 0 0%MM _. rewrite addn0 Es in I. have {I S} := I _ _ _ S [::] erefl isT.
rewrite -E0 add0m big_enum /= => ->. rewrite /at_point /derivative. congr (_.@[_]). congr (_^`M[_]).
rewrite [RHS]multinomUE_id. apply: eq_bigr => j _. by rewrite mnmE. Qed.
End Coefs.

Lemma bary_choice lam : barycentric vs lam -> exists a b, (forall i, lam i = affine_poly (a i) (b i)) /\
  forall i j : 'I_d.+1, at_point (affine_poly (a i) (b i)) (nth [::] vs j) = (i == j)%:R.
Proof.
case=> H1 H2. have : forall i, exists ab : ('I_d -> F) * F, lam i = affine_poly ab.1 ab.2 by move=> i; have [a [b E]] := H1 i; exists (a, b).
case/fin_all_exists => f Hf.
exists (fun i => (f i).1), (fun i => (f i).2). split=> // i j. by rewrite -Hf. Qed.
Lemma nsumE l : Base.nsum l = sumn l. Proof. by elim: l => //= x l ->. Qed.
Lemma mis_size m n ks : ks \in ModelIndex.mis m.+1 n -> size ks = m.+1 /\ sumn ks = n.
Proof.
move=> H. have : List.In ks (ModelIndex.mis m.+1 n).
{ elim: (ModelIndex.mis m.+1 n) H => //= x l IH. rewrite inE => /orP [/eqP ->|/IH]; by [left|right]. }
case/ProofsIndex.mis_in; first by lia. rewrite nsumE => H1 H2. by split. Qed.
Lemma mis_mem m n ks : size ks = m.+1 -> sumn ks = n -> ks \in ModelIndex.mis m.+1 n.
Proof.
move=> Hs Hn. have : List.In ks (ModelIndex.mis m.+1 n). { apply/ProofsIndex.mis_in; first by lia. by split=> //; rewrite nsumE. }
elim: (ModelIndex.mis m.+1 n) => //= x l IH. rewrite inE => -[->|/IH ->]; by rewrite ?eqxx ?orbT. Qed.
Lemma keys_head (T : eqType) (V : Type) (f : T -> V) (ks : seq T) k : k \in ks -> exists l, [seq e.2 | e <- [seq (x, f x) | x <- ks] & e.1 == k] = f k :: l.
Proof.
rewrite filter_map -map_comp /preim /= => H. rewrite (eq_filter (a2 := pred1 k)) //. elim: ks H => //= x ks IH. rewrite inE [k == x]eq_sym. case: eqP => [->|_] /=; [by eexists|exact: IH]. Qed.
Lemma tab_entry (lam : 'I_d.+1 -> {mpoly F[d]}) deg order pts alpha i m : (0 < d)%N -> barycentric vs lam ->
  size alpha = d -> (sumn alpha <= order)%N -> (i < size (ModelIndex.mis d.+1 deg))%N -> (m < size pts)%N ->
  exists t e, [/\ tabulate_cell d vs deg order pts = Base.Ok t, entry_at t alpha i m = Some e &
    kap deg (sumn alpha) * e = at_point (derivative alpha (bern_poly lam (nth [::] (ModelIndex.mis d.+1 deg) i))) (nth [::] pts m)].
Proof.
move=> Hd Hb Ha Ho Hi Hm. have [a [b [El Hv]]] := bary_choice Hb. rewrite /tabulate_cell (R2B_ok Hv). eexists. eexists. split; first by [].
- rewrite /entry_at. set ks := flatten _. 
  pose f := fun alpha => [seq [seq bernstein_Dx (M a b) c ks0 alpha | c <- [seq to_bary (M a b) p | p <- pts]] | ks0 <- ModelIndex.mis d.+1 deg].
  have [|l Hl] := @keys_head _ _ f ks alpha.
  { apply/flatten_mapP. exists (sumn alpha); first by rewrite mem_iota add0n ltnS Ho. case: (d) Ha Hd => // d' Ha' _. exact: mis_mem. }
  cbv beta delta [f] in Hl. rewrite Hl size_map Hi (nth_map [::]) // !size_map Hm /=. reflexivity.
- rewrite (nth_map [::]) ?size_map // (nth_map [::]) //. have [Sk Nk] := mis_size (mem_nth [::] Hi). have := DxE a b (nth [::] pts m) Sk Ha. rewrite Nk => ->.
  congr (at_point (derivative _ _) _). rewrite /bern_poly. congr (_ *: _). apply: eq_bigr => k _. by rewrite El. Qed.
End Main.

(** the multinomial theorem, over the code's list of exponents *)
Section Multinomial.
Variable F : fieldType.
Hypothesis F0 : forall m : nat, m.+1%:R != 0 :> F.
Definition mon (x : nat -> F) (ks : seq nat) : F := \prod_(i < size ks) (x i ^+ nth 0%N ks i / (nth 0%N ks i)`!%:R).
Add Field FFB : (mc_field_theory F).
Lemma frac_shuffle (A B c p q : F) : p != 0 -> q != 0 -> c != 0 -> A / q * (B / p) = A * B * c / (c * (p * q)).
Proof. move=> Hp Hq Hc. ffield. repeat split; nz. Qed.
Lemma mon_cons x k ks : mon x (k :: ks) = x 0%N ^+ k / k`!%:R * mon (fun i => x i.+1) ks.
Proof. by rewrite /mon big_ord_recl. Qed.
Lemma mon_zeros x m : mon x (nseq m 0%N) = 1.
Proof. rewrite /mon big1 // => i _. by rewrite nth_nseq if_same expr0 divr1. Qed.
Lemma multinomial m n x : \sum_(ks <- ModelIndex.mis m.+1 n) mon x ks = (\sum_(i < m.+1) x i) ^+ n / n`!%:R.
Proof.
elim: m n x => [|m IH] n x; first by rewrite big_seq1 /mon /= !big_ord1.
case: n => [|n].
{ have -> : ModelIndex.mis m.+2 0 = [:: nseq m.+2 0%N] by rewrite /=; do 2 congr (_ :: _); congr (_ :: _); elim: (m) => //= k ->.
  by rewrite big_seq1 expr0 fact0 divr1 mon_zeros. }
transitivity (\sum_(i <- iota 0 n.+2) \sum_(foo <- ModelIndex.mis m.+1 i) mon x ((n.+1 - i)%N :: foo)).
{ rewrite -[ModelIndex.mis m.+2 n.+1]/(List.flat_map (fun i => List.map (fun foo => (n.+1 - i)%N :: foo) (ModelIndex.mis m.+1 i)) (Base.range 0 (n.+1 + 1))).
  have -> : Base.range 0 (n.+1 + 1) = iota 0 n.+2. { rewrite addn1 /Base.range -[(n.+2 - 0)%coq_nat]/(n.+2). move: (n.+2) 0%N. by elim=> //= k IHk a; rewrite IHk. }
  elim: (iota 0 n.+2) => [|i l IHl]; first by rewrite !big_nil. rewrite [List.flat_map _ _]/= big_cat /= IHl big_cons. congr (_ + _). by rewrite big_map. }
rewrite big_ord_recl exprDn mulr_suml -(big_mkord xpredT (fun i => (x ord0 ^+ (n.+1 - i) * (\sum_(i0 < m.+1) x (lift ord0 i0)) ^+ i) *+ 'C(n.+1, i) / (n.+1)`!%:R)) /index_iota subn0.
rewrite big_seq [RHS]big_seq. apply: eq_bigr => i. rewrite mem_iota add0n ltnS => /andP [_ Hi].
rewrite (eq_bigr (fun foo => x 0%N ^+ (n.+1 - i) / (n.+1 - i)`!%:R * mon (fun k => x k.+1) foo)) => [|foo _]; last exact: mon_cons.
rewrite -mulr_sumr IH. have Hb := bin_fact Hi. rewrite -[(n.+1)`!](Hb) !natrM -[in RHS]mulr_natr.
have H1 := factn0 F0 i. have H2 := factn0 F0 (n.+1 - i). have H3 : 'C(n.+1, i)%:R != 0 :> F. { have : (0 < 'C(n.+1, i))%N by rewrite bin_gt0. by case: ('C(_, _)) => // c _. }
have -> : \sum_(i0 < m.+1) x i0.+1 = \sum_(i0 < m.+1) x (lift ord0 i0) by apply: eq_bigr.
move: (\sum_(i0 < m.+1) _) (x ord0) => s y. move: (y ^+ _) (s ^+ _) => A B. exact: frac_shuffle. Qed.
End Multinomial.

(** *** C25.  [vs] are the vertices of a nondegenerate simplex: barycentric
    coordinates [lam] exist.  Every table entry of total derivative order
    different from the degree (or for degree at most 1) is the derivative of
    the Bernstein polynomial at the point. *)
Theorem C25_tables (F : fieldType) d (vs : seq (seq F)) (lam : 'I_d.+1 -> {mpoly F[d]}) deg order (pts : seq (seq F)) :
  (forall m : nat, m.+1%:R != 0 :> F) -> (0 < d)%N -> barycentric vs lam ->
  exists t, tabulate_cell d vs deg order pts = Base.Ok t /\
  forall alpha i m, size alpha = d -> (sumn alpha <= order)%N -> (i < size (ModelIndex.mis d.+1 deg))%N -> (m < size pts)%N ->
    sumn alpha != deg \/ (deg <= 1)%N ->
    entry_at t alpha i m = Some (at_point (derivative alpha (bern_poly lam (nth [::] (ModelIndex.mis d.+1 deg) i))) (nth [::] pts m)).
Proof.
move=> F0 Hd Hb. have [a [b [El Hv]]] := bary_choice Hb.
have [t Et] : exists t, tabulate_cell d vs deg order pts = Base.Ok t by rewrite /tabulate_cell (R2B_ok Hv); eexists.
exists t. split=> // alpha i m Ha Ho Hi Hm Hdeg. have [t' [e [E1 E2 E3]]] := tab_entry F0 Hd Hb Ha Ho Hi Hm.
move: E1. rewrite Et => -[Ett]. rewrite Ett E2 -E3 /kap. congr Some. case: eqP => E; last by rewrite mul1r.
case: Hdeg => [/eqP //|]. case: (deg) => [|[|]] // _; by rewrite mul1r. Qed.
(** When the derivative order equals the degree the code returns the derivative
    divided by the factorial of the degree ... *)
Theorem C25_top_order (F : fieldType) d (vs : seq (seq F)) (lam : 'I_d.+1 -> {mpoly F[d]}) deg order (pts : seq (seq F)) alpha i m :
  (forall m : nat, m.+1%:R != 0 :> F) -> (0 < d)%N -> barycentric vs lam ->
  size alpha = d -> sumn alpha = deg -> (deg <= order)%N -> (i < size (ModelIndex.mis d.+1 deg))%N -> (m < size pts)%N ->
  exists t, tabulate_cell d vs deg order pts = Base.Ok t /\
    entry_at t alpha i m = Some (at_point (derivative alpha (bern_poly lam (nth [::] (ModelIndex.mis d.+1 deg) i))) (nth [::] pts m) / deg`!%:R).
Proof.
move=> F0 Hd Hb Ha Hs Ho Hi Hm. rewrite -Hs in Ho. have [t [e [E1 E2 E3]]] := tab_entry F0 Hd Hb Ha Ho Hi Hm.
exists t. split=> //. rewrite E2. congr Some. move: E3. rewrite /kap Hs eqxx => <-. rewrite mulrAC divff ?mul1r //. exact: factn0. Qed.

(** ... which is wrong from degree 2 on: on the interval the second derivative
    of x^2 is returned as 1. *)
Lemma bary_interval (F : fieldType) : barycentric [:: [:: 0]; [:: 1]] (fun i : 'I_2 => if i == 0 then affine_poly (fun _ => -1 : F) 1 else affine_poly (fun _ => 1) 0).
Proof.
split=> [i|i j]; first by case: ifP => _; do 2 eexists.
by case: i => [[|[|//]]] Hi; case: j => [[|[|//]]] Hj; rewrite -!val_eqE /= at_affine big_ord1 /= ?mulr0 ?mulr1 ?add0r ?addr0 // addNr. Qed.
Theorem C25_top_order_refuted (F : fieldType) : (forall m : nat, m.+1%:R != 0 :> F) ->
  ~ (forall d (vs : seq (seq F)) (lam : 'I_d.+1 -> {mpoly F[d]}) deg order (pts : seq (seq F)) t alpha i m, (0 < d)%N -> barycentric vs lam ->
  tabulate_cell d vs deg order pts = Base.Ok t ->
  size alpha = d -> (sumn alpha <= order)%N -> (i < size (ModelIndex.mis d.+1 deg))%N -> (m < size pts)%N ->
  entry_at t alpha i m = Some (at_point (derivative alpha (bern_poly lam (nth [::] (ModelIndex.mis d.+1 deg) i))) (nth [::] pts m))).
Proof.
move=> F0 H. have [t [Et Ee]] := @C25_top_order F 1 _ _ 2 2 [:: [:: 0]] [:: 2%N] 2 0 F0 isT (bary_interval F) erefl erefl isT isT isT.
have := H 1%N _ _ 2%N 2%N [:: [:: 0]] t [:: 2%N] 2%N 0%N isT (bary_interval F) Et erefl isT isT isT. rewrite Ee => -[]. 
set D := at_point _ _. have -> : D = 2%:R.
{ rewrite /D /bern_poly /derivative (_ : [multinom _ | _ < _] = (U_(ord0) + U_(ord0))%MM); last by apply/mnmP => j; rewrite mnmE mnmDE mnm1E ord1.
  rewrite big_ord_recr big_ord1 [X in _ *: X]big_ord_recr big_ord1 /= expr0 mul1r mul1r divff ?scale1r; last exact: (F0 1%N).
  rewrite mderivmDm !mderivmU1m mderiv_exp mderiv_affine mpolyC1 mulr1 mderivZ mderiv_exp mderiv_affine expr0 mul1r scale1r mpolyC1.
  by rewrite /at_point mevalZ meval1 mulr1. }
rewrite divff; last exact: (F0 1%N). move/eqP. by rewrite -subr_eq0 opprD addrA subrr sub0r oppr_eq0 oner_eq0.
Qed.

(** At every point the basis functions sum to one ... *)
Lemma bern_mon (F : fieldType) d (lam : 'I_d.+1 -> {mpoly F[d]}) ks p : size ks = d.+1 ->
  at_point (bern_poly lam ks) p = (sumn ks)`!%:R * mon (fun i => if insub i is Some k then at_point (lam k) p else 0) ks.
Proof.
move=> Hs. rewrite /bern_poly /at_point mevalZ -mulrA. congr (_ * _). rewrite rmorph_prod /mon Hs prodf_div mulrC. congr (_ / _).
apply: eq_bigr => i _. by rewrite rmorphX /= valK. Qed.
Lemma deriv_zero (F : fieldType) d (P : {mpoly F[d]}) : derivative (nseq d 0%N) P = P.
Proof. rewrite /derivative (_ : [multinom _ | _ < _] = 0%MM) ?mderivm0m //. apply/mnmP => j. by rewrite mnmE mnm0E nth_nseq ltn_ord. Qed.
Theorem C25_partition_of_unity (F : fieldType) d (vs : seq (seq F)) (lam : 'I_d.+1 -> {mpoly F[d]}) deg order (pts : seq (seq F)) :
  (forall m : nat, m.+1%:R != 0 :> F) -> (0 < d)%N -> barycentric vs lam ->
  exists t, tabulate_cell d vs deg order pts = Base.Ok t /\ forall m, (m < size pts)%N ->
  exists f : nat -> F, (forall i, (i < size (ModelIndex.mis d.+1 deg))%N -> entry_at t (nseq d 0%N) i m = Some (f i)) /\
    \sum_(0 <= i < size (ModelIndex.mis d.+1 deg)) f i = 1.
Proof.
move=> F0 Hd Hb. have [t [Et Ht]] := C25_tables deg order pts F0 Hd Hb. exists t. split=> // m Hm.
exists (fun i => at_point (bern_poly lam (nth [::] (ModelIndex.mis d.+1 deg) i)) (nth [::] pts m)). split.
{ move=> i Hi. rewrite Ht ?size_nseq ?sumn_nseq //; first by rewrite deriv_zero. case: (deg) => [|k]; by [right|left]. }
set p := nth [::] pts m. rewrite -(big_nth [::] xpredT (fun ks => at_point (bern_poly lam ks) p)).
set x := fun i : nat => if insub i is Some k then at_point (lam k) p else 0.
rewrite big_seq (eq_bigr (fun ks => deg`!%:R * mon x ks)) => [|ks /mis_size [H1 H2]]; last by rewrite bern_mon // H2.
rewrite -big_seq -mulr_sumr (multinomial F0) mulrCA divff ?mulr1; last exact: factn0.
have [a [b [El Hv]]] := bary_choice Hb.
have E1 : \sum_(i < d.+1) x i = 1; last by rewrite E1 expr1n.
rewrite (eq_bigr (fun i : 'I_d.+1 => nth 0 (to_bary (M a b) p) i)) => [|i _]; last by rewrite /x valK to_baryE El.
have EB := mulmx1C (M_B2R Hv).
rewrite (eq_bigr (fun i : 'I_d.+1 => \sum_(j < d.+1) (if (j < d)%N then nth 0 p j else 1) * M a b i j)) => [|i _]; last by rewrite /to_bary (nth_map i) ?size_enum_ord // nth_ord_enum.
rewrite exchange_big /=. rewrite (eq_bigr (fun j : 'I_d.+1 => (if (j < d)%N then nth 0 p j else 1) * (j == ord_max)%:R)) => [|j _].
- rewrite (bigD1 ord_max) //= ltnn eqxx mulr1 big1 ?addr0 // => j /negbTE ->. by rewrite mulr0.
- rewrite -mulr_sumr. congr (_ * _). move/matrixP: EB => /(_ ord_max j). rewrite !mxE eq_sym => <-. apply: eq_bigr => i _. by rewrite [B2R _ _ _ _]mxE ltnn mul1r.
Qed.
(** ... and they are nonnegative on the convex hull of the vertices. *)
Theorem C25_nonnegative (F : realFieldType) d (vs : seq (seq F)) (lam : 'I_d.+1 -> {mpoly F[d]}) deg order (pts : seq (seq F)) :
  (0 < d)%N -> size vs = d.+1 -> barycentric vs lam ->
  exists t, tabulate_cell d vs deg order pts = Base.Ok t /\ forall m i e, (m < size pts)%N -> size (nth [::] pts m) = d -> in_hull vs (nth [::] pts m) ->
    entry_at t (nseq d 0%N) i m = Some e -> 0 <= e.
Proof.
move=> Hd Sv Hb. have F0 m : m.+1%:R != 0 :> F by rewrite pnatr_eq0.
have [t [Et Ht]] := C25_tables deg order pts F0 Hd Hb. exists t. split=> // m i e Hm Hp Hh He.
have Hi : (i < size (ModelIndex.mis d.+1 deg))%N.
{ move: Et He. rewrite /tabulate_cell. case: (R2B d vs) => // R [<-]. rewrite /entry_at. case E: [seq _ | _ <- _ & _] => [|tab l] //. case: ifP => // /andP [Hi _] _.
  have : tab \in [:: tab] ++ l by rewrite mem_cat inE eqxx. rewrite -cat1s -[[:: tab] ++ l]/(tab :: l) -E => /mapP [k]. rewrite mem_filter => /andP [_ /mapP [al _ ->]] Etab. move: Hi. by rewrite Etab size_map. }
move: He. rewrite Ht ?size_nseq ?sumn_nseq // => [[<-]|]; last by case: (deg) => [|k]; by [right|left].
rewrite deriv_zero. set p := nth [::] pts m in Hp Hh *. have [S1 S2] := mis_size (mem_nth [::] Hi). rewrite bern_mon //. apply: mulr_ge0; first exact: ler0n.
apply: prodr_ge0 => k _. apply: divr_ge0; last exact: ler0n. apply: exprn_ge0. case: insubP => // u _ _.
have [a [b [El Hv]]] := bary_choice Hb. rewrite El at_affine. case: Hh => L [HL H1 HK].
have -> : \sum_j a u j * nth 0 p j + b u = \sum_(c <- L) c.1 * at_point (affine_poly (a u) (b u)) c.2.
{ rewrite (eq_bigr (fun c : F * seq F => c.1 * (\sum_j a u j * nth 0 c.2 j) + c.1 * b u)) => [|c _]; last by rewrite at_affine mulrDr.
  rewrite big_split /= -mulr_suml H1 mul1r. congr (_ + _). rewrite (eq_bigr (fun c : F * seq F => \sum_j c.1 * (a u j * nth 0 c.2 j))) => [|c _]; last by rewrite mulr_sumr.
  rewrite exchange_big /=. apply: eq_bigr => j _. rewrite HK ?Hp // mulr_sumr. apply: eq_bigr => c _. by rewrite mulrCA. }
rewrite big_seq. apply: sumr_ge0 => c /HL [C1 C2]. apply: mulr_ge0 => //. have Hx : (index c.2 vs < d.+1)%N by rewrite -Sv index_mem.
have := Hv u (Ordinal Hx). rewrite /= nth_index // => ->. exact: ler0n. Qed.
(** Barycentric coordinates exist for every nondegenerate simplex, and only
    then; otherwise [tabulate] raises numpy's LinAlgError. *)
Theorem C25_nondegenerate (F : fieldType) d (vs : seq (seq F)) :
  (exists lam : 'I_d.+1 -> {mpoly F[d]}, barycentric vs lam) <-> \det (B2R d vs) != 0.
Proof.
have U : (B2R d vs \in unitmx) = (\det (B2R d vs) != 0) by rewrite unitmxE unitfE. split.
- case=> lam /bary_choice [a [b [_ Hv]]]. rewrite -U. exact: (mulmx1_unit (M_B2R Hv)).2.
- rewrite -U => H. exists (fun i => affine_poly (fun j => invmx (B2R d vs) i (widen_ord (leqnSn d) j)) (invmx (B2R d vs) i ord_max)). split=> [i|i j]; first by do 2 eexists.
  rewrite at_affine. have /matrixP /(_ i j) := mulVmx H. rewrite !mxE => <-. rewrite big_ord_recr /= [B2R _ _ _ _]mxE ltnn mulr1. congr (_ + _).
  apply: eq_bigr => k _. by rewrite [B2R _ _ _ _]mxE /= ltn_ord. Qed.
Theorem C25_degenerate (F : fieldType) d (vs : seq (seq F)) deg order pts : \det (B2R d vs) = 0 -> tabulate_cell d vs deg order pts = Base.Err Base.LinAlgError.
Proof. move=> H. by rewrite /tabulate_cell /R2B unitmxE unitfE H eqxx. Qed.
