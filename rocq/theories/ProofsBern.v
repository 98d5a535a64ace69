Set Warnings "-notation-overridden,-ambiguous-paths".
From mathcomp Require Import all_ssreflect all_algebra zify.
From SsrMultinomials Require Import mpoly.
From Verif Require Base ModelIndex.
From Verif Require Import RingTac ModelBern SpecBern.
Set Implicit Arguments. Unset Strict Implicit. Unset Printing Implicit Defensive.
Import GRing.Theory.
Local Open Scope ring_scope.

Section Shuffle.
Variable A : comRingType.
Add Ring RRB : (mc_ring_theory A).
Lemma ring_shuffle (c n l a p : A) : c * (n * (l * a) * p) = a * (n * c * (l * p)).
Proof. cring. Qed.
End Shuffle.

Lemma fold_div ls N : foldl (fun c k => c %/ k`!)%N N ls = (N %/ \prod_(k <- ls) k`!)%N.
Proof. elim: ls N => [|k ls IH] N /=; first by rewrite big_nil divn1. by rewrite IH big_cons divnMA. Qed.
Lemma fact_dvd m n : (m <= n)%N -> (m`! %| n`!)%N.
Proof. move=> H. rewrite -(bin_fact H). by rewrite mulnCA dvdn_mulr. Qed.
Lemma prod_fact_dvd ls : (\prod_(k <- ls) k`! %| (sumn ls)`!)%N.
Proof.
elim: ls => [|k ls IH]; first by rewrite big_nil. rewrite big_cons /=.
apply: (@dvdn_trans (k`! * (sumn ls)`!)%N); first exact: dvdn_mul.
rewrite -(@bin_fact (k + sumn ls) k) ?leq_addr // addKn. exact: dvdn_mull. Qed.
Lemma sumn_nth s N : size s = N -> sumn s = (\sum_(i < N) nth 0%N s i)%N.
Proof. move=> <-. by rewrite sumnE (big_nth 0%N) big_mkord. Qed.
Lemma count_total ds D : all (fun i => i < D)%N ds -> (\sum_(i < D) count_mem (i : nat) ds = size ds)%N.
Proof.
elim: ds => [_|x ds IH /= /andP [Hx Hd]]; first by rewrite big1. rewrite big_split /= IH // (bigD1 (Ordinal Hx)) //= eqxx big1 ?addn0 // => i.
rewrite -val_eqE eq_sym /= => /negbTE. by rewrite eq_sym => ->. Qed.
Section Der.
Variables (F : fieldType) (d : nat).
Lemma mderiv_exp (j : 'I_d) (p : {mpoly F[d]}) e : (p ^+ e)^`M(j) = e%:R *: (p ^+ e.-1 * p^`M(j)).
Proof.
elim: e => [|e IH]; first by rewrite expr0 scale0r -mpolyC1 mderivC.
rewrite exprS mderivM IH -scalerAr mulrA. case: e {IH} => [|e]; first by rewrite scale0r addr0 expr0 mul1r mulr1 scale1r.
rewrite /= -exprS [p^`M(j) * _]mulrC -[X in X + _]scale1r -scalerDl. by congr (_ *: _); rewrite -natrD add1n. Qed.
Lemma mderiv_prod (j : 'I_d) (I : finType) (f : I -> {mpoly F[d]}) :
  (\prod_i f i)^`M(j) = \sum_i (f i)^`M(j) * \prod_(k | k != i) f k.
Proof.
have G r : uniq r -> (\prod_(i <- r) f i)^`M(j) = \sum_(i <- r) (f i)^`M(j) * \prod_(k <- r | k != i) f k.
{ elim: r => [_|a r IH /= /andP [Ha Hr]]; first by rewrite !big_nil -mpolyC1 mderivC.
  rewrite !big_cons mderivM IH // eqxx /=. congr (_ * _ + _).
  - rewrite big_seq [RHS]big_seq_cond. apply: eq_bigl => i. case: eqP => [->|]; rewrite ?andbT // ?andbF. exact/negbTE.
  - rewrite mulr_sumr big_seq [RHS]big_seq. apply: eq_bigr => i Hi. rewrite big_cons. have -> : a != i by apply: contraNneq Ha => ->. by rewrite mulrCA. }
exact: G (index_enum_uniq _). Qed.
Lemma mderiv_affine (j : 'I_d) a b : (affine_poly a b : {mpoly F[d]})^`M(j) = (a j)%:MP.
Proof.
rewrite /affine_poly mderivD mderivC addr0 linear_sum (bigD1 j) //= big1 => [|i Hi].
- have E : (U_(j) - U_(j))%MM = 0%MM :> 'X_{1..d} by apply/mnmP => k; rewrite !mnmE subnn.
  by rewrite addr0 mderivZ mderivX mnm1E eqxx scale1r E mpolyX0 alg_mpolyC.
- rewrite mderivZ mderivX mnm1E. case: eqP => [E|_]; last by rewrite scale0r scaler0. by move: Hi; rewrite E eqxx. Qed.

(** the derivatives of a Bernstein polynomial in barycentric directions *)
Hypothesis F0 : forall m : nat, m.+1%:R != 0 :> F.
Lemma factn0 m : m`!%:R != 0 :> F.
Proof. have := fact_gt0 m. by case: (m`!) => // k _; apply: F0. Qed.
Variables (a : 'I_d.+1 -> 'I_d -> F) (b : 'I_d.+1 -> F).
Let lam i := affine_poly (a i) (b i).
Variable ks : seq nat.
Let n := sumn ks.
Definition coef (e : 'I_d.+1 -> nat) : F := n`!%:R / \prod_i (e i)`!%:R.
Definition G (al : 'I_d.+1 -> nat) : {mpoly F[d]} :=
  if [forall i, (al i <= nth 0%N ks i)%N] then coef (fun i => nth 0%N ks i - al i)%N *: \prod_i lam i ^+ (nth 0%N ks i - al i) else 0.
Definition bump (al : 'I_d.+1 -> nat) (i : 'I_d.+1) : 'I_d.+1 -> nat := fun k => (al k + (k == i))%N.
Lemma G_deriv j al : (G al)^`M(j) = \sum_i a i j *: G (bump al i).
Proof.
rewrite /G. case: ifPn => [/forallP Hal|/forallPn [i Hi]]; last first.
{ rewrite mderiv0 big1 // => k _. case: ifP => [/forallP /(_ i)|_]; last by rewrite scaler0. rewrite /bump => H. by move: Hi; rewrite (leq_trans _ H) // leq_addr. }
rewrite mderivZ mderiv_prod scaler_sumr. apply: eq_bigr => i _. rewrite mderiv_exp mderiv_affine.
case: (posnP (nth 0%N ks i - al i)) => [E|Hpos].
{ rewrite E scale0r mul0r scaler0. case: ifP => [/forallP /(_ i)|_]; last by rewrite scaler0. rewrite /bump eqxx addn1 => H. by move: E; move/eqP; rewrite subn_eq0 leqNgt H. }
have -> : [forall k, (bump al i k <= nth 0%N ks k)%N].
{ apply/forallP => k. rewrite /bump. case: eqP => [->|_]; last by rewrite addn0 Hal. by rewrite addn1 -subn_gt0. }
have Ek k : k != i -> (nth 0%N ks k - bump al i k)%N = (nth 0%N ks k - al k)%N by move=> /negbTE Hk; rewrite /bump Hk addn0.
have Ei : (nth 0%N ks i - bump al i i)%N = (nth 0%N ks i - al i).-1 by rewrite /bump eqxx addn1 subnS.
have EC : coef (fun k => nth 0%N ks k - bump al i k)%N = (nth 0%N ks i - al i)%:R * coef (fun k => nth 0%N ks k - al k)%N.
{ rewrite /coef (bigD1 i) //= [in RHS](bigD1 i) //= Ei (eq_bigr (fun k : 'I_d.+1 => (nth 0%N ks k - al k)`!%:R)) => [|k Hk]; last by rewrite Ek.
  move: Hpos. set e := (nth 0%N ks i - al i)%N. case: e => [//|e _]. rewrite /= factS natrM. set Q := \prod_(_ | _) _.
  have HQ : Q != 0. { apply/prodf_neq0 => k _. exact: factn0. }
  rewrite mulrCA. congr (_ * _). rewrite !invfM !mulrA divff ?mul1r //. }
rewrite EC [in RHS](bigD1 i) //= Ei [in RHS](eq_bigr (fun k : 'I_d.+1 => lam k ^+ (nth 0%N ks k - al k))) => [|k Hk]; last by rewrite Ek.
move: (coef _) (\prod_(_ | _) _) (lam i ^+ _) => C P L. set N := (_)%:R. move: N (a i j) => N A. rewrite -!mul_mpolyC mpolyCM.
exact: (@ring_shuffle [comRingType of {mpoly F[d]}] C%:MP N%:MP L A%:MP P). Qed.

Lemma G_ext al al' : (forall i, al i = al' i) -> G al = G al'.
Proof.
move=> E. rewrite /G /coef. have -> : [forall i, (al i <= nth 0%N ks i)%N] = [forall i, (al' i <= nth 0%N ks i)%N] by apply: eq_forallb => i; rewrite E.
case: ifP => // _. congr (_ / _ *: _); apply: eq_bigr => i _; by rewrite E. Qed.
(** contracting the tensor of barycentric derivatives *)
Variables (R : 'M[F]_(d.+1)) (v : 'I_d -> F) (kap : F).
Hypothesis HR : forall i (j : 'I_d), R i (widen_ord (leqnSn d) j) = a i j.
Definition cnt (ds : seq nat) : 'I_d.+1 -> nat := fun i => count_mem (i : nat) ds.
Definition Inv (r : nat) (m : 'X_{1..d}) (T : seq nat -> F) : Prop :=
  forall ds, size ds = r -> all (fun i => i < d.+1)%N ds -> kap * T ds = ((G (cnt ds))^`M[m]).@[v].
Lemma Inv_contract r m T j : Inv r.+1 m T -> Inv r (m + U_(j))%MM (contract R (widen_ord (leqnSn d) j) T).
Proof.
move=> H ds Hs Hd. rewrite /contract addmC mderivmDm mderivmU1m G_deriv !linear_sum mulr_sumr. apply: eq_bigr => i _.
rewrite HR mulrCA H ?size_rcons ?Hs //; last by rewrite all_rcons Hd andbT ltn_ord.
rewrite linearZ /= mevalZ. congr (_ * _.@[_]). congr (_^`M[_]). apply: G_ext => k. rewrite /cnt /bump -cats1 count_cat /= addn0 eq_sym. by []. Qed.
Lemma Inv_iter r m T j k : Inv (k + r) m T -> Inv r (m + (U_(j) *+ k))%MM (iter k (contract R (widen_ord (leqnSn d) j)) T).
Proof.
elim: k r T m => [|k IH] r T m H; first by rewrite mulm0n addm0. have -> : (m + U_(j) *+ k.+1 = m + U_(j) *+ k + U_(j))%MM by apply/mnmP => i; rewrite !mnmDE !mulmnE; move: (U_(j)%MM i) (m i) => u w; nia.
rewrite iterS. apply: Inv_contract. apply: IH. by rewrite addnS. Qed.
Lemma Inv_foldl (al : seq nat) js r m T : Inv (sumn [seq nth 0%N al (nat_of_ord j) | j <- js] + r) m T ->
  Inv r (m + \sum_(j <- js) (U_(j) *+ nth 0%N al (nat_of_ord j)))%MM
    (foldl (fun T j => iter (nth 0%N al (nat_of_ord j)) (contract R j) T) T [seq widen_ord (leqnSn d) j | j <- js]).
Proof.
elim: js r m T => [|j js IH] r m T; first by rewrite big_nil addm0. rewrite big_cons /= -addnA addmA => H. apply: IH. exact: Inv_iter H. Qed.

(** the entries before contraction *)
Variable bs : seq F.
Hypothesis Hks : size ks = d.+1.
Hypothesis Hbs : size bs = d.+1.
Hypothesis Hlam : forall i : 'I_d.+1, (lam i).@[v] = nth 0 bs i.
Lemma Inv_start order : kap = (if order == n then n`!%:R else 1) -> Inv order 0%MM (fun ds => bernstein_db bs ks (alpha_of d.+1 ds)).
Proof.
move=> Hk ds Hs Hd. rewrite mderivm0m.
have Sal : size (alpha_of d.+1 ds) = d.+1 by rewrite size_map size_iota.
have Nal (i : 'I_d.+1) : nth 0%N (alpha_of d.+1 ds) i = cnt ds i by rewrite (nth_map 0%N) ?size_iota ?ltn_ord // nth_iota ?ltn_ord.
have Sz : size (zip ks (alpha_of d.+1 ds)) = d.+1 by rewrite size_zip Hks Sal minnn.
have Nz (i : 'I_d.+1) : nth (0%N, 0%N) (zip ks (alpha_of d.+1 ds)) i = (nth 0%N ks i, cnt ds i) by rewrite nth_zip ?Hks ?Sal // Nal.
rewrite /bernstein_db /G. 
have -> : has (fun ka => (ka.1 < ka.2)%N) (zip ks (alpha_of d.+1 ds)) = ~~ [forall i : 'I_d.+1, (cnt ds i <= nth 0%N ks i)%N].
{ apply/idP/idP.
  - case/(has_nthP (0%N, 0%N)) => i. rewrite Sz => Hi. rewrite (Nz (Ordinal Hi)) /= => H. apply/forallPn. exists (Ordinal Hi). by rewrite -ltnNge.
  - case/forallPn => i. rewrite -ltnNge => H. apply/(has_nthP (0%N, 0%N)). exists i; first by rewrite Sz. by rewrite Nz. }
case: (boolP [forall i, _]) => [/forallP Hle|_] /=; last by rewrite meval0 mulr0.
set ls := [seq _ | ka <- _]. have Sl : size ls = d.+1 by rewrite size_map.
have Nl (i : 'I_d.+1) : nth 0%N ls i = (nth 0%N ks i - cnt ds i)%N by rewrite (nth_map (0%N, 0%N)) ?Sz // Nz.
have Esum : (sumn ls + order = n)%N.
{ rewrite (sumn_nth Sl) /n (sumn_nth Hks) -Hs -(count_total Hd) -big_split /=. apply: eq_bigr => i _. by rewrite Nl subnK. }
rewrite mevalZ. have -> : (\prod_(i < d.+1) lam i ^+ (nth 0%N ks i - cnt ds i)).@[v] = \prod_(bl <- zip bs ls) bl.1 ^+ bl.2.
{ rewrite rmorph_prod (big_nth (0, 0%N)) size_zip Hbs Sl minnn big_mkord. apply: eq_bigr => i _. by rewrite rmorphX /= Hlam nth_zip ?Hbs ?Sl //= Nl. }
have EP : \prod_(i < d.+1) (nth 0%N ks i - cnt ds i)`!%:R = (\prod_(k <- ls) k`!)%N%:R :> F.
{ rewrite (big_nth 0%N) Sl big_mkord natr_prod. apply: eq_bigr => i _. by rewrite Nl. }
have HP : (\prod_(k <- ls) k`!)%N%:R != 0 :> F. { rewrite -EP. apply/prodf_neq0 => k _. exact: factn0. }
case: ifP => [Hz|Hz].
- have Z i : nth 0%N ls i = 0%N. { case: (ltnP i (size ls)) => Hi; last by rewrite nth_default. by move/(all_nthP 0%N): Hz => /(_ i Hi) /eqP. }
  have S0 : sumn ls = 0%N by rewrite (sumn_nth Sl) big1 // => i _; rewrite Z. move: Esum. rewrite S0 add0n => Eo. rewrite Hk Eo eqxx /coef EP.
  have -> : (\prod_(k <- ls) k`!)%N = 1%N by rewrite (big_nth 0%N) big1 // => i _; rewrite Z. rewrite divr1. congr (_ * _).
  rewrite (big_nth (0, 0%N)) big1_seq // => i /andP [_]. rewrite mem_index_iota => /andP [_ Hi].
  move: Hi. rewrite size_zip Hbs Sl minnn => Hi. by rewrite nth_zip ?Hbs ?Sl //= Z expr0.
- have S0 : (0 < sumn ls)%N.
  { rewrite lt0n. apply/eqP => E0. move/negP: Hz; apply. clear -E0. elim: ls E0 => //= x l IH /eqP. by rewrite addn_eq0 => /andP [/eqP -> /eqP /IH]. }
  have -> : kap = 1. { rewrite Hk. case: eqP => // Eo. lia. }
  rewrite mul1r. congr (_ * _). rewrite fold_div /coef EP. apply: (mulIf HP). rewrite divfK // -natrM divnK //. apply: dvdn_trans (prod_fact_dvd ls) _. apply: fact_dvd. by apply: leq_trans (leq_addr order _) _; rewrite Esum.
Qed.
End Der.
