(** Functions of several variables that are polynomials of bounded degree:
    closure under the operations the elements use. *)
Set Warnings "-notation-overridden,-ambiguous-paths".
From mathcomp Require Import all_ssreflect all_algebra zify.
From Verif Require Import ModelDual SpecDual SpecPoly ProofsSpace.
Set Implicit Arguments. Unset Strict Implicit. Unset Printing Implicit Defensive.
Import GRing.Theory.
Local Open Scope ring_scope.

Section Clo.
Variable F : fieldType.
Implicit Types (f g h : seq F -> F) (x : seq F).

Lemma is_poly_ext sd k f g : (forall x, size x = sd -> f x = g x) -> is_poly sd k f -> is_poly sd k g.
Proof. move=> H [cf Hf]. exists cf => x Hx. by rewrite -H ?Hf. Qed.
Lemma is_poly_pval sd k (cf : seq nat -> F) : is_poly sd k (pval sd k cf).
Proof. by exists cf. Qed.
Lemma is_poly_mono sd k a : size a = sd -> (sumn a <= k)%N -> is_poly sd k (@mono F a).
Proof.
move=> Ha Hk. exists (fun b => (b == a)%:R) => x _. rewrite /pval.
have Hm : a \in exps sd k by rewrite exps_mem Ha eqxx.
rewrite (bigD1_seq a) ?exps_uniq //= eqxx mul1r big1 ?addr0 // => b /negbTE ->. by rewrite mul0r.
Qed.
Lemma is_poly_add sd k f g : is_poly sd k f -> is_poly sd k g -> is_poly sd k (fun x => f x + g x).
Proof.
move=> [cf Hf] [cg Hg]. exists (fun a => cf a + cg a) => x Hx. rewrite Hf // Hg // /pval -big_split. apply: eq_bigr => a _. by rewrite /= mulrDl.
Qed.
Lemma is_poly_scale sd k t f : is_poly sd k f -> is_poly sd k (fun x => t * f x).
Proof. move=> [cf Hf]. exists (fun a => t * cf a) => x Hx. rewrite Hf // /pval mulr_sumr. apply: eq_bigr => a _. by rewrite mulrA. Qed.
Lemma is_poly0 sd k : is_poly sd k (fun _ => 0 : F).
Proof. exists (fun _ => 0) => x _. rewrite /pval big1 // => a _. by rewrite mul0r. Qed.
Lemma is_poly_sum sd k (I : eqType) (r : seq I) (f : I -> seq F -> F) : (forall i, i \in r -> is_poly sd k (f i)) -> is_poly sd k (fun x => \sum_(i <- r) f i x).
Proof.
elim: r => [|i r IH] H; first by apply: is_poly_ext (is_poly0 sd k) => x _; rewrite big_nil.
apply: (@is_poly_ext _ _ (fun x => f i x + \sum_(j <- r) f j x)) => [x _|]; first by rewrite big_cons.
apply: is_poly_add; first by apply: H; rewrite inE eqxx. apply: IH => j Hj. apply: H. by rewrite inE Hj orbT.
Qed.
Lemma is_poly_sumo sd k n (f : nat -> seq F -> F) : (forall i, (i < n)%N -> is_poly sd k (f i)) -> is_poly sd k (fun x => \sum_(i < n) f i x).
Proof.
move=> H. apply: (@is_poly_ext _ _ (fun x => \sum_(i <- iota 0 n) f i x)) => [x _|].
- by rewrite -(big_mkord xpredT (fun i => f i x)) /index_iota subn0.
- apply: is_poly_sum => i. rewrite mem_iota /=. exact: H.
Qed.
Lemma is_polyB sd k f g : is_poly sd k f -> is_poly sd k g -> is_poly sd k (fun x => f x - g x).
Proof.
move=> Hf Hg. apply: (@is_poly_ext _ _ (fun x => f x + (-1) * g x)) => [x _|]; first by rewrite mulN1r.
exact: is_poly_add Hf (is_poly_scale _ Hg).
Qed.
Lemma mono_const sd x : mono (nseq sd 0%N) x = 1 :> F.
Proof. rewrite /mono big1 // => i _. by rewrite nth_nseq if_same expr0. Qed.
Lemma is_poly_const sd k t : is_poly sd k (fun _ => t : F).
Proof.
apply: (@is_poly_ext _ _ (fun x => t * mono (nseq sd 0%N) x)) => [x _|]; first by rewrite mono_const mulr1.
apply: is_poly_scale. apply: is_poly_mono; by rewrite ?size_nseq ?sumn_nseq ?mul0n.
Qed.
Lemma nth_sumn (a : seq nat) i : (nth 0%N a i <= sumn a)%N.
Proof. elim: a i => [|b a IH] [|i] //=; first exact: leq_addr. exact: leq_trans (IH i) (leq_addl _ _). Qed.
Lemma sumn_set_nth a i v : (i < size a)%N -> (sumn (set_nth 0 a i v) = sumn a - nth 0 a i + v)%N.
Proof.
elim: a i => [|b a IH] [|i] //= Hi; first by lia. rewrite IH //. have := nth_sumn a i. lia.
Qed.
Lemma mono_set_nth a i v x : (i < size a)%N -> mono (set_nth 0%N a i v) x = nth 0 x i ^+ v * mono (set_nth 0%N a i 0%N) x :> F.
Proof.
move=> Hi. rewrite /mono !size_set_nth (maxn_idPr Hi). rewrite (bigD1 (Ordinal Hi)) //= nth_set_nth /= eqxx. congr (_ * _).
rewrite [RHS](bigD1 (Ordinal Hi)) //= nth_set_nth /= eqxx expr0 mul1r. apply: eq_bigr => j Hj.
have E : (j == i :> nat) = false by apply/eqP => Ek; case/eqP: Hj; exact/val_inj. by rewrite !nth_set_nth /= E.
Qed.
Lemma is_poly_coord sd k i : (0 < k)%N -> is_poly sd k (fun x => nth 0 x i : F).
Proof.
move=> Hk. case: (ltnP i sd) => Hi.
- apply: (@is_poly_ext _ _ (mono (set_nth 0%N (nseq sd 0%N) i 1%N))) => [x _|].
  + rewrite mono_set_nth ?size_nseq // expr1. set y := mono _ _. have -> : y = 1; last by rewrite mulr1.
    rewrite -(mono_const sd x). congr (mono _ x). apply: (@eq_from_nth _ 0%N); rewrite size_set_nth size_nseq (maxn_idPr Hi) // => j Hj.
    rewrite nth_set_nth /= !nth_nseq. by case: eqP => // _; rewrite if_same.
  + apply: is_poly_mono; rewrite ?size_set_nth ?size_nseq ?(maxn_idPr Hi) // sumn_set_nth ?size_nseq // sumn_nseq nth_nseq Hi. by lia.
- apply: is_poly_ext (is_poly0 sd k) => x Hx. by rewrite nth_default // Hx.
Qed.
(** products *)
Definition madd (a b : seq nat) := mkseq (fun i => (nth 0 a i + nth 0 b i)%N) (size a).
Lemma mono_madd a b x : size b = size a -> mono (madd a b) x = mono a x * mono b x :> F.
Proof.
move=> Hb. rewrite /mono size_mkseq Hb -big_split. apply: eq_bigr => i _. by rewrite nth_mkseq // exprD.
Qed.
Lemma sumn_madd a b : size b = size a -> (sumn (madd a b) = sumn a + sumn b)%N.
Proof.
have Es c : sumn c = (\sum_(i < size c) nth 0 c i)%N by rewrite sumnE (big_nth 0%N) big_mkord.
move=> Hb. rewrite !Es size_mkseq Hb -big_split.
apply: eq_bigr => i _. by rewrite nth_mkseq.
Qed.
Lemma is_poly_mul sd k l f g : is_poly sd k f -> is_poly sd l g -> is_poly sd (k + l) (fun x => f x * g x).
Proof.
move=> [cf Hf] [cg Hg]. apply: (@is_poly_ext _ _ (fun x => \sum_(a <- exps sd k) \sum_(b <- exps sd l) cf a * cg b * mono (madd a b) x)) => [x Hx|].
- rewrite Hf // Hg // /pval mulr_suml. apply: eq_big_seq => a Ha. rewrite mulr_sumr. apply: eq_big_seq => b Hb.
  rewrite !exps_mem in Ha Hb. case/andP: Ha => /eqP Ha _. case/andP: Hb => /eqP Hb _. by rewrite mono_madd ?Ha ?Hb // mulrACA.
- apply: is_poly_sum => a Ha. apply: is_poly_sum => b Hb. rewrite !exps_mem in Ha Hb. case/andP: Ha => /eqP Ha Ha'. case/andP: Hb => /eqP Hb Hb'.
  apply: is_poly_scale. apply: is_poly_mono; first by rewrite size_mkseq. by rewrite sumn_madd ?Ha ?Hb // leq_add.
Qed.
Lemma is_poly_exp sd k f n : is_poly sd k f -> is_poly sd (n * k) (fun x => f x ^+ n).
Proof.
move=> Hf. elim: n => [|n IH]; first by apply: is_poly_ext (is_poly_const sd _ 1) => x _; rewrite expr0.
rewrite mulSn. apply: is_poly_ext (is_poly_mul Hf IH) => x _. by rewrite exprS.
Qed.
Lemma is_poly_prod sd (r : seq nat) (e : nat -> nat) (f : nat -> seq F -> F) : (forall i, i \in r -> is_poly sd (e i) (f i)) ->
  is_poly sd (\sum_(i <- r) e i) (fun x => \prod_(i <- r) f i x).
Proof.
elim: r => [|i r IH] H; first by apply: is_poly_ext (is_poly_const sd _ 1) => x _; rewrite big_nil.
rewrite big_cons. apply: (@is_poly_ext _ _ (fun x => f i x * \prod_(j <- r) f j x)) => [x _|]; first by rewrite big_cons.
apply: is_poly_mul; first by apply: H; rewrite inE eqxx. apply: IH => j Hj. apply: H. by rewrite inE Hj orbT.
Qed.
Lemma is_poly_le sd k l f : (k <= l)%N -> is_poly sd k f -> is_poly sd l f.
Proof.
move=> Hk [cf Hf]. apply: (@is_poly_ext _ _ (pval sd k cf)) => [x Hx|]; first by rewrite Hf.
apply: is_poly_sum => a. rewrite exps_mem => /andP [/eqP Ha Ha']. apply: is_poly_scale. apply: is_poly_mono => //. exact: leq_trans Hk.
Qed.
(** substitution of polynomials of degree one *)
Lemma is_poly_comp sd sd' k f (h : seq F -> seq F) : is_poly sd k f -> (forall y, size y = sd' -> size (h y) = sd) ->
  (forall i, (i < sd)%N -> is_poly sd' 1 (fun y => nth 0 (h y) i)) -> is_poly sd' k (fun y => f (h y)).
Proof.
move=> [cf Hf] Hs Hh. apply: (@is_poly_ext _ _ (fun y => pval sd k cf (h y))) => [y Hy|]; first by rewrite Hf ?Hs.
apply: is_poly_sum => a. rewrite exps_mem => /andP [/eqP Ha Ha']. apply: is_poly_scale. apply: (is_poly_le Ha').
have -> : sumn a = (\sum_(i <- iota 0 sd) nth 0 a i * 1)%N.
{ rewrite sumnE (big_nth 0%N) Ha /index_iota subn0. apply: eq_bigr => i _. by rewrite muln1. }
apply: (@is_poly_ext _ _ (fun y => \prod_(i <- iota 0 sd) nth 0 (h y) i ^+ nth 0%N a i)) => [y _|].
- by rewrite /mono Ha -(big_mkord xpredT (fun i => nth 0 (h y) i ^+ nth 0%N a i)) /index_iota subn0.
- apply: is_poly_prod => i. rewrite mem_iota /= => Hi. exact: is_poly_exp (Hh i Hi).
Qed.
(** a polynomial that vanishes on x_i = o is (x_i - o) times a polynomial of
    one degree less *)
Lemma is_poly_div sd k f i o : (i < sd)%N -> is_poly sd k f -> (forall x, size x = sd -> nth 0 x i = o -> f x = 0) ->
  exists g, [/\ is_poly sd k.-1 g, k = 0%N -> forall x, size x = sd -> g x = 0 & forall x, size x = sd -> f x = (nth 0 x i - o) * g x].
Proof.
move=> Hi [cf Hf] H0.
pose g x := \sum_(a <- exps sd k) cf a * \sum_(t <- iota 0 (nth 0%N a i)) o ^+ t * mono (set_nth 0%N a i ((nth 0%N a i).-1 - t)%N) x : F.
exists g. split.
- apply: is_poly_sum => a. rewrite exps_mem => /andP [/eqP Ha Ha']. apply: is_poly_scale. apply: is_poly_sum => t. rewrite mem_iota /= => Ht.
  apply: is_poly_scale. apply: is_poly_mono; first by rewrite size_set_nth Ha (maxn_idPr Hi).
  rewrite sumn_set_nth ?Ha //. have := nth_sumn a i. clear -Ht Ha'. lia.
- move=> Hk x Hx. rewrite /g big1_seq // => a /andP [_]. rewrite exps_mem Hk => /andP [/eqP Ha]. rewrite leqn0 => /eqP Ha'.
  have -> : nth 0%N a i = 0%N by apply/eqP; rewrite -leqn0; apply: (leq_trans (nth_sumn a i)); rewrite Ha'.
  by rewrite big_nil mulr0.
- move=> x Hx. pose x0 := set_nth 0 x i o. have S0 : size x0 = sd by rewrite size_set_nth Hx (maxn_idPr Hi).
  have E0 : f x0 = 0 by apply: H0 => //; rewrite nth_set_nth /= eqxx.
  have -> : f x = f x - f x0 by rewrite E0 subr0.
  rewrite !Hf // /pval -sumrB /g mulr_sumr. apply: eq_big_seq => a. rewrite exps_mem => /andP [/eqP Ha Ha'].
  rewrite -mulrBr mulrCA. congr (_ * _). rewrite -Ha in Hi.
  have Em (y : seq F) : mono a y = nth 0 y i ^+ nth 0%N a i * mono (set_nth 0%N a i 0%N) y.
  { rewrite -(mono_set_nth (nth 0%N a i) y Hi). congr (mono _ y). apply: (@eq_from_nth _ 0%N) => [|j _]; first by rewrite size_set_nth (maxn_idPr Hi). rewrite nth_set_nth /=. by case: eqP => [->|]. }
  rewrite !Em nth_set_nth /= eqxx.
  have -> : mono (set_nth 0%N a i 0%N) x0 = mono (set_nth 0%N a i 0%N) x.
  { rewrite /mono. apply: eq_bigr => j _. rewrite /x0 !nth_set_nth /=. case: eqP => [_|//]. by rewrite !expr0. }
  rewrite -mulrBl subrXX -mulrA. congr (_ * _).
  transitivity (\sum_(t < nth 0%N a i) o ^+ t * mono (set_nth 0%N a i ((nth 0%N a i).-1 - t)%N) x).
  + rewrite mulr_suml. apply: eq_bigr => t _. rewrite (mono_set_nth (_ - t)%N x Hi). rewrite [RHS]mulrA. by congr (_ * _); rewrite mulrC.
  + by rewrite -(big_mkord xpredT (fun t => o ^+ t * mono (set_nth 0%N a i ((nth 0%N a i).-1 - t)%N) x)) /index_iota subn0.
Qed.
(** polynomials that agree on a simplicial grid agree *)
Lemma is_poly_grid sd k f (g : nat -> F) : (1 <= sd <= 3)%N -> injective g -> is_poly sd k f ->
  (forall idx, size idx = sd -> (sumn idx <= k)%N -> f [seq g i | i <- idx] = 0) -> forall x, size x = sd -> f x = 0.
Proof.
move=> Hd Hg [cf Hf] H x Hx. rewrite Hf // /pval big1_seq // => a /andP [_ Ha]. rewrite (grid_zero Hd Hg _ Ha) ?mul0r // => idx Hi Hs.
by rewrite -Hf ?H // size_map.
Qed.
End Clo.
