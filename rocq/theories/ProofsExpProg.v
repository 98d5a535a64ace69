(** The tabulation programs run to completion and compute homogenised
    Jacobi polynomials. *)
Set Warnings "-notation-overridden,-ambiguous-paths".
From mathcomp Require Import all_ssreflect all_algebra zify.
From Verif Require Base.
From Verif Require Import FieldTac RingTac ModelJacobi SpecJacobi ProofsJacobi ProofsOrtho ModelExpansion ProofsExpIdx.
Set Implicit Arguments. Unset Strict Implicit. Unset Printing Implicit Defensive.
Import GRing.Theory.
Local Open Scope ring_scope.

(** *** Loops and stores *)
Lemma loop_inv (S : Type) (Inv : nat -> S -> Prop) (body : nat -> S -> result S) lo hi s :
  (lo <= hi)%N -> Inv lo s ->
  (forall i s, (lo <= i < hi)%N -> Inv i s -> exists s', body i s = Ok s' /\ Inv i.+1 s') ->
  exists s', loop (rng lo hi) body s = Ok s' /\ Inv hi s'.
Proof.
move=> Hle H0 Hs. rewrite /loop /rng.
have K m : (m <= hi - lo)%N -> exists s', foldl (fun r i => bind r (body i)) (Ok s) (seq.iota lo m) = Ok s' /\ Inv (lo + m)%N s'.
{ elim: m => [|m IH] Hm; first by exists s; rewrite addn0.
  have [|s' [E HI]] := IH; first exact: ltnW.
  rewrite -addn1 iotaD foldl_cat E /=.
  have [|s'' [E' HI']] := Hs (lo + m)%N s' _ HI; first by lia.
  exists s''. by rewrite addn1 addnS. }
have [s' [E HI]] := K _ (leqnn _). exists s'. by rewrite subnKC in HI.
Qed.

Lemma loop_post (S : Type) (Inv : nat -> S -> Prop) (Q : S -> Prop) (body : nat -> S -> result S) lo hi s :
  (lo <= hi)%N -> Inv lo s ->
  (forall i s, (lo <= i < hi)%N -> Inv i s -> exists s', body i s = Ok s' /\ Inv i.+1 s') ->
  (forall s, Inv hi s -> Q s) ->
  exists s', loop (rng lo hi) body s = Ok s' /\ Q s'.
Proof. move=> H1 H2 H3 H4. have [s' [E HI]] := loop_inv H1 H2 H3. exists s'; split=> //. exact: H4. Qed.

Section Sat.
Variables (A : Type) (K : eqType) (idx : K -> nat) (valid : pred K) (N : nat).
Hypothesis idx_lt : forall k, valid k -> (idx k < N)%N.
Hypothesis idx_inj : forall k k', valid k -> valid k' -> idx k = idx k' -> k = k'.
Definition sat (W : pred K) (V : K -> A) (s : store A) : Prop :=
  size s = N /\ forall k, valid k -> nth None s (idx k) = if W k then Some (V k) else None.
Lemma sat_get W V s k : sat W V s -> valid k -> W k -> sget s (idx k) = Ok (V k).
Proof. move=> [Hs H] Hk HW. by rewrite /sget Hs idx_lt // H // HW. Qed.
Lemma sat_set W V s k v (W' : pred K) (V' : K -> A) : sat W V s -> valid k -> W' k -> V' k = v ->
  (forall k', valid k' -> k' != k -> W' k' = W k' /\ (W' k' -> V' k' = V k')) ->
  exists s', sset s (idx k) v = Ok s' /\ sat W' V' s'.
Proof.
move=> [Hs H] Hk HW HV Hx. rewrite /sset Hs idx_lt //. eexists; split; first by [].
split; first by rewrite size_set_nth Hs; have := idx_lt Hk; lia.
move=> k' Hk'. rewrite nth_set_nth /=. case: (altP (k' =P k)) => [->|Hne]; first by rewrite eqxx HW HV.
have [E1 E2] := Hx k' Hk' Hne.
case: eqP => [Ei|_]; first by case/eqP: Hne; exact: idx_inj Ei.
rewrite H // -E1. case: ifP => // HW'. by rewrite E2.
Qed.
Lemma sat_ext W V s W' V' : sat W V s ->
  (forall k, valid k -> W' k = W k /\ (W k -> V' k = V k)) -> sat W' V' s.
Proof.
move=> [Hs H] Hx. split=> // k Hk. have [E1 E2] := Hx k Hk. rewrite E1 H //. case: ifP => // HW. by rewrite E2.
Qed.
Lemma sat_init (v : A) W V (k0 : K) : valid k0 -> idx k0 = 0%N -> V k0 = v -> (forall k, valid k -> W k = (k == k0)) ->
  exists s, sset (nseq N None) 0 v = Ok s /\ sat W V s.
Proof.
move=> Hk0 E0 EV HW. have HN : (0 < N)%N by have := idx_lt Hk0; rewrite E0.
rewrite /sset size_nseq HN. eexists; split; first by [].
split; first by rewrite size_set_nth size_nseq; lia.
move=> k Hk. rewrite nth_set_nth /= HW //. case: (altP (k =P k0)) => [->|Hne]; first by rewrite E0 eqxx EV.
case: eqP => [E|_]; first by case/eqP: Hne; apply: idx_inj; rewrite // E E0.
by rewrite nth_nseq; case: ifP.
Qed.
End Sat.

(** *** Homogenised polynomials *)
Section Hom.
Variables (F : fieldType) (A : comRingType) (emb : {rmorphism F -> A}).
Hypothesis F0 : char_zero F.
Add Field FF : (mc_field_theory F).
Add Ring RR : (mc_ring_theory A).
Implicit Types (p q : {poly F}) (u w : A).
(** w^n p(u/w) *)
Definition hom (n : nat) p u w : A := \sum_(j < n.+1) emb p`_j * u ^+ j * w ^+ (n - j).
Lemma homD n p q u w : hom n (p + q) u w = hom n p u w + hom n q u w.
Proof. rewrite /hom -big_split. apply: eq_bigr => j _. by rewrite coefD rmorphD !mulrDl. Qed.
Lemma homZ n c p u w : hom n (c *: p) u w = emb c * hom n p u w.
Proof. rewrite /hom mulr_sumr. apply: eq_bigr => j _. by rewrite coefZ rmorphM !mulrA. Qed.
Lemma homN n p u w : hom n (- p) u w = - hom n p u w.
Proof. by rewrite -scaleN1r homZ rmorphN1 mulN1r. Qed.
Lemma homX n p u w : hom n.+1 ('X * p) u w = u * hom n p u w.
Proof.
rewrite /hom big_ord_recl coefXM /= rmorph0 !mul0r add0r mulr_sumr. apply: eq_bigr => j _.
rewrite coefXM /= exprS subSS. by rewrite -!mulrA mulrCA.
Qed.
Lemma homW n p u w : (size p <= n.+1)%N -> hom n.+1 p u w = w * hom n p u w.
Proof.
move=> H. rewrite /hom big_ord_recr /= [p`_n.+1]nth_default // rmorph0 !mul0r addr0 mulr_sumr. apply: eq_bigr => j _.
rewrite subSn -1?ltnS // exprS. by rewrite mulrCA.
Qed.
Lemma hom_scale n p u w : (size p <= n.+1)%N -> hom n p (w * u) w = w ^+ n * (map_poly emb p).[u].
Proof.
move=> H. have Hs : (size (map_poly emb p) <= n.+1)%N by rewrite size_map_poly.
rewrite (horner_coef_wide _ Hs) /hom mulr_sumr. apply: eq_bigr => j _.
rewrite coef_map exprMn /=. have -> : w ^+ n = w ^+ j * w ^+ (n - j) by rewrite -exprD subnKC // -ltnS.
move: (emb _) (w ^+ j) (u ^+ j) (w ^+ (n - j)) => a b c d.
cring.
Qed.
(** P_n^(a,0) homogenised *)
Definition hjac (a n : nat) u w : A := hom n (jacobi_poly a%:R 0 n) u w.
Lemma hjac0 a u w : hjac a 0 u w = 1.
Proof. by rewrite /hjac jacobi_poly0 /hom big_ord1 coefC /= rmorph1 !mulr1. Qed.
Lemma hjac1 a u w : hjac a 1 u w = emb (a%:R / 2%:R) * w + emb ((a%:R + 2%:R) / 2%:R) * u.
Proof.
rewrite /hjac jacobi1_poly // homD !homZ -['X]mulr1 homX homW ?size_poly1 //.
rewrite /hom !big_ord1 coefC /= rmorph1 !mulr1. by [].
Qed.
Lemma jrcE (a n : nat) : jrc a%:R (0 : F) n.+1 =
  (jac_a3 a%:R 0 n.+2 / jac_a1 a%:R 0 n.+2, jac_a2 a%:R 0 n.+2 / jac_a1 a%:R 0 n.+2, jac_a4 a%:R 0 n.+2 / jac_a1 a%:R 0 n.+2).
Proof.
have H1 := jal_neq0 F0 a n.+1. rewrite /= in H1.
have H2 : n.+2%:R != 0 :> F by apply: F0.
have H3 : (n.+2 + a)%:R != 0 :> F by apply: F0.
have H4 : (n.*2.+2 + a)%:R != 0 :> F by apply: F0.
have H5 := two_neq0 F0.
move: H1. rewrite /jrc /jac_a1 /jac_a2 /jac_a3 /jac_a4. 
rewrite -muln2 ?mulrS ?natrD ?natrM ?mulrS ?natrM ?mulrS ?mulr0n in H2 H3 H4 H5 *.
move: (a%:R : F) (n%:R : F) H2 H3 H4 H5 => c d H2 H3 H4 H5 H1.
congr (_, _, _); ffield; repeat split; nz.
Qed.
Lemma hjac_rec a n u w a1 a2 a3 : jrc a%:R (0 : F) n.+1 = (a1, a2, a3) ->
  hjac a n.+2 u w = (emb a1 * u + emb a2 * w) * hjac a n.+1 u w - emb a3 * w ^+ 2 * hjac a n u w.
Proof.
rewrite jrcE => -[<- <- <-]. have H1 := jal_neq0 F0 a n.+1. rewrite /= in H1.
have E : jacobi_poly a%:R 0 n.+2 = (jac_a2 a%:R 0 n.+2 / jac_a1 a%:R 0 n.+2) *: jacobi_poly a%:R 0 n.+1
   + (jac_a3 a%:R 0 n.+2 / jac_a1 a%:R 0 n.+2) *: ('X * jacobi_poly a%:R 0 n.+1)
   - (jac_a4 a%:R 0 n.+2 / jac_a1 a%:R 0 n.+2) *: jacobi_poly (a%:R : F) 0 n.
{ apply: (can_inj (scalerK H1)). rewrite jacobi_recur // scalerBr scalerDr !scalerA ![jac_a1 _ _ _ * _]mulrC !divfK //.
  by rewrite mulrDl -!scalerAl mul1r. }
have E1 : hom n.+2 (jacobi_poly a%:R 0 n.+1) u w = w * hom n.+1 (jacobi_poly a%:R 0 n.+1) u w by rewrite homW // size_jacobi.
have E0 : hom n.+2 (jacobi_poly a%:R 0 n) u w = w * (w * hom n (jacobi_poly a%:R 0 n) u w).
{ rewrite homW ?homW //; [exact: size_jacobi|apply: leqW; exact: size_jacobi]. }
rewrite /hjac E homD homN homD !homZ homX E1 E0 expr2.
move: (hom _ _ _ _) (hom _ _ _ _) (emb _) (emb _) (emb _) => h1 h0 b1 b2 b3. cring.
Qed.
End Hom.

Section Prog.
Variables (F : fieldType) (A : comRingType) (emb : {rmorphism F -> A}) (sqrt : F -> F).
Hypothesis F0 : char_zero F.
Add Field FF2 : (mc_field_theory F).
Add Ring RR2 : (mc_ring_theory A).
Notation hj := (@hjac F A emb).
Notation half := (2%:R^-1 : F).

Lemma leg_coeffs p : (0 < p)%N -> jrc 0%:R (0 : F) p = ((2%:R * p%:R + 1) / (1 + p%:R), 0, p%:R / (1 + p%:R)).
Proof.
case: p => // p _. rewrite /jrc. have H1 := nat_neq0 F0 p. have H2 : p.+2%:R != 0 :> F by apply: F0. have H3 := two_neq0 F0.
rewrite ?mulrS ?mulr0n in H1 H2 H3 *. move: (p%:R : F) H1 H2 => d H1 H2.
congr (_, _, _); ffield; repeat split; nz.
Qed.
Lemma leg_rec p u w : (0 < p)%N ->
  hj 0 p.+1 u w = emb ((2%:R * p%:R + 1) / (1 + p%:R)) * u * hj 0 p u w - emb (p%:R / (1 + p%:R)) * w ^+ 2 * hj 0 p.-1 u w.
Proof. case: p => // p H. rewrite (hjac_rec emb F0 u w (leg_coeffs H)) /=. by rewrite rmorph0 mul0r addr0. Qed.
Lemma leg1 u w : hj 0 1 u w = u.
Proof. by rewrite hjac1 // mul0r add0r divff ?(two_neq0 F0) // rmorph0 rmorph1 mul0r mul1r add0r. Qed.
Lemma hjac1w a u w : hj a 1 u w = emb half * (emb a%:R * w + emb (a%:R + 2%:R) * u).
Proof.
rewrite hjac1 // !rmorphM /=. move: (emb half) (emb a%:R) (emb (a%:R + 2%:R)) => h c d. cring.
Qed.

(** **** Triangle *)
Notation triK := (nat * nat)%type.
Definition trii (k : triK) := tri_idx k.1 k.2.
Definition triv n (k : triK) := (k.1 + k.2 <= n)%N.
Lemma trii_lt n k : triv n k -> (trii k < tri_num n)%N. Proof. exact: tri_idx_lt. Qed.
Lemma trii_inj n (k k' : triK) : triv n k -> triv n k' -> trii k = trii k' -> k = k'.
Proof. case: k k' => [p q] [p' q'] _ _ /tri_idx_inj /= [-> ->]. by []. Qed.
Notation tsat n := (sat (A := A) trii (triv n) (tri_num n)).

Section Tri.
Variables (x y : A).
Let f1 := (1 + 2%:R * x + y) * emb half.
Let f2 := (1 - y) * emb half.
(** unscaled mode *)
Definition triV (k : triK) : A := hj 0 k.1 f1 f2 * hj (2 * k.1 + 1) k.2 y 1.
Definition triVS (k : triK) : A := triV k * emb (tri_norm sqrt k.1 k.2).
Lemma tri_p_ok n s : (0 < n)%N -> tsat n (fun k => (k.2 == 0%N) && (k.1 <= 1)%N) triV s ->
  exists s', tri_p_loop emb n f1 (f2 ^+ 2) s = Ok s' /\ tsat n (fun k => k.2 == 0%N) triV s'.
Proof.
move=> Hn Hs. 
apply: (@loop_post _ (fun i s => tsat n (fun k => (k.2 == 0%N) && (k.1 <= i)%N) triV s)).
- lia. - exact: Hs.
- move=> p t Hp Ht.
  have G k : (k.2 = 0)%N -> (k.1 <= p)%N -> sget t (trii k) = Ok (triV k).
  { move=> H2 H1. apply: (sat_get (@trii_lt n) Ht); rewrite /triv ?H2 /=; lia. }
  rewrite -[tri_idx p 0]/(trii (p, 0%N)) -[tri_idx (p - 1) 0]/(trii ((p - 1)%N, 0%N)) -[tri_idx (p + 1) 0]/(trii ((p + 1)%N, 0%N)).
  rewrite G // /= G ?leq_subr //=.
  apply: (sat_set (@trii_lt n) (@trii_inj n) Ht).
  + rewrite /triv /=; lia.
  + rewrite /=; lia.
  + rewrite /triV /= !hjac0 !mulr1 addn1 leg_rec; last lia. by rewrite subn1.
  + move=> [p' q'] /=. rewrite /triv /= => Hv Hne. split=> //. 
    have : (p', q') != ((p + 1)%N, 0%N) by []. rewrite xpair_eqE. lia.
- move=> s' Hs'. apply: (sat_ext Hs') => -[p q]; rewrite /triv /= => H. split=> //. lia.
Qed.
Lemma tri_q1_ok n s : (0 < n)%N -> tsat n (fun k => k.2 == 0%N) triV s ->
  exists s', tri_q1_loop emb n y s = Ok s' /\ tsat n (fun k => (k.2 <= 1)%N) triV s'.
Proof.
move=> Hn Hs.
apply: (@loop_post _ (fun i s => tsat n (fun k => (k.2 == 0%N) || (k.2 == 1%N) && (k.1 < i)%N) triV s)).
- lia. - apply: (sat_ext Hs) => -[p q]; rewrite /triv /= => H. split=> //. by rewrite ltn0 andbF orbF.
- move=> p t Hp Ht.
  rewrite -[tri_idx p 0]/(trii (p, 0%N)) -[tri_idx p 1]/(trii (p, 1%N)).
  rewrite (sat_get (@trii_lt n) Ht) //=; last by rewrite /triv /=; lia.
  apply: (sat_set (@trii_lt n) (@trii_inj n) Ht).
  + rewrite /triv /=; lia.
  + rewrite /=; lia.
  + rewrite /triV /= hjac0 mulr1 hjac1w mulr1 mulrC. congr (_ * (emb _ + emb _ * _) * _).
    * by rewrite natrD natrM addrC.
    * rewrite natrD natrM. rewrite -[1%:R]/(1 : F). rewrite [3%:R]mulrS -[in RHS]addrA [RHS]addrC addrC addrA. rewrite addrAC [2%:R + _]addrC. by rewrite -!addrA.
  + move=> [p' q'] /=. rewrite /triv /= => Hv Hne. split=> //. 
    have : (p', q') != (p, 1%N) by []. rewrite xpair_eqE. lia.
- move=> s' Hs'. apply: (sat_ext Hs') => -[p q]; rewrite /triv /= => H. split=> //. lia.
Qed.
Lemma tri_q_ok n s : (0 < n)%N -> tsat n (fun k => (k.2 <= 1)%N) triV s ->
  exists s', tri_q_loop emb n y s = Ok s' /\ tsat n xpredT triV s'.
Proof.
move=> Hn Hs.
apply: (@loop_post _ (fun i s => tsat n (fun k => (k.2 <= 1)%N || (k.1 < i)%N) triV s)).
- lia. - apply: (sat_ext Hs) => -[p q]; rewrite /triv /= => H. split=> //. by rewrite ltn0 orbF.
- move=> p t Hp Ht.
  apply: (@loop_post _ (fun j s => tsat n (fun k => (k.2 <= 1)%N || (k.1 < p)%N || (k.1 == p) && (k.2 <= j)%N) triV s)).
  + lia.
  + apply: (sat_ext Ht) => -[p' q']; rewrite /triv /= => H. split=> //. lia.
  + move=> q t' Hq Ht'. case Ej : (jrc _ _ _) => [[a1 a2] a3].
    rewrite -[tri_idx p q]/(trii (p, q)) -[tri_idx p (q - 1)]/(trii (p, (q - 1)%N)) -[tri_idx p (q + 1)]/(trii (p, (q + 1)%N)).
    rewrite (sat_get (@trii_lt n) Ht') //=; [|rewrite /triv /=; lia|lia].
    rewrite (sat_get (@trii_lt n) Ht') //=; [|rewrite /triv /=; lia|lia].
    apply: (sat_set (@trii_lt n) (@trii_inj n) Ht').
    * rewrite /triv /=; lia.
    * rewrite /=; lia.
    * rewrite /triV /=. case: q Hq Ej {Ht'} => [|q] Hq Ej; first by lia.
      rewrite [(q.+1 + 1)%N]addn1 subn1 /= (hjac_rec emb F0 y 1 Ej) expr1n.
      move: (hj _ _ _ _) (hj _ _ _ _) (hj _ _ _ _) => b c d. cring.
    * move=> [p' q'] /=. rewrite /triv /= => Hv Hne. split=> //. 
      have : (p', q') != (p, (q + 1)%N) by []. rewrite xpair_eqE. lia.
  + move=> t' Ht'. apply: (sat_ext Ht') => -[p' q']; rewrite /triv /= => H. split=> //. lia.
- move=> s' Hs'. apply: (sat_ext Hs') => -[p q]; rewrite /triv /= => H. split=> //. lia.
Qed.
Lemma tri_scale_ok n s : tsat n xpredT triV s ->
  exists s', tri_scale_loop emb sqrt n s = Ok s' /\ tsat n xpredT triVS s'.
Proof.
move=> Hs.
apply: (@loop_post _ (fun i s => tsat n xpredT (fun k => if (k.1 < i)%N then triVS k else triV k) s)).
- lia. - exact: Hs.
- move=> p t Hp Ht.
  apply: (@loop_post _ (fun j s => tsat n xpredT (fun k => if (k.1 < p)%N || (k.1 == p) && (k.2 < j)%N then triVS k else triV k) s)).
  + lia.
  + apply: (sat_ext Ht) => -[p' q']; rewrite /triv /= => H. split=> // _. by rewrite ltn0 andbF orbF.
  + move=> q t' Hq Ht'. rewrite -[tri_idx p q]/(trii (p, q)).
    rewrite (sat_get (@trii_lt n) Ht') //=; [|rewrite /triv /=; lia]. rewrite ltnn eqxx /=.
    apply: (sat_set (@trii_lt n) (@trii_inj n) Ht').
    * rewrite /triv /=; lia.
    * by [].
    * by rewrite /= ltnn eqxx ltnSn /= ltnn.
    * move=> [p' q'] /=. rewrite /triv /= => Hv Hne. split=> //. 
      have : (p', q') != (p, q) by []. rewrite xpair_eqE => Hne' _. 
      have -> : ((p' < p) || (p' == p) && (q' < q.+1))%N = ((p' < p) || (p' == p) && (q' < q))%N by lia. by [].
  + move=> t' Ht'. apply: (sat_ext Ht') => -[p' q']; rewrite /triv /= => H. split=> // _.
    have -> : ((p' < p) || (p' == p) && (q' < n - p + 1))%N = (p' < p.+1)%N by lia. by [].
- move=> s' Hs'. apply: (sat_ext Hs') => -[p q]; rewrite /triv /= => H. split=> // _.
  have -> : (p < n + 1)%N by lia. by [].
Qed.
End Tri.

Lemma tri_tabulate_ok (M : nat -> nat -> F) b n (pts : seq A) : (0 < n)%N ->
  let rp := ref_pts emb 2 2 M b pts in
  exists s, tri_tabulate emb sqrt M b n pts = Ok s /\ tsat n xpredT (triVS (nth 0 rp 0) (nth 0 rp 1)) s.
Proof.
move=> Hn rp. rewrite /tri_tabulate -/rp. set x := nth 0 rp 0. set y := nth 0 rp 1.
have [||||s0 [E0 H0]] := @sat_init A _ trii (triv n) (tri_num n) (@trii_lt n) (@trii_inj n)
  (1 + nth 0 pts 0 - nth 0 pts 0 + nth 0 pts 1 - nth 0 pts 1) (fun k => k == (0%N, 0%N)) (triV x y) (0%N, 0%N).
- by []. - by [].
- by rewrite /triV /= !hjac0 !addrK mulr1. - by [].
rewrite E0 /= gtn_eqF //.
rewrite -[tri_idx 1 0]/(trii (1%N, 0%N)).
have [||||s1 [E1 H1]] := @sat_set A _ trii (triv n) (tri_num n) (@trii_lt n) (@trii_inj n) _ _ s0 (1%N, 0%N)
   ((1 + 2%:R * x + y) * emb half) (fun k => (k.2 == 0%N) && (k.1 <= 1)%N) (triV x y) H0.
- by rewrite /triv /=; lia. - by [].
- by rewrite /triV /= leg1 hjac0 mulr1.
- move=> [p q] _ Hne. split=> //=. move: Hne. rewrite !xpair_eqE. lia.
rewrite E1 /=. have [s2 [E2 H2]] := tri_p_ok Hn H1. rewrite E2 /=.
have [s3 [E3 H3]] := tri_q1_ok Hn H2. rewrite E3 /=.
have [s4 [E4 H4]] := tri_q_ok Hn H3. rewrite E4 /=. exact: tri_scale_ok.
Qed.

(** **** Tetrahedron *)
Notation tetK := (nat * nat * nat)%type.
Definition teti (k : tetK) := tet_idx k.1.1 k.1.2 k.2.
Definition tetv n (k : tetK) := (k.1.1 + k.1.2 + k.2 <= n)%N.
Lemma teti_lt n k : tetv n k -> (teti k < tet_num n)%N. Proof. exact: tet_idx_lt. Qed.
Lemma teti_inj n (k k' : tetK) : tetv n k -> tetv n k' -> teti k = teti k' -> k = k'.
Proof. case: k k' => [[p q] r] [[p' q'] r'] _ _ /tet_idx_inj /= [-> [-> ->]]. by []. Qed.
Notation ssat n := (sat (A := A) teti (tetv n) (tet_num n)).

Section Tet.
Variables (x y z : A).
Let g1 := emb half * (2%:R + 2%:R * x + y + z).
Let gw := - (emb half * (y + z)).
Let g2 := (emb half * (y + z)) ^+ 2.
Let g3 := emb half * (1 + 2%:R * y + z).
Let g4 := emb half * (1 - z).
Definition tetV (k : tetK) : A := hj 0 k.1.1 g1 gw * hj (2 * k.1.1 + 1) k.1.2 g3 g4 * hj (2 * k.1.1 + 2 * k.1.2 + 2) k.2 z 1.
Definition tetVS (k : tetK) : A := tetV k * emb (tet_norm sqrt k.1.1 k.1.2 k.2).
Lemma gwE : gw ^+ 2 = g2. Proof. by rewrite /gw sqrrN. Qed.
Ltac ne3 H := move: H; rewrite !xpair_eqE /=; lia.
Lemma tet_p_ok n s : (0 < n)%N -> ssat n (fun k => (k.2 == 0%N) && (k.1.2 == 0%N) && (k.1.1 <= 1)%N) tetV s ->
  exists s', tet_p_loop emb n g1 g2 s = Ok s' /\ ssat n (fun k => (k.2 == 0%N) && (k.1.2 == 0%N)) tetV s'.
Proof.
move=> Hn Hs. 
apply: (@loop_post _ (fun i s => ssat n (fun k => (k.2 == 0%N) && (k.1.2 == 0%N) && (k.1.1 <= i)%N) tetV s)).
- lia. - exact: Hs.
- move=> p t Hp Ht.
  rewrite -[tet_idx p 0 0]/(teti (p, 0%N, 0%N)) -[tet_idx (p - 1) 0 0]/(teti ((p - 1)%N, 0%N, 0%N)) -[tet_idx (p + 1) 0 0]/(teti ((p + 1)%N, 0%N, 0%N)).
  rewrite (sat_get (@teti_lt n) Ht) //=; [|rewrite /tetv /=; lia].
  rewrite (sat_get (@teti_lt n) Ht) //=; [|rewrite /tetv /=; lia|lia].
  apply: (sat_set (@teti_lt n) (@teti_inj n) Ht).
  + rewrite /tetv /=; lia.
  + rewrite /=; lia.
  + rewrite /tetV /= !hjac0 !mulr1 [(p + 1)%N]addn1 leg_rec; last lia. by rewrite subn1 gwE [1 + p%:R]addrC.
  + move=> [[p' q'] r'] /=. rewrite /tetv /= => Hv Hne. split=> //. ne3 Hne.
- move=> s' Hs'. apply: (sat_ext Hs') => -[[p q] r]; rewrite /tetv /= => H. split=> //. lia.
Qed.
Lemma tet_q1_ok n s : (0 < n)%N -> ssat n (fun k => (k.2 == 0%N) && (k.1.2 == 0%N)) tetV s ->
  exists s', tet_q1_loop emb n y z s = Ok s' /\ ssat n (fun k => (k.2 == 0%N) && (k.1.2 <= 1)%N) tetV s'.
Proof.
move=> Hn Hs.
apply: (@loop_post _ (fun i s => ssat n (fun k => (k.2 == 0%N) && ((k.1.2 == 0%N) || (k.1.2 == 1%N) && (k.1.1 < i)%N)) tetV s)).
- lia. - apply: (sat_ext Hs) => -[[p q] r]; rewrite /tetv /= => H. split=> //. by rewrite ltn0 andbF orbF.
- move=> p t Hp Ht.
  rewrite -[tet_idx p 0 0]/(teti (p, 0%N, 0%N)) -[tet_idx p 1 0]/(teti (p, 1%N, 0%N)).
  rewrite (sat_get (@teti_lt n) Ht) //=; last by rewrite /tetv /=; lia.
  apply: (sat_set (@teti_lt n) (@teti_inj n) Ht).
  + rewrite /tetv /=; lia.
  + rewrite /=; lia.
  + rewrite /tetV /= !hjac0 !mulr1 hjac1w. congr (_ * _).
    have E2 : emb half * 2%:R = 1 by rewrite -(rmorph_nat emb 2) -rmorphM /= mulVf ?rmorph1 // two_neq0.
    rewrite natrD natrM !rmorphD !rmorphM !rmorph_nat /=.
    rewrite /g3 /g4. move: (emb half) E2 (p%:R : A) => h E2 P.
    transitivity ((h * 2%:R) * (h * 2%:R) * P * (1 + y) + (h * 2%:R) * (2%:R + 3%:R * y + z) * h);
      last by rewrite E2 !mul1r.
    cring.
  + move=> [[p' q'] r'] /=. rewrite /tetv /= => Hv Hne. split=> //. ne3 Hne.
- move=> s' Hs'. apply: (sat_ext Hs') => -[[p q] r]; rewrite /tetv /= => H. split=> //. lia.
Qed.
Lemma tet_q_ok n s : (0 < n)%N -> ssat n (fun k => (k.2 == 0%N) && (k.1.2 <= 1)%N) tetV s ->
  exists s', tet_q_loop emb n g3 g4 (g4 ^+ 2) s = Ok s' /\ ssat n (fun k => k.2 == 0%N) tetV s'.
Proof.
move=> Hn Hs.
apply: (@loop_post _ (fun i s => ssat n (fun k => (k.2 == 0%N) && ((k.1.2 <= 1)%N || (k.1.1 < i)%N)) tetV s)).
- lia. - apply: (sat_ext Hs) => -[[p q] r]; rewrite /tetv /= => H. split=> //. by rewrite ltn0 orbF.
- move=> p t Hp Ht.
  apply: (@loop_post _ (fun j s => ssat n (fun k => (k.2 == 0%N) && ((k.1.2 <= 1)%N || (k.1.1 < p)%N || (k.1.1 == p) && (k.1.2 <= j)%N)) tetV s)).
  + lia.
  + apply: (sat_ext Ht) => -[[p' q'] r']; rewrite /tetv /= => H. split=> //. lia.
  + move=> q t' Hq Ht'. case Ej : (jrc _ _ _) => [[a1 a2] a3].
    rewrite -[tet_idx p q 0]/(teti (p, q, 0%N)) -[tet_idx p (q - 1) 0]/(teti (p, (q - 1)%N, 0%N)) -[tet_idx p (q + 1) 0]/(teti (p, (q + 1)%N, 0%N)).
    rewrite (sat_get (@teti_lt n) Ht') //=; [|rewrite /tetv /=; lia|lia].
    rewrite (sat_get (@teti_lt n) Ht') //=; [|rewrite /tetv /=; lia|lia].
    apply: (sat_set (@teti_lt n) (@teti_inj n) Ht').
    * rewrite /tetv /=; lia.
    * rewrite /=; lia.
    * rewrite /tetV /=. case: q Hq Ej {Ht'} => [|q] Hq Ej; first by lia.
      rewrite [(q.+1 + 1)%N]addn1 subn1 /= (hjac_rec emb F0 g3 g4 Ej) !hjac0.
      move: (hj _ _ _ _) (hj _ _ _ _) (hj _ _ _ _) => b c d. cring.
    * move=> [[p' q'] r'] /=. rewrite /tetv /= => Hv Hne. split=> //. ne3 Hne.
  + move=> t' Ht'. apply: (sat_ext Ht') => -[[p' q'] r']; rewrite /tetv /= => H. split=> //. lia.
- move=> s' Hs'. apply: (sat_ext Hs') => -[[p q] r]; rewrite /tetv /= => H. split=> //. lia.
Qed.
Lemma tet_r1_ok n s : (0 < n)%N -> ssat n (fun k => k.2 == 0%N) tetV s ->
  exists s', tet_r1_loop emb n z s = Ok s' /\ ssat n (fun k => (k.2 <= 1)%N) tetV s'.
Proof.
move=> Hn Hs.
apply: (@loop_post _ (fun i s => ssat n (fun k => (k.2 == 0%N) || (k.2 == 1%N) && (k.1.1 < i)%N) tetV s)).
- lia. - apply: (sat_ext Hs) => -[[p q] r]; rewrite /tetv /= => H. split=> //. by rewrite ltn0 andbF orbF.
- move=> p t Hp Ht.
  apply: (@loop_post _ (fun j s => ssat n (fun k => (k.2 == 0%N) || (k.2 == 1%N) && ((k.1.1 < p)%N || (k.1.1 == p) && (k.1.2 < j)%N)) tetV s)).
  + lia.
  + apply: (sat_ext Ht) => -[[p' q'] r']; rewrite /tetv /= => H. split=> //. lia.
  + move=> q t' Hq Ht'. 
    rewrite -[tet_idx p q 0]/(teti (p, q, 0%N)) -[tet_idx p q 1]/(teti (p, q, 1%N)).
    rewrite (sat_get (@teti_lt n) Ht') //=; [|rewrite /tetv /=; lia].
    apply: (sat_set (@teti_lt n) (@teti_inj n) Ht').
    * rewrite /tetv /=; lia.
    * rewrite /=; lia.
    * rewrite /tetV /= !hjac0 !mulr1 hjac1 // mulr1. congr (_ * (emb _ + emb _ * _)).
      -- have H2 := two_neq0 F0. rewrite ?natrD ?natrM. rewrite !mulrS ?mulr0n in H2 *. move: (p%:R : F) (q%:R : F) => c d. ffield. nz.
      -- have H2 := two_neq0 F0. rewrite ?natrD ?natrM. rewrite !mulrS ?mulr0n in H2 *. move: (p%:R : F) (q%:R : F) => c d. ffield. nz.
    * move=> [[p' q'] r'] /=. rewrite /tetv /= => Hv Hne. split=> //. ne3 Hne.
  + move=> t' Ht'. apply: (sat_ext Ht') => -[[p' q'] r']; rewrite /tetv /= => H. split=> //. lia.
- move=> s' Hs'. apply: (sat_ext Hs') => -[[p q] r]; rewrite /tetv /= => H. split=> //. lia.
Qed.
Lemma tet_r_ok n s : (0 < n)%N -> ssat n (fun k => (k.2 <= 1)%N) tetV s ->
  exists s', tet_r_loop emb n z s = Ok s' /\ ssat n xpredT tetV s'.
Proof.
move=> Hn Hs.
apply: (@loop_post _ (fun i s => ssat n (fun k => (k.2 <= 1)%N || (k.1.1 < i)%N) tetV s)).
- lia. - apply: (sat_ext Hs) => -[[p q] r]; rewrite /tetv /= => H. split=> //. by rewrite ltn0 orbF.
- move=> p t Hp Ht.
  apply: (@loop_post _ (fun j s => ssat n (fun k => (k.2 <= 1)%N || (k.1.1 < p)%N || (k.1.1 == p) && (k.1.2 < j)%N) tetV s)).
  + lia.
  + apply: (sat_ext Ht) => -[[p' q'] r']; rewrite /tetv /= => H. split=> //. lia.
  + move=> q t1 Hq Ht1. 
    apply: (@loop_post _ (fun j s => ssat n (fun k => (k.2 <= 1)%N || (k.1.1 < p)%N || (k.1.1 == p) && ((k.1.2 < q)%N || (k.1.2 == q) && (k.2 <= j)%N)) tetV s)).
    * lia.
    * apply: (sat_ext Ht1) => -[[p' q'] r']; rewrite /tetv /= => H. split=> //. lia.
    * move=> r t' Hr Ht'. case Ej : (jrc _ _ _) => [[a1 a2] a3].
      rewrite -[tet_idx p q r]/(teti (p, q, r)) -[tet_idx p q (r - 1)]/(teti (p, q, (r - 1)%N)) -[tet_idx p q (r + 1)]/(teti (p, q, (r + 1)%N)).
      rewrite (sat_get (@teti_lt n) Ht') //=; [|rewrite /tetv /=; lia|lia].
      rewrite (sat_get (@teti_lt n) Ht') //=; [|rewrite /tetv /=; lia|lia].
      apply: (sat_set (@teti_lt n) (@teti_inj n) Ht').
      -- rewrite /tetv /=; lia.
      -- rewrite /=; lia.
      -- rewrite /tetV /=. case: r Hr Ej {Ht'} => [|r] Hr Ej; first by lia.
         rewrite [(r.+1 + 1)%N]addn1 subn1 /= (hjac_rec emb F0 z 1 Ej) expr1n.
         move: (hj _ _ _ _) (hj _ _ _ _) (hj _ _ _ _) (hj _ _ _ _) => b c d e. cring.
      -- move=> [[p' q'] r'] /=. rewrite /tetv /= => Hv Hne. split=> //. ne3 Hne.
    * move=> t' Ht'. apply: (sat_ext Ht') => -[[p' q'] r']; rewrite /tetv /= => H. split=> //. lia.
  + move=> t' Ht'. apply: (sat_ext Ht') => -[[p' q'] r']; rewrite /tetv /= => H. split=> //. lia.
- move=> s' Hs'. apply: (sat_ext Hs') => -[[p q] r]; rewrite /tetv /= => H. split=> //. lia.
Qed.
Lemma tet_scale_ok n s : ssat n xpredT tetV s ->
  exists s', tet_scale_loop emb sqrt n s = Ok s' /\ ssat n xpredT tetVS s'.
Proof.
move=> Hs.
apply: (@loop_post _ (fun i s => ssat n xpredT (fun k => if (k.1.1 < i)%N then tetVS k else tetV k) s)).
- lia. - exact: Hs.
- move=> p t Hp Ht.
  apply: (@loop_post _ (fun j s => ssat n xpredT (fun k => if (k.1.1 < p)%N || (k.1.1 == p) && (k.1.2 < j)%N then tetVS k else tetV k) s)).
  + lia.
  + apply: (sat_ext Ht) => -[[p' q'] r']; rewrite /tetv /= => H. split=> // _. by rewrite ltn0 andbF orbF.
  + move=> q t1 Hq Ht1.
    apply: (@loop_post _ (fun j s => ssat n xpredT (fun k => if (k.1.1 < p)%N || (k.1.1 == p) && ((k.1.2 < q)%N || (k.1.2 == q) && (k.2 < j)%N) then tetVS k else tetV k) s)).
    * lia.
    * apply: (sat_ext Ht1) => -[[p' q'] r']; rewrite /tetv /= => H. split=> // _. by rewrite ltn0 andbF orbF.
    * move=> r t' Hr Ht'. rewrite -[tet_idx p q r]/(teti (p, q, r)).
      rewrite (sat_get (@teti_lt n) Ht') //=; [|rewrite /tetv /=; lia]. rewrite !ltnn !eqxx /=.
      apply: (sat_set (@teti_lt n) (@teti_inj n) Ht').
      -- rewrite /tetv /=; lia.
      -- by [].
      -- by rewrite /= !ltnn !eqxx ltnSn /=.
      -- move=> [[p' q'] r'] /=. rewrite /tetv /= => Hv Hne. split=> // _.
         have -> : ((p' < p) || (p' == p) && ((q' < q) || (q' == q) && (r' < r.+1)))%N = ((p' < p) || (p' == p) && ((q' < q) || (q' == q) && (r' < r)))%N by ne3 Hne. by [].
    * move=> t' Ht'. apply: (sat_ext Ht') => -[[p' q'] r']; rewrite /tetv /= => H. split=> // _.
      have -> : ((p' < p) || (p' == p) && ((q' < q) || (q' == q) && (r' < n - p - q + 1)))%N = ((p' < p) || (p' == p) && (q' < q.+1))%N by lia. by [].
  + move=> t' Ht'. apply: (sat_ext Ht') => -[[p' q'] r']; rewrite /tetv /= => H. split=> // _.
    have -> : ((p' < p) || (p' == p) && (q' < n - p + 1))%N = (p' < p.+1)%N by lia. by [].
- move=> s' Hs'. apply: (sat_ext Hs') => -[[p q] r]; rewrite /tetv /= => H. split=> // _.
  have -> : (p < n + 1)%N by lia. by [].
Qed.
End Tet.
Lemma tet_tabulate_ok (M : nat -> nat -> F) b n (pts : seq A) : (0 < n)%N ->
  let rp := ref_pts emb 3 3 M b pts in
  exists s, tet_tabulate emb sqrt M b n pts = Ok s /\ ssat n xpredT (tetVS (nth 0 rp 0) (nth 0 rp 1) (nth 0 rp 2)) s.
Proof.
move=> Hn rp. rewrite /tet_tabulate -/rp. set x := nth 0 rp 0. set y := nth 0 rp 1. set z := nth 0 rp 2.
have [||||s0 [E0 H0]] := @sat_init A _ teti (tetv n) (tet_num n) (@teti_lt n) (@teti_inj n)
  (1 + nth 0 pts 0 - nth 0 pts 0 + nth 0 pts 1 - nth 0 pts 1 + nth 0 pts 2 - nth 0 pts 2) (fun k => k == (0%N, 0%N, 0%N)) (tetV x y z) (0%N, 0%N, 0%N).
- by []. - by [].
- by rewrite /tetV /= !hjac0 !addrK !mulr1. - by [].
rewrite E0 /= gtn_eqF //.
rewrite -[tet_idx 1 0 0]/(teti (1%N, 0%N, 0%N)).
have [||||s1 [E1 H1]] := @sat_set A _ teti (tetv n) (tet_num n) (@teti_lt n) (@teti_inj n) _ _ s0 (1%N, 0%N, 0%N)
   (emb half * (2%:R + 2%:R * x + y + z)) (fun k => (k.2 == 0%N) && (k.1.2 == 0%N) && (k.1.1 <= 1)%N) (tetV x y z) H0.
- by rewrite /tetv /=; lia. - by [].
- by rewrite /tetV /= leg1 !hjac0 !mulr1.
- move=> [[p q] r] _ Hne. split=> //=. move: Hne. rewrite !xpair_eqE. lia.
rewrite E1 /=. have [s2 [E2 H2]] := tet_p_ok Hn H1. rewrite E2 /=.
have [s3 [E3 H3]] := tet_q1_ok Hn H2. rewrite E3 /=.
have [s4 [E4 H4]] := tet_q_ok Hn H3. rewrite E4 /=.
have [s5 [E5 H5]] := tet_r1_ok Hn H4. rewrite E5 /=.
have [s6 [E6 H6]] := tet_r_ok Hn H5. rewrite E6 /=. exact: tet_scale_ok.
Qed.
End Prog.
