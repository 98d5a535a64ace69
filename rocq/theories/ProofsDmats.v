(** Exactness of the differentiation matrices. *)
Set Warnings "-notation-overridden,-ambiguous-paths".
From mathcomp Require Import all_ssreflect all_algebra zify.
From Verif Require Base ModelIndex.
From Verif Require Import ModelJacobi ModelExpansion ModelDmats.
Set Implicit Arguments. Unset Strict Implicit. Unset Printing Implicit Defensive.
Import GRing.Theory.
Local Open Scope ring_scope.

Section Abstract.
Variables (F : fieldType) (R : comRingType) (emb : {rmorphism F -> R}) (N : nat).
Variables (phi mono : 'I_N -> R).
Variable d : nat -> {additive R -> R}.
Hypothesis dZ : forall i c P, d i (emb c * P) = emb c * d i P.
Variables (T : 'M[F]_N) (C : nat -> 'M[F]_N).
Hypothesis Hphi : forall k, phi k = \sum_m emb (T k m) * mono m.
Hypothesis Hd : forall i k, d i (phi k) = \sum_m emb (C i k m) * mono m.
Variable e : 'I_N -> {rmorphism R -> F}.
Hypothesis He : forall j c, e j (emb c) = c.
Let V : 'M[F]_N := \matrix_(j, k) e j (phi k).
Hypothesis HV : V \in unitmx.
Let DT i : 'M[F]_N := \matrix_(k, j) e j (d i (phi k)).
Let Dm i := invmx V *m (DT i)^T.

Lemma T_unit : T \in unitmx.
Proof.
have EV : V = (\matrix_(j, m) e j (mono m)) *m T^T.
{ apply/matrixP => j k. rewrite !mxE Hphi rmorph_sum. apply: eq_bigr => m _. by rewrite !mxE rmorphM He mulrC. }
move: HV. rewrite EV unitmx_mul unitmx_tr. by case/andP.
Qed.
Lemma mono_phi m : mono m = \sum_l emb (invmx T m l) * phi l.
Proof.
transitivity (\sum_p emb ((1%:M : 'M[F]_N) m p) * mono p).
{ rewrite (bigD1 m) //= big1 ?addr0 => [|p /negbTE Hp]; rewrite !mxE ?eqxx ?rmorph1 ?mul1r //.
  by rewrite eq_sym Hp rmorph0 mul0r. }
rewrite -(mulVmx T_unit) (eq_bigr (fun p => \sum_l emb (invmx T m l * T l p) * mono p)); last first.
{ move=> p _. by rewrite mxE rmorph_sum mulr_suml. }
rewrite exchange_big /=. apply: eq_bigr => l _. rewrite Hphi mulr_sumr. apply: eq_bigr => p _. by rewrite rmorphM mulrA.
Qed.
Lemma dmat_exact i k : d i (phi k) = \sum_l emb (Dm i l k) * phi l.
Proof.
pose G := C i *m invmx T.
have dG k' : d i (phi k') = \sum_l emb (G k' l) * phi l.
{ rewrite Hd (eq_bigr (fun m => \sum_l emb (C i k' m * invmx T m l) * phi l)); last first.
  { move=> m _. rewrite {1}mono_phi mulr_sumr. apply: eq_bigr => l _. by rewrite rmorphM mulrA. }
  rewrite exchange_big /=. apply: eq_bigr => l _. by rewrite mxE rmorph_sum mulr_suml. }
suff -> : Dm i = G^T by (rewrite dG; apply: eq_bigr => l _; rewrite [in RHS]mxE).
rewrite /Dm. have -> : (DT i)^T = V *m G^T; last by rewrite mulmxA mulVmx // mul1mx.
apply/matrixP => j k'. rewrite !mxE dG rmorph_sum. apply: eq_bigr => l _. by rewrite !mxE rmorphM He mulrC.
Qed.
(** derivative of multi-index [a], starting with direction [i0] *)
Fixpoint dalpha_from (i0 : nat) (a : seq nat) (P : R) : R :=
  if a is a0 :: a' then dalpha_from i0.+1 a' (iter a0 (d i0) P) else P.
Lemma fmp_exact (mats : seq 'M[F]_N) a i0 (M0 : 'M[F]_N) (psi : 'I_N -> R) :
  (forall i, (i0 <= i < i0 + size a)%N -> nth 0 mats i = Dm i) ->
  (forall k, psi k = \sum_l emb (M0 l k) * phi l) ->
  forall k, dalpha_from i0 a (psi k) =
    \sum_l emb (foldl (fun R0 i => iter (nth 0%N a (i - i0)) (fun R0 => nth 0 mats i *m R0) R0) M0 (iota i0 (size a)) l k) * phi l.
Proof.
elim: a i0 M0 psi => [|a0 a IH] i0 M0 psi Hm Hp k; first by rewrite /= Hp.
rewrite /= subnn /=.
have Hst : forall c k', iter c (d i0) (psi k') = \sum_l emb (iter c (fun R0 => nth 0 mats i0 *m R0) M0 l k') * phi l.
{ elim=> [|c IHc] k'; first by rewrite /= Hp. rewrite /= IHc raddf_sum (eq_bigr (fun l => \sum_p emb (Dm i0 p l * iter c (fun R0 => nth 0 mats i0 *m R0) M0 l k') * phi p)).
  - rewrite exchange_big /=. apply: eq_bigr => p _. rewrite mxE Hm ?rmorph_sum ?mulr_suml //=. lia.
  - move=> l _. rewrite dZ dmat_exact mulr_sumr. apply: eq_bigr => p _. rewrite rmorphM mulrA. congr (_ * _). exact: mulrC. }
rewrite (IH i0.+1 (iter a0 (fun R0 => nth 0 mats i0 *m R0) M0) (fun k' => iter a0 (d i0) (psi k'))) //; last first.
{ move=> i Hi. apply: Hm. rewrite /=. lia. }
have -> // : forall (M1 : 'M[F]_N) (j s : nat), (i0.+1 <= j)%N ->
  foldl (fun R0 i => iter (nth 0%N a (i - i0.+1)) (fun R1 => nth 0 mats i *m R1) R0) M1 (iota j s) =
  foldl (fun R0 i => iter (nth 0%N (a0 :: a) (i - i0)) (fun R1 => nth 0 mats i *m R1) R0) M1 (iota j s).
{ move=> M1 j s. elim: s j M1 => [|s IHs] j M1 Hj //=. rewrite IHs; last by lia.
  have -> // : (j - i0 = (j - i0.+1).+1)%N by lia. }
Qed.
Definition dalpha := dalpha_from 0.
Lemma dalpha_sum (I : Type) (r : seq I) (c : I -> F) (f : I -> R) a i0 :
  dalpha_from i0 a (\sum_(x <- r) emb (c x) * f x) = \sum_(x <- r) emb (c x) * dalpha_from i0 a (f x).
Proof.
elim: a i0 f => [|a0 a IH] i0 f //=. rewrite -IH. congr (dalpha_from _ _ _).
elim: a0 => [|a0 IHa] //=. rewrite IHa raddf_sum. apply: eq_bigr => x _. by rewrite dZ.
Qed.
(** one entry of the jet table *)
Lemma jet_exact r (cf : 'M[F]_(r, N)) npts (base : 'M[F]_(N, npts)) (ev : 'I_npts -> {rmorphism R -> F}) mats a :
  (forall j c, ev j (emb c) = c) -> (forall k j, base k j = ev j (phi k)) ->
  (forall i, (i < size a)%N -> nth 0 mats i = Dm i) ->
  forall x j, (cf *m ((form_matrix_product mats a)^T *m base)) x j =
    ev j (dalpha a (\sum_k emb (cf x k) * phi k)).
Proof.
move=> Hev Hb Hm x j. rewrite /dalpha dalpha_sum rmorph_sum mxE. apply: eq_bigr => k _. rewrite rmorphM Hev. congr (_ * _).
rewrite (@fmp_exact mats a 0 1%:M phi) => [|i Hi|k'].
- rewrite rmorph_sum mxE. apply: eq_bigr => l _. rewrite mxE rmorphM Hev Hb /form_matrix_product. congr (_ * _).
  congr (fun_of_matrix _ _ _). elim: (iota 0 (size a)) 1%:M => [|i s IHs] M0 //=. by rewrite IHs subn0.
- apply: Hm. move: Hi. by rewrite add0n.
- rewrite (bigD1 k') //= big1 ?addr0 => [|p /negbTE Hp]; rewrite !mxE ?eqxx ?rmorph1 ?mul1r //. by rewrite Hp rmorph0 mul0r.
Qed.
End Abstract.

Lemma nth_map_iota (B : Type) (x0 : B) (f : nat -> B) n k : (k < n)%N -> nth x0 [seq f i | i <- iota 0 n] k = f k.
Proof. move=> H. by rewrite (nth_map 0%N) ?size_iota // nth_iota. Qed.

Section Instance.
Variables (F : fieldType) (R : comRingType) (emb : {rmorphism F -> R}) (N : nat).
Variables (phi : nat -> R) (mono : 'I_N -> R) (d : nat -> {additive R -> R}).
Hypothesis dZ : forall i c P, d i (emb c * P) = emb c * d i P.
Variables (T : 'M[F]_N) (C : nat -> 'M[F]_N).
Hypothesis Hphi : forall k : 'I_N, phi k = \sum_m emb (T k m) * mono m.
Hypothesis Hd : forall i (k : 'I_N), d i (phi k) = \sum_m emb (C i k m) * mono m.
Variables (X : Type) (x0 : X) (ev : X -> {rmorphism R -> F}).
Hypothesis He : forall p c, ev p (emb c) = c.
Definition tabT (pts : seq X) := [seq [seq ev p (phi i) | i <- iota 0 N] | p <- pts].
Definition dtT sd (pts : seq X) := [seq [seq [seq ev p (d i (phi k)) | p <- pts] | k <- iota 0 N] | i <- iota 0 sd].
Lemma tabT_mx pts m (j : 'I_m) (k : 'I_N) : (m <= size pts)%N -> mx_of m N (tabT pts) j k = ev (nth x0 pts j) (phi k).
Proof. move=> H. rewrite mxE (nth_map x0) ?nth_map_iota //. exact: (leq_trans (ltn_ord j)). Qed.
Lemma in_map_jets (r npts : nat) (G : seq nat -> 'M[F]_(r, npts)) (l : seq (seq nat)) a (A : 'M[F]_(r, npts)) :
  List.In (a, A) [seq (a, G a) | a <- l] -> A = G a /\ List.In a l.
Proof. elim: l => [|b l IH] //= [[-> ->]|H]; first by auto. have [-> H'] := IH H. by auto. Qed.
Lemma jets_exact sd n pts dm : (0 < sd)%N -> (n = 0%N -> N = 1%N /\ (exists2 c, c != 0 & phi 0 = emb c) /\ (forall i, d i (phi 0) = 0)) ->
  (forall i a, List.In a (ModelIndex.mis sd i) -> size a = sd) ->
  on_dmats N sd n (tabT pts) (dtT sd pts) = Ok dm ->
  forall r (cf : 'M[F]_(r, N)) pts2 order, exists jets,
    ps_tabulate sd dm cf (mx_of (size pts2) N (tabT pts2))^T false order = Ok jets /\
    [seq aA.1 | aA <- jets] = flatten [seq ModelIndex.mis sd i | i <- iota 0 order.+1] /\
    forall a A, List.In (a, A) jets -> forall x j,
      A x j = ev (nth x0 pts2 j) (dalpha d a (\sum_k emb (cf x k) * phi k)).
Proof.
move=> Hsd Hn0 Hmis Hdm r cf pts2 order.
have [e [HV [Hsz Hmats]]] : exists e : 'I_N -> {rmorphism R -> F},
   (\matrix_(j, k) e j (phi k) : 'M[F]_N) \in unitmx /\ size dm = sd /\
   ((forall j c, e j (emb c) = c) /\ forall i, (i < sd)%N -> nth 0 dm i = invmx (\matrix_(j, k) e j (phi k)) *m (\matrix_(k, j) e j (d i (phi k)))^T).
{ move: Hdm. rewrite /on_dmats. case: eqP => [En [<-]|_].
  - have [EN [[c Hc0 E1] E2]] := Hn0 En. exists (fun _ => ev x0). split.
    { rewrite unitmxE. clear -EN E1 Hc0 He. move: phi E1. subst N => f E1. rewrite det_mx11 !mxE E1 He unitfE. exact: Hc0. }
    split; first by rewrite size_nseq. split; first by move=> j c'; rewrite He. move=> i Hi. rewrite nth_nseq Hi.
    apply/esym. rewrite (_ : \matrix_(k, j) ev x0 (d i (phi k)) = 0) ?trmx0 ?mulmx0 //. apply/matrixP => k j. rewrite !mxE.
    have -> : nat_of_ord k = 0%N by have := ltn_ord k; rewrite {2}EN; case: (nat_of_ord k).
    by rewrite E2 rmorph0.
  - case: ifP => // /andP [/eqP Hs HV] [<-].
    have Hp : size pts = N by rewrite -Hs size_map.
    have EV : mx_of N N (tabT pts) = \matrix_(j, k) ev (nth x0 pts j) (phi k).
    { apply/matrixP => j k. rewrite tabT_mx ?Hp //. by rewrite mxE. }
    exists (fun j => ev (nth x0 pts j)). rewrite -EV. split=> //. split; first by rewrite !size_map size_iota.
    split; first by move=> j c; rewrite He.
    move=> i Hi. rewrite (nth_map [::]) ?size_map ?size_iota // nth_map_iota //. congr (_ *m _^T). apply/matrixP => k j.
    by rewrite !mxE nth_map_iota // (nth_map x0) ?Hp. }
case: Hmats => Hee Hmats. rewrite /ps_tabulate. case: dm Hdm Hsz Hmats => [|d0 dm] Hdm Hsz Hmats; first by move: Hsz Hsd => /= <-.
eexists; split; first by []. split.
{ rewrite -map_comp addn1 -[RHS]map_id. exact: eq_map. }
move=> a A /in_map_jets [-> Ha] x j.
have Hsa : size a = sd.
{ move: Ha. elim: (iota 0 _) => [|i l IHl] //=. rewrite List.in_app_iff => [[H|H]]; [exact: (Hmis i)|exact: IHl]. }
apply: (@jet_exact F R emb N (fun k => phi k) mono d dZ T C Hphi Hd e Hee HV _ cf _ _ (fun j => ev (nth x0 pts2 j))).
- move=> j' c. by rewrite He.
- move=> k j'. by rewrite mxE tabT_mx.
- move=> i. rewrite Hsa. exact: Hmats.
Qed.
End Instance.
