Set Warnings "-notation-overridden,-ambiguous-paths".
From mathcomp Require Import all_ssreflect all_algebra zify.
From Verif Require Base.
From Verif Require Import ModelAffine SpecAffine.
Set Implicit Arguments. Unset Strict Implicit. Unset Printing Implicit Defensive.
Import GRing.Theory.
Local Open Scope ring_scope.

Section A.
Variable F : fieldType.

Lemma unitmx_inj N (M : 'M[F]_N) : (forall v : 'cV_N, M *m v = 0 -> v = 0) <-> (M \in unitmx).
Proof.
split=> [H|U v E].
- rewrite -unitmx_tr -row_free_unit. apply: inj_row_free => v Hv.
  have := H v^T. rewrite -{1}(trmxK M) -trmx_mul Hv trmx0 => /(_ erefl) /(congr1 trmx). by rewrite trmxK trmx0.
- by rewrite -(mulKmx U v) E mulmx0.
Qed.

Lemma vgetE N (v : 'cV[F]_N) (i : 'I_N) : vget v i = v i 0.
Proof. by rewrite /vget valK. Qed.

(** the assembled system *)
Lemma aff_system_inv dx dy (xs ys : seq (seq F)) :
  let st := aff_system dx dy xs ys in
  forall i j, (i < size xs)%N -> (j < dy)%N ->
  (forall c, st.1 (i * dy + j)%N c = if (c == dy * dx + j)%N then 1 else if (dx * j <= c < dx * j + dx)%N then bcast (nth [::] xs i) (c - dx * j) else 0) /\
  st.2 (i * dy + j)%N = nth 0 (nth [::] ys i) j.
Proof.
move=> st i j Hi Hj.
have inj : forall i' j' i j, (j' < dy)%N -> (j < dy)%N -> (i' * dy + j')%N = (i * dy + j)%N -> i' = i /\ j' = j.
{ move=> i' j' i0 j0 H1 H2 E. have := congr1 (fun z => (z %/ dy, z %% dy)%N) E.
  rewrite /= !divnMDl ?(leq_trans _ H1) // !modnMDl !divn_small // !modn_small // !addn0 => -[-> ->]. by []. }
rewrite /st /aff_system.
set l := [seq _ | _ <- _, _ <- _].
have Hl ij : ij \in l -> (ij.2 < dy)%N.
{ move=> /allpairsP [[p q] /= [_ Hq ->]] /=. by rewrite mem_iota in Hq. }
have Hin : (i, j) \in l.
{ apply/allpairsP. exists (i, j). by rewrite !mem_iota. }
suff H : forall l st0, (forall ij, ij \in l -> (ij.2 < dy)%N) ->
  let st := foldl (aff_step dx dy xs ys) st0 l in
  if (i, j) \in l then
  (forall c, st.1 (i * dy + j)%N c = if (c == dy * dx + j)%N then 1 else if (dx * j <= c < dx * j + dx)%N then bcast (nth [::] xs i) (c - dx * j)
             else st0.1 (i * dy + j)%N c) /\
  st.2 (i * dy + j)%N = nth 0 (nth [::] ys i) j
  else st.1 (i * dy + j)%N =1 st0.1 (i * dy + j)%N /\ st.2 (i * dy + j)%N = st0.2 (i * dy + j)%N.
{ have /= := H l (fun _ _ => 0, fun _ => 0) Hl. rewrite Hin => -[H1 H2]. by split. }
elim=> [|[i' j'] l' IH] [m r] Hlt //=. 
have Hj' : (j' < dy)%N by exact: (Hlt (i', j') (mem_head _ _)).
have /IH IH' : forall ij, ij \in l' -> (ij.2 < dy)%N by move=> ij H; apply: Hlt; rewrite in_cons H orbT.
have /= := IH' (aff_step dx dy xs ys (m, r) (i', j')). rewrite in_cons.
case E : ((i, j) \in l').
- rewrite orbT. rewrite /aff_step /=. move=> [H1 H2]. split=> // c. rewrite H1.
  case: (c =P _) => // Hc. case: ifP => // Hc2. case: eqP => //= Er.
  have [_ Ej] := inj _ _ _ _ Hj Hj' Er. rewrite -Ej Hc2. by case: eqP => // Q; case: Hc.
- rewrite orbF /aff_step /=. case: (@eqP _ (i, j) _) => [[<- <-]|Hn] [H1 H2].
  + split; last by rewrite H2 eqxx. move=> c. by rewrite H1 eqxx /=.
  + have Hr : (i * dy + j == i' * dy + j')%N = false.
    { apply/eqP => Q. have [Q1 Q2] := inj _ _ _ _ Hj Hj' Q. apply: Hn. by rewrite Q1 Q2. }
    split; last by rewrite H2 Hr. move=> c. by rewrite H1 Hr.
Qed.

Lemma slice_sum (f : nat -> F) lo d M : (lo + d <= M)%N ->
  \sum_(k < d) f (lo + k)%N = \sum_(0 <= c < M | (lo <= c < lo + d)%N) f c.
Proof.
move=> H. rewrite -(big_mkord xpredT (fun k => f (lo + k)%N)).
transitivity (\sum_(lo <= c < lo + d) f c).
{ rewrite -{2}(add0n lo) big_addn addKn. by apply: eq_bigr => k _; rewrite addnC. }
rewrite (big_nat_widen _ _ _ _ _ H) (big_nat_widenl _ 0) //. apply: eq_bigl => c. by rewrite andbC.
Qed.
Lemma rowlt dx dy i j : (i < dx.+1)%N -> (j < dy)%N -> (i * dy + j < dx * dy + dy)%N.
Proof. move=> Hi Hj. nia. Qed.
Lemma collt dx dy j k : (j < dy)%N -> (k < dx)%N -> (dx * j + k < dx * dy + dy)%N.
Proof. move=> Hi Hj. nia. Qed.
Lemma blt dx dy j : (j < dy)%N -> (dx * dy + j < dx * dy + dy)%N.
Proof. move=> Hj. lia. Qed.
(** row (i, j) of the product with a vector *)
Section Sys.
Variables (dx dy : nat) (xs ys : seq (seq F)).
Hypotheses (Sx : size xs = dx.+1) (Dx : in_dim dx xs).
Let N := (dx * dy + dy)%N.
Definition sys_mat : 'M[F]_N := \matrix_(r, c) (aff_system dx dy xs ys).1 r c.
Definition sys_rhs : 'cV[F]_N := \col_r (aff_system dx dy xs ys).2 r.
Lemma bc i k : (i < dx.+1)%N -> (k < dx)%N -> bcast (nth [::] xs i) k = nth 0 (nth [::] xs i) k.
Proof.
move=> Hi Hk. rewrite /bcast. have -> : size (nth [::] xs i) = dx by apply/Dx/mem_nth; rewrite Sx.
case: eqP => // E. by move: Hk; rewrite E; case: k.
Qed.
Lemma vget_lt (v : 'cV[F]_N) c (H : (c < N)%N) : vget v c = v (Ordinal H) 0.
Proof. by rewrite -[c]/(nat_of_ord (Ordinal H)) vgetE. Qed.
Lemma sys_row (v : 'cV[F]_N) i j (Hi : (i < dx.+1)%N) (Hj : (j < dy)%N) :
  (sys_mat *m v) (Ordinal (rowlt Hi Hj)) 0 =
  \sum_(k < dx) nth 0 (nth [::] xs i) k * vget v (dx * j + k)%N + vget v (dx * dy + j)%N.
Proof.
have Hi' : (i < size xs)%N by rewrite Sx.
have [H _] := @aff_system_inv dx dy xs ys i j Hi' Hj.
rewrite mxE.
under eq_bigr => c _ do rewrite mxE H -vgetE.
rewrite (bigD1 (Ordinal (blt dx Hj))) //= [(dy * dx)%N]mulnC eqxx mul1r addrC. congr (_ + _).
transitivity (\sum_(c < N | (dx * j <= c < dx * j + dx)%N) bcast (nth [::] xs i) (c - dx * j) * vget v c).
{ rewrite big_mkcond [RHS]big_mkcond. apply: eq_bigr => c _. rewrite -val_eqE /=. case: (c =P _ :> nat) => [E|_] /=.
  - case: ifP => //. rewrite E. nia.
  - by case: ifP; rewrite ?mul0r. }
have Hle : (dx * j + dx <= N)%N by rewrite /N; nia.
rewrite -(big_mkord (fun c => (dx * j <= c < dx * j + dx)%N) (fun c => bcast (nth [::] xs i) (c - dx * j) * vget v c)).
rewrite -(slice_sum _ Hle). apply: eq_bigr => k _. by rewrite addKn bc.
Qed.
Lemma sys_rhsE i j (Hi : (i < dx.+1)%N) (Hj : (j < dy)%N) : sys_rhs (Ordinal (rowlt Hi Hj)) 0 = nth 0 (nth [::] ys i) j.
Proof.
have Hi' : (i < size xs)%N by rewrite Sx.
have [_ H] := @aff_system_inv dx dy xs ys i j Hi' Hj. by rewrite mxE H.
Qed.
Lemma row_ex (r : 'I_N) : exists i j (Hi : (i < dx.+1)%N) (Hj : (j < dy)%N), r = Ordinal (rowlt Hi Hj).
Proof.
have Hr : (r < dx.+1 * dy)%N by apply: leq_trans (ltn_ord r) _; rewrite /N mulSn addnC.
have dy0 : (0 < dy)%N by case: dy Hr => //; rewrite muln0.
have Hi : (r %/ dy < dx.+1)%N by rewrite ltn_divLR.
have Hj : (r %% dy < dy)%N by rewrite ltn_mod.
exists (r %/ dy)%N, (r %% dy)%N, Hi, Hj. apply: val_inj => /=. exact: divn_eq.
Qed.
Lemma col_ex (r : 'I_N) : (exists j k (Hj : (j < dy)%N) (Hk : (k < dx)%N), r = Ordinal (collt Hj Hk)) \/ exists j (Hj : (j < dy)%N), r = Ordinal (blt dx Hj).
Proof.
case: (ltnP r (dx * dy)) => H.
- left. have dx0 : (0 < dx)%N by case: dx H => //; rewrite mul0n.
  have Hj : (r %/ dx < dy)%N by rewrite ltn_divLR // mulnC.
  have Hk : (r %% dx < dx)%N by rewrite ltn_mod.
  exists (r %/ dx)%N, (r %% dx)%N, Hj, Hk. apply: val_inj => /=. rewrite mulnC. exact: divn_eq.
- right. have Hj : (r - dx * dy < dy)%N by have := leq_trans (ltn_ord r) (leqnn (dx * dy + dy)); lia.
  exists (r - dx * dy)%N, Hj. apply: val_inj => /=. by rewrite subnKC.
Qed.
Lemma sys_unit : (0 < dy)%N -> (sys_mat \in unitmx) <-> affinely_spanning dx xs.
Proof.
move=> dy0. rewrite -unitmx_inj. split=> [H c e Hc|H v Hv].
- (* a vector with the same affine function in block 0 *)
  pose v : 'cV[F]_N := \col_r (if (r < dx)%N then c r else if r == (dx * dy)%N :> nat then e else 0).
  have V1 k : (k < dx)%N -> vget v k = c k.
  { move=> Hk. have Hk' : (k < N)%N by rewrite /N; nia. by rewrite (vget_lt _ Hk') mxE /= Hk. }
  have V2 j k : (0 < j < dy)%N -> (k < dx)%N -> vget v (dx * j + k)%N = 0.
  { move=> /andP [J0 J1] Hk. have Hk' : (dx * j + k < N)%N by rewrite /N; nia. rewrite (vget_lt _ Hk') mxE /=.
    case: ifP; first by nia. by case: eqP => //; nia. }
  have V3 : vget v (dx * dy)%N = e.
  { have Hk' : (dx * dy < N)%N by rewrite /N; nia. rewrite (vget_lt _ Hk') mxE /= eqxx. case: ifP => //. nia. }
  have V4 j : (0 < j < dy)%N -> vget v (dx * dy + j)%N = 0.
  { move=> /andP [J0 J1]. have Hk' : (dx * dy + j < N)%N by rewrite /N; nia. rewrite (vget_lt _ Hk') mxE /=.
    case: ifP; first by nia. by case: eqP => //; nia. }
  have V0 : v = 0.
  { apply: H. apply/colP => r. have [i [j [Hi [Hj ->]]]] := row_ex r. rewrite sys_row [RHS]mxE.
    case: (posnP j) => [J0|J0].
    - rewrite J0 muln0 addn0 V3. rewrite -[RHS](Hc (nth [::] xs i)) ?mem_nth ?Sx //. congr (_ + _).
      apply: eq_bigr => k _. by rewrite add0n V1 // mulrC.
    - rewrite V4 ?J0 // addr0 big1 // => k _. by rewrite V2 ?J0 // mulr0. }
  split=> [k Hk|].
  + rewrite -(V1 k Hk) V0 /vget. case: insub => // a. by rewrite mxE.
  + rewrite -V3 V0 /vget. case: insub => // a. by rewrite mxE.
- have E j : (j < dy)%N -> (forall k, (k < dx)%N -> vget v (dx * j + k)%N = 0) /\ vget v (dx * dy + j)%N = 0.
  { move=> Hj. apply: (H (fun k => vget v (dx * j + k)%N)) => x Hx.
    have Hi : (index x xs < dx.+1)%N by rewrite -Sx index_mem.
    have := congr1 (fun w : 'cV_N => w (Ordinal (rowlt Hi Hj)) 0) Hv. rewrite sys_row mxE nth_index // => E.
    rewrite -[RHS]E. congr (_ + _). apply: eq_bigr => k _. by rewrite mulrC. }
  apply/colP => r. rewrite [RHS]mxE. case: (col_ex r) => [[j [k [Hj [Hk ->]]]]|[j [Hj ->]]]; rewrite -vget_lt; have [E1 E2] := E j Hj.
  + exact: E1.
  + exact: E2.
Qed.
End Sys.
End A.
