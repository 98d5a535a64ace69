(** C24: barycentric interpolation. *)
Set Warnings "-notation-overridden,-ambiguous-paths".
From mathcomp Require Import all_ssreflect all_algebra zify.
From Verif Require Import ModelBary.
Set Implicit Arguments. Unset Strict Implicit. Unset Printing Implicit Defensive.
Import Order.TTheory GRing.Theory Num.Theory.
Local Open Scope ring_scope.

Section Bary.
Variable F : realFieldType.
Variables (xs : seq F).
Let n := size xs.
Hypothesis Hu : uniq xs.
Notation x i := (nth 0 xs i).
Lemma x_inj i j : (i < n)%N -> (j < n)%N -> x i = x j -> i = j.
Proof. move=> Hi Hj /eqP. by rewrite nth_uniq // => /eqP. Qed.
Definition q i : {poly F} := \prod_(k < n | (k : nat) != i) ('X - (x k)%:P).
Definition om : {poly F} := \prod_(k < n) ('X - (x k)%:P).
Lemma om_q i : (i < n)%N -> om = ('X - (x i)%:P) * q i.
Proof. move=> Hi. rewrite /om /q (bigD1 (Ordinal Hi)) //=. Qed.
Lemma w_q j : (j < n)%N -> b_w xs j = ((q j).[x j])^-1.
Proof.
move=> Hj. rewrite /b_w div1r. congr (_^-1). rewrite /q horner_prod big_mkord (bigD1 (Ordinal Hj)) //=.
rewrite /b_diff eqxx mul1r. apply: eq_bigr => i /negbTE Hi. by rewrite hornerXsubC addrC -val_eqE /= in Hi *; rewrite Hi. Qed.
Lemma q_n0 j : (j < n)%N -> (q j).[x j] != 0.
Proof.
move=> Hj. rewrite /q horner_prod. apply/prodf_neq0 => i Hij.
rewrite hornerXsubC subr_eq0. apply/eqP => /x_inj E. by move: Hij; rewrite E // eqxx. Qed.
Lemma w_n0 j : (j < n)%N -> b_w xs j != 0.
Proof. move=> Hj. by rewrite w_q // invr_eq0 q_n0. Qed.
Lemma q_other i j : (j < n)%N -> j != i -> (q i).[x j] = 0.
Proof. move=> Hj Hij. by rewrite /q horner_prod (bigD1 (Ordinal Hj)) //= hornerXsubC subrr mul0r. Qed.
Definition lag i : {poly F} := b_w xs i *: q i.
Lemma lag_nodes i j : (i < n)%N -> (j < n)%N -> (lag i).[x j] = (i == j)%:R.
Proof.
move=> Hi Hj. rewrite /lag hornerZ. case: eqP => [<-|/eqP H]; first by rewrite w_q // mulVf // q_n0. by rewrite q_other 1?eq_sym // mulr0. Qed.
Lemma size_q i : (i < n)%N -> size (q i) = n.
Proof.
move=> Hi. have H0 : q i != 0. { by apply/prodf_neq0 => k _; rewrite polyXsubC_eq0. }
have : size om = n.+1 by rewrite /om size_prod_XsubC /index_enum -enumT size_enum_ord.
rewrite (om_q Hi) size_mul ?polyXsubC_eq0 // size_XsubC. by case. Qed.
Lemma size_lag i : (i < n)%N -> (size (lag i) <= n)%N.
Proof. move=> Hi. rewrite /lag. apply: leq_trans (size_scale_leq _ _) _. by rewrite size_q. Qed.
Lemma interp0 (p : {poly F}) : (size p <= n)%N -> (forall j, (j < n)%N -> p.[x j] = 0) -> p = 0.
Proof.
move=> Hs H. apply: (@roots_geq_poly_eq0 _ p xs) => //. apply/(all_nthP 0) => j Hj. by rewrite /root H. Qed.
Lemma interp (p : {poly F}) : (size p <= n)%N -> p = \sum_(j < n) p.[x j] *: lag j.
Proof.
move=> Hs. apply/eqP. rewrite -subr_eq0. apply/eqP. apply: interp0.
- apply: leq_trans (size_add _ _) _. rewrite geq_max Hs size_opp. apply: leq_trans (size_sum _ _ _) _. apply/bigmax_leqP => j _.
  apply: leq_trans (size_scale_leq _ _) _. exact: size_lag.
- move=> k Hk. rewrite hornerD hornerN horner_sum (bigD1 (Ordinal Hk)) //= hornerZ lag_nodes // eqxx mulr1 big1 ?addr0 ?subrr // => j Hj.
  rewrite hornerZ lag_nodes //. move: Hj. rewrite -val_eqE /= => /negbTE ->. by rewrite mulr0. Qed.
Lemma lag_unique i (p : {poly F}) : (i < n)%N -> (size p <= n)%N -> (forall j, (j < n)%N -> p.[x j] = (i == j)%:R) -> p = lag i.
Proof.
move=> Hi Hs H. rewrite (interp Hs) (bigD1 (Ordinal Hi)) //= H // eqxx scale1r big1 ?addr0 // => j. rewrite -val_eqE /= eq_sym => /negbTE E. by rewrite H // E scale0r. Qed.
Lemma lag_sum : (0 < n)%N -> \sum_(j < n) lag j = 1.
Proof. move=> Hn. rewrite [RHS](@interp 1) ?size_poly1 //. apply: eq_bigr => j _. by rewrite hornerC scale1r. Qed.
(** differentiation matrix *)
Lemma D_off i j : (i < n)%N -> (j < n)%N -> i != j -> b_D0 xs i j = (lag i)^`().[x j].
Proof.
move=> Hi Hj Hij. have Hx : x j - x i != 0. { rewrite subr_eq0. apply/eqP => /x_inj E. by move: Hij; rewrite E // eqxx. }
have E1 : (om^`()).[x j] = (q j).[x j]. { by rewrite (om_q Hj) derivM derivXsubC mul1r hornerD hornerM hornerXsubC subrr mul0r addr0. }
have E2 : (om^`()).[x j] = (x j - x i) * ((q i)^`()).[x j]. { by rewrite (om_q Hi) derivM derivXsubC mul1r hornerD hornerM hornerXsubC q_other 1?eq_sym // add0r. }
rewrite /b_D0 /b_diff (negbTE Hij) [- _ + _]addrC /lag derivZ hornerZ -mulrA. congr (_ * _). rewrite (w_q Hj) invrK -E1 E2 mulrC mulrA mulVf ?mul1r //. Qed.
Lemma b_DE i j : (i < n)%N -> (j < n)%N -> b_D xs i j = (lag i)^`().[x j].
Proof.
move=> Hi Hj. rewrite /b_D. case: eqP => [->|/eqP H]; last exact: D_off.
rewrite big_mkord (bigD1 (Ordinal Hj)) //= opprD addrA subrr add0r. 
have : (\sum_(k < n) lag k)^`().[x j] = 0. { rewrite lag_sum ?derivC ?horner0 //. exact: leq_ltn_trans Hj. }
rewrite linear_sum horner_sum (bigD1 (Ordinal Hj)) //= => /eqP. rewrite addr_eq0 => /eqP ->. congr (- _). apply: eq_bigr => k. rewrite -val_eqE /= => Hk. exact: D_off. Qed.

Variable ys : seq F.
Notation y k := (nth 0 ys k).
Notation close m i := (isclose0 (b_I0 xs ys i m)).
(** the value attached to target point [m]: itself, when no node is within
    1e-8; the node, when exactly one is *)
Definition target_ok m (z : F) : Prop :=
  ((forall i, (i < n)%N -> ~~ close m i) /\ z = y m) \/
  (exists j, [/\ (j < n)%N, close m j, forall i, (i < n)%N -> close m i -> i = j & z = x j]).
Lemma isclose0_0 : isclose0 (0 : F).
Proof. by rewrite /isclose0 normr0 invr_ge0 exprn_ge0 // ler0n. Qed.
Lemma b_IE i m z : (i < n)%N -> target_ok m z -> b_I xs ys i m = (lag i).[z].
Proof.
move=> Hi. rewrite /b_I div1r. case=> [[Hno ->]|[j [Hj Hc Hone ->]]].
- have Ey k : (k < n)%N -> y m - x k != 0. { move=> Hk. apply: contraNneq (Hno k Hk). rewrite /b_I0 addrC => ->. exact: isclose0_0. }
  have E2 k : (k < n)%N -> b_I2 xs ys k m = b_w xs k / (y m - x k).
  { move=> Hk. rewrite /b_I2 (negbTE (Hno k Hk)). have -> : has (fun i' => close m i') (iota 0 (size xs)) = false.
    { apply/negbTE/hasPn => l. rewrite mem_iota add0n => /andP [_]. exact: Hno. }
    by rewrite /b_I1 (negbTE (Hno k Hk)) div1r mulrC /b_I0 [- _ + _]addrC. }
  have El k : (k < n)%N -> (lag k).[y m] = om.[y m] * b_I2 xs ys k m.
  { move=> Hk. by rewrite E2 // /lag hornerZ (om_q Hk) hornerM hornerXsubC mulrCA [(_ - _) * _]mulrC -mulrA divff ?Ey // mulr1. }
  have Es : om.[y m] * (\sum_(0 <= k < size xs) b_I2 xs ys k m) = 1.
  { rewrite big_mkord mulr_sumr -(hornerC 1 (y m)) -[1%:P]lag_sum ?horner_sum; last exact: leq_ltn_trans Hi. apply: eq_bigr => k _. by rewrite El. }
  have Hs : \sum_(0 <= k < size xs) b_I2 xs ys k m != 0. { apply: contra_eq_neq Es => ->. by rewrite mulr0 eq_sym oner_eq0. }
  rewrite El //. congr (_ * _). by rewrite -[LHS]mul1r -Es mulfK.
- have Eb k : (k < n)%N -> b_I2 xs ys k m = (k == j)%:R.
  { move=> Hk. rewrite /b_I2. case: ifP => Hk'; first by rewrite (Hone k) // eqxx. case: eqP => [E|_]; first by move: Hk'; rewrite E Hc.
    case: ifP => // /hasPn H. have := H j. by rewrite mem_iota /= add0n => /(_ Hj); rewrite Hc. }
  rewrite lag_nodes // Eb // big_mkord (bigD1 (Ordinal Hj)) //= Eb // eqxx big1 ?addr0 ?invr1 ?mul1r // => k. rewrite -val_eqE /= => /negbTE H. by rewrite Eb // H. 
Qed.
Lemma derivsE k i m z : (i < n)%N -> target_ok m z -> derivs xs ys k i m = ((lag i)^`(k)).[z].
Proof.
move=> Hi Hz. elim: k i Hi => [|k IH] i Hi; first exact: b_IE.
rewrite [LHS]/= big_mkord. rewrite derivSn. have Hs : (size (lag i)^`() <= n)%N. { apply: leq_trans (size_lag Hi). have [->|H0] := eqVneq (lag i) 0; first by rewrite deriv0. exact: ltnW (lt_size_deriv H0). }
rewrite (interp Hs) linear_sum horner_sum. apply: eq_bigr => j _. by rewrite linearZ hornerZ b_DE // IH. Qed.
End Bary.

(** "[p] is the Lagrange polynomial of node number [i]" *)
Definition lagrange_of (F : fieldType) (xs : seq F) (i : nat) (p : {poly F}) : Prop :=
  (size p <= size xs)%N /\ forall j, (j < size xs)%N -> p.[nth 0 xs j] = (i == j)%:R.
(** entry [(k,)][i, m] of a dictionary of tables *)
Definition entry (F : ringType) (t : seq (seq nat * seq (seq F))) (k i m : nat) : option F :=
  if [seq e.2 | e <- t & e.1 == [:: k]] is [:: tab] then
    if (i < size tab)%N && (m < size (nth [::] tab i))%N then Some (nth 0 (nth [::] tab i) m) else None
  else None.
Definition is_close (F : realFieldType) (a b : F) : Prop := `|a - b| <= 10 ^- 8.

Lemma entryE (F : realFieldType) (xs ys : seq F) order k i m : (k <= order)%N -> (i < size xs)%N -> (m < size ys)%N ->
  entry (barycentric_interpolation xs ys order) k i m = Some (derivs xs ys k i m).
Proof.
move=> Hk Hi Hm. rewrite /entry /barycentric_interpolation filter_map -map_comp.
have -> : [seq x <- iota 0 order.+1 | preim (fun k0 : nat => ([:: k0], [seq [seq derivs xs ys k0 i0 m0 | m0 <- iota 0 (size ys)] | i0 <- iota 0 (size xs)])) (fun e => e.1 == [:: k]) x] = [:: k].
{ rewrite (eq_filter (a2 := pred1 k)) => [|j]; last by rewrite /= eqseq_cons andbT. by rewrite filter_pred1_uniq ?iota_uniq // mem_iota. }
rewrite /= !size_map !size_iota Hi (nth_map 0%N) ?size_iota // size_map size_iota Hm /=. congr Some.
by rewrite (nth_map 0%N) ?size_iota // !nth_iota. Qed.

(** *** C24.  Every entry is the value at the target point of the derivative of
    the Lagrange polynomial, when the target is a node or farther than 1e-8
    from all of them (nodes more than 1e-8 apart from that one). *)
Theorem C24_lagrange_tables (F : realFieldType) (xs ys : seq F) (order k i m : nat) (p : {poly F}) :
  uniq xs -> (k <= order)%N -> (i < size xs)%N -> (m < size ys)%N ->
  (forall j, (j < size xs)%N -> is_close (nth 0 ys m) (nth 0 xs j) -> nth 0 xs j = nth 0 ys m) ->
  lagrange_of xs i p ->
  entry (barycentric_interpolation xs ys order) k i m = Some (p^`(k)).[nth 0 ys m].
Proof.
move=> Hu Hk Hi Hm Hsep [Hs Hp]. rewrite entryE //. congr Some. rewrite (lag_unique Hu Hi Hs Hp). apply: derivsE => //.
have Ec j : isclose0 (b_I0 xs ys j m) <-> is_close (nth 0 ys m) (nth 0 xs j). { by rewrite /isclose0 /is_close /b_I0 addrC. }
case: (boolP (has (fun j => isclose0 (b_I0 xs ys j m)) (iota 0 (size xs)))) => [/hasP [j]|/hasPn H].
- rewrite mem_iota add0n => /andP [_ Hj] Hc. right. exists j. split=> //; last by rewrite (Hsep j) //; apply/Ec.
  move=> l Hl Hcl. apply: (x_inj Hu Hl Hj). exact: etrans (Hsep l Hl ((Ec l).1 Hcl)) (esym (Hsep j Hj ((Ec j).1 Hc))).
- left. split=> // j Hj. apply: H. by rewrite mem_iota. Qed.
(** the tables exist for exactly the orders 0..order *)
Theorem C24_keys (F : realFieldType) (xs ys : seq F) order :
  [seq e.1 | e <- barycentric_interpolation xs ys order] = [seq [:: k] | k <- iota 0 order.+1].
Proof. by rewrite -map_comp. Qed.
(** A target closer than 1e-8 to exactly one node gets that node's values. *)
Theorem C24_snapping (F : realFieldType) (xs ys : seq F) (order k i m j : nat) (p : {poly F}) :
  uniq xs -> (k <= order)%N -> (i < size xs)%N -> (m < size ys)%N -> (j < size xs)%N ->
  (forall l, (l < size xs)%N -> is_close (nth 0 ys m) (nth 0 xs l) <-> l = j) ->
  lagrange_of xs i p ->
  entry (barycentric_interpolation xs ys order) k i m = Some (p^`(k)).[nth 0 xs j].
Proof.
move=> Hu Hk Hi Hm Hj Hc [Hs Hp]. rewrite entryE //. congr Some. rewrite (lag_unique Hu Hi Hs Hp). apply: derivsE => //.
have Ec l : isclose0 (b_I0 xs ys l m) <-> is_close (nth 0 ys m) (nth 0 xs l). { by rewrite /isclose0 /is_close /b_I0 addrC. }
right. exists j. split=> //; first by apply/Ec; apply/Hc. move=> l Hl /Ec. by move/(Hc l Hl). Qed.
Lemma tol_small (F : realFieldType) : 10 ^- 8 + 10 ^- 8 < 1 :> F.
Proof.
have H0 : 0 < (10 : F) ^+ 8 by rewrite exprn_gt0 // ltr0n.
rewrite -mulr2n -mulr_natl -(@ltr_pdivl_mulr _ ((10 ^+ 8)^-1)) ?invr_gt0 // mul1r invrK.
apply: lt_le_trans (_ : 10 <= _); first by rewrite ltr_nat. apply: ler_eexpr => //. by rewrite ler1n. Qed.
(** So values at a target that is near a node but not at it are wrong, by at
    most what the function varies over 1e-8: on nodes 0 and 1, at 1e-8. *)
Theorem C24_near_node_refuted (F : realFieldType) : ~ (forall (xs ys : seq F) k i m p, uniq xs -> (i < size xs)%N -> (m < size ys)%N ->
  lagrange_of xs i p -> entry (barycentric_interpolation xs ys k) k i m = Some (p^`(k)).[nth 0 ys m]).
Proof.
move=> H. set e : F := 10 ^- 8. have He : 0 < e by rewrite /e invr_gt0 exprn_gt0 // ltr0n.
have He1 : e + e < 1. { exact: tol_small. }
have Hu : uniq [:: 0; 1 : F] by rewrite /= inE eq_sym oner_eq0.
have L : lagrange_of [:: 0; 1 : F] 1 'X. { split; first by rewrite size_polyX. move=> [|[|j]] // _; by rewrite hornerX. }
have := H [:: 0; 1] [:: e] 0%N 1%N 0%N 'X Hu isT isT L. rewrite (@C24_snapping _ [:: 0; 1] [:: e] 0 0 1 0 0 'X) // => [[]|].
- rewrite !hornerX /= => E. by move: He; rewrite -E ltxx.
- move=> [|[|l]] //= _; split=> //; rewrite /is_close.
  + by rewrite subr0 ger0_norm // ltW.
  + rewrite -/e ler0_norm ?opprB; last first. { rewrite subr_le0. apply: ltW. apply: le_lt_trans He1. by rewrite ler_addl ltW. }
    by rewrite ler_subl_addr leNgt He1. Qed.
Theorem C24_nonvacuous (F : realFieldType) : exists (xs ys : seq F) p, uniq xs /\ lagrange_of xs 1 p /\ (forall m j, (m < size ys)%N -> (j < size xs)%N -> is_close (nth 0 ys m) (nth 0 xs j) -> nth 0 xs j = nth 0 ys m) /\ p^`() != 0 /\ size ys = 2%N.
Proof.
exists [:: 0; 1 : F], [:: 2%:R; 1], 'X. split; first by rewrite /= inE eq_sym oner_eq0. split. { split; first by rewrite size_polyX. move=> [|[|j]] // _; by rewrite hornerX. }
split; last by rewrite derivX oner_eq0.
have T : 10 ^- 8 < 1 :> F. { apply: le_lt_trans (tol_small F). by rewrite ler_addl invr_ge0 exprn_ge0 // ler0n. }
move=> [|[|m]] [|[|j]] //= _ _; rewrite /is_close => H; exfalso; move: T; rewrite ltNge => /negP; apply; apply: le_trans H.
- by rewrite subr0 ger0_norm ?ler0n // ler1n.
- have -> : 2%:R - 1 = 1 :> F by rewrite -[2%:R]/(1 + 1) addrK. by rewrite normr1.
- by rewrite subr0 normr1. Qed.
