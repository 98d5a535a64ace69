(** C35: the serendipity basis functions are linearly independent. *)
Set Warnings "-notation-overridden,-ambiguous-paths".
From mathcomp Require Import all_ssreflect all_algebra zify.
From Verif Require Base ModelCell SpecCell SpecConcat ModelSerIds ProofsSerIds ProofsIds.
From Verif Require Import FieldTac ModelFunctional PropsFunctional ModelSer ProofsSer PropsSer ProofsSerPlace PropsSerPlace.
Set Implicit Arguments. Unset Strict Implicit. Unset Printing Implicit Defensive.
Import GRing.Theory.
Local Open Scope ring_scope.

Section Indep.
Variable F : fieldType.
Hypothesis ch : [char F] =i pred0.
Lemma nz n : n.+1%:R != 0 :> F. Proof. by have := charf0P F; case=> /(_ ch) ->. Qed.
Fixpoint legP2 (n : nat) : {poly F} * {poly F} :=
  if n is n'.+1 then let '(p, q) := legP2 n' in
    ((n'.+1%:R)^-1 *: ((2 * n' + 1)%:R *: ('X * p) - n'%:R *: q), p)
  else (1, 0).
Definition legP n := (legP2 n).1.
Lemma legP_val n x : (legP n).[x] = leg n x.
Proof.
rewrite /legP /leg /legval. suff: (legP2 n).1.[x] = (legendre2 n x).1 /\ (legP2 n).2.[x] = (legendre2 n x).2 by case.
elim: n => [|n IH] /=; first by rewrite hornerC horner0.
move: IH. case: (legP2 n) (legendre2 n x) => p q [a b] /= [<- <-]; split=> //.
rewrite hornerZ hornerD hornerN !hornerZ hornerM hornerX [RHS]mulrC; congr (_ * (_ - _)); by rewrite mulrA. Qed.
Lemma legP_size n : (size (legP n) <= n.+1)%N /\ (legP n)`_n != 0.
Proof.
suff: [/\ (size (legP2 n).1 <= n.+1)%N, ((legP2 n).1)`_n != 0 & (size (legP2 n).2 <= n)%N] by case.
elim: n => [|n IH] /=; first by rewrite size_poly1 size_poly0 coef1 oner_neq0.
move: IH. case: (legP2 n) => p q /= [Hp Hl Hq]; split=> //.
- apply: leq_trans (size_scale_leq _ _) _. apply: leq_trans (size_add _ _) _. rewrite size_opp geq_max; apply/andP; split.
  + apply: leq_trans (size_scale_leq _ _) _. apply: leq_trans (size_mul_leq _ _) _. by rewrite size_polyX.
  + apply: leq_trans (size_scale_leq _ _) _. by apply: leq_trans Hq _; rewrite !leqW.
- rewrite coefZ coefB !coefZ coefXM /= [q`_n.+1]nth_default ?mulr0 ?subr0; last by apply: leq_trans Hq _.
  by rewrite mulf_neq0 ?invr_eq0 ?nz // mulf_neq0 // addn1 nz. Qed.
Lemma leg_indep n (c : nat -> F) : \sum_(j < n) c j *: legP j = 0 -> forall j, (j < n)%N -> c j = 0.
Proof.
elim: n => [//|n IH] H.
have Hn : c n = 0.
  have := congr1 (fun p : {poly F} => p`_n) H. rewrite big_ord_recr coefD /= coef_sum big1 ?add0r ?coef0 ?coefZ.
    by move/eqP; rewrite mulf_eq0 (negbTE (proj2 (legP_size n))) orbF => /eqP.
  move=> j _; rewrite coefZ nth_default ?mulr0 //. by apply: leq_trans (proj1 (legP_size j)) _; case: j.
move=> j; rewrite ltnS leq_eqVlt => /orP [/eqP -> //|]. apply: IH.
by move: H; rewrite big_ord_recr /= Hn scale0r addr0. Qed.

(** a polynomial with too many zeros *)
Lemma poly_fun0 (p : {poly F}) : (forall t : F, t != 0 -> t != 1 -> p.[t] = 0) -> p = 0.
Proof.
move=> H. apply/eqP; apply/negP => /negP p0.
pose rs : seq F := [seq k.+2%:R | k <- iota 0 (size p)].
have := @max_poly_roots _ p rs p0.
rewrite /rs size_map size_iota ltnn => Hn; suff: false by []; apply: Hn.
- apply/allP => t /mapP [k _ ->]. rewrite rootE; apply/eqP; apply: H; first by rewrite nz.
  by rewrite -subr_eq0 -addn1 natrD addrK nz.
- rewrite map_inj_uniq ?iota_uniq // => a b /eqP. rewrite -subr_eq0.
  have W (u v : nat) : (u < v)%N -> v.+2%:R - u.+2%:R != 0 :> F.
    move=> uv. rewrite -natrB; last by lia. rewrite (_ : (v.+2 - u.+2)%N = (v - u).-1.+1) ?nz //; lia.
  case: (ltngtP a b) => // ab; last by rewrite (negbTE (W _ _ ab)).
  by rewrite -oppr_eq0 opprB (negbTE (W _ _ ab)). Qed.
Lemma psi_indep n (c : nat -> F) : (forall t, \sum_(a < n) c a * psi a t = 0) -> forall a, (a < n)%N -> c a = 0.
Proof.
move=> H.
have S (b : bool) a : psi a (b%:R : F) = (a == b :> nat)%:R.
  by case: a => [|[|a]]; case: b => /=; rewrite ?subrr ?subr0 ?mulr0 ?mul0r ?mulr0.
have C (b : bool) : (b < n)%N -> c b = 0.
  move=> Hb. have := H b%:R. rewrite (bigD1 (Ordinal Hb)) //= S eqxx mulr1 big1 ?addr0 //.
  move=> j; rewrite -val_eqE /= => /negbTE Hj. by rewrite S Hj mulr0.
have C0 := C false. have C1 := C true.
move=> a Ha; case: a Ha => [|[|a]] Ha; [exact: C0|exact: C1|].
suff Hq : \sum_(j < n) (if (j.+2 < n)%N then c j.+2 else 0) *: legP j = 0.
  have := @leg_indep n (fun j => if (j.+2 < n)%N then c j.+2 else 0) Hq a; rewrite Ha; apply; lia.
- pose q := \sum_(j < n) (if (j.+2 < n)%N then c j.+2 else 0) *: legP j.
  rewrite -/q. suff: q \Po (2%:P * 'X - 1) = 0.
    move/(congr1 (fun p => p \Po (2^-1%:P * ('X + 1)))). rewrite comp_poly0 -comp_polyA.
    suff -> : (2%:P * 'X - 1) \Po (2^-1%:P * ('X + 1)) = 'X :> {poly F} by rewrite comp_polyXr.
    rewrite comp_polyB comp_polyM -polyC1 !comp_polyC comp_polyX mulrA -polyCM mulfV ?(nz 1) // polyC1 mul1r addrK //.
  apply: poly_fun0 => t t0 t1. rewrite horner_comp !hornerE.
  have Ht : (1 - t) * t != 0 by rewrite mulf_neq0 // subr_eq0 eq_sym.
  apply: (mulIf Ht). rewrite mul0r /q horner_sum mulr_suml -[RHS](H t).
  have K : forall m, (m <= n)%N -> \sum_(i < m) ((if (i.+2 < n)%N then c i.+2 else 0) *: legP i).[2 * t - 1] * ((1 - t) * t) =
     \sum_(a < m.+2) (if (a < n)%N then c a * psi a t else 0).
    elim=> [|m IHm] Hm; first by rewrite big_ord0 !big_ord_recr big_ord0 /=; case: ifP => [/C0 ->|_]; rewrite ?mul0r ?add0r; case: ifP => [/C1 ->|_]; rewrite ?mul0r.
    rewrite big_ord_recr IHm ?(ltnW Hm) // [RHS]big_ord_recr /=; congr (_ + _).
    by rewrite hornerZ legP_val; case: (_ < n)%N; rewrite ?mul0r -?mulrA.
  rewrite K // !big_ord_recr /= !ifN ?addr0; [|lia|lia].
  by apply: eq_bigr => i _; rewrite ltn_ord. Qed.

Lemma indep1 n (P : pred 'I_n) (w : 'I_n -> F) (k : 'I_n -> nat) :
  (forall t, \sum_(f < n | P f) w f * psi (k f) t = 0) -> forall a, \sum_(f < n | P f && (k f == a)) w f = 0.
Proof.
move=> H a.
pose N := (a + \max_(f < n) k f).+1.
have HN f : (k f < N)%N by rewrite /N ltnS; apply: leq_trans (leq_bigmax f) _; exact: leq_addl.
apply: (@psi_indep N (fun a => \sum_(f < n | P f && (k f == a)) w f)); last by rewrite /N ltnS leq_addr.
move=> t. rewrite -[RHS](H t) (partition_big (fun f => Ordinal (HN f)) predT) //=.
apply: eq_bigr => b _. rewrite mulr_suml. apply: eq_big => f; first by rewrite -val_eqE.
by move=> /andP [_ /eqP ->]. Qed.
End Indep.

Lemma uniq_flatten (X T : eqType) (ents : seq X) (B : X -> seq T) : uniq ents -> (forall x, x \in ents -> uniq (B x)) ->
  (forall x y i, x \in ents -> y \in ents -> i \in B x -> i \in B y -> x = y) -> uniq (flatten [seq B x | x <- ents]).
Proof.
elim: ents => //= x ents IH /andP [Hx Hu] HB Hd. rewrite cat_uniq HB ?mem_head //= IH //; first last.
- by move=> y z i Hy Hz; apply: Hd; rewrite inE ?Hy ?Hz orbT.
- by move=> y Hy; apply: HB; rewrite inE Hy orbT.
rewrite andbT; apply/hasPn => i /flatten_mapP [y Hy Hi]. apply/negP => Hi'.
have E := Hd x y i (mem_head _ _). rewrite inE Hy orbT in E. by rewrite (E isT Hi' Hi) Hy in Hx. Qed.
Lemma kj_mem i q : q \in kj i -> (4 <= q.1)%N /\ (q.2 <= q.1 - 4)%N.
Proof. move=> /flatten_mapP [k]. rewrite mem_iota => Hk /mapP [j]. rewrite mem_iota => Hj -> /=; lia. Qed.
Lemma kj_uniq i : uniq (kj i).
Proof.
apply: uniq_flatten; first exact: iota_uniq.
- by move=> k _; rewrite map_inj_uniq ?iota_uniq // => a b [].
- by move=> x y q _ _ /mapP [j _ ->] /mapP [j' _ []]. Qed.
Lemma F2_uniq i : uniq (F2 i).
Proof. rewrite /F2 map_inj_in_uniq ?kj_uniq // => -[k j] [k' j'] /kj_mem /= H /kj_mem /= H' [E1 E2]. by congr (_, _); lia. Qed.
Lemma ljk_mem i q : q \in ljk i -> [/\ (6 <= q.1.1)%N, (q.1.2 <= q.1.1 - 6)%N & (q.2 <= q.1.2)%N].
Proof. move=> /flatten_mapP [l]. rewrite mem_iota => Hl /flatten_mapP [j]. rewrite mem_iota => Hj /mapP [k]. rewrite mem_iota => Hk -> /=; split; lia. Qed.
Lemma ljk_uniq i : uniq (ljk i).
Proof.
apply: uniq_flatten; first exact: iota_uniq.
- move=> l _; apply: uniq_flatten; first exact: iota_uniq.
  + by move=> k _; rewrite map_inj_uniq ?iota_uniq // => a b [].
  + by move=> x y q _ _ /mapP [j _ ->] /mapP [j' _ []].
- by move=> x y q _ _ /flatten_mapP [j _ /mapP [k _ ->]] /flatten_mapP [j' _ /mapP [k' _ []]]. Qed.
Lemma I3_uniq i : uniq (I3 i).
Proof. rewrite /I3 map_inj_in_uniq ?ljk_uniq // => -[[k j] m] [[k' j'] m'] /ljk_mem /= [H1 H2 H3] /ljk_mem /= [H1' H2' H3'] [E1 E2 E3]. by congr (_, _, _); lia. Qed.
Lemma E1_uniq i : uniq (E1 i). Proof. by rewrite /E1 map_inj_uniq ?iota_uniq // => a b []. Qed.

Definition clash (o o' : option bool) : bool :=
  match o, o' with Some b, Some b' => b != b' | None, None => false | _, _ => true end.
Lemma clashP a o o' : agrees a o -> agrees a o' -> clash o o' = false.
Proof. case: o o' => [b|] [b'|] //=; [|by move=> /eqP ->; case: b|by move=> H /eqP E; rewrite E in H; case: b' H E]. by move=> /eqP -> /eqP; case: b b' => [] []. Qed.
Lemma clash2 : all (fun x => all (fun y => (x == y) || has (fun k => clash (code2 x k) (code2 y k)) [:: 0; 1]%N) ents2) ents2.
Proof. by vm_compute. Qed.
Lemma clash3 : all (fun x => all (fun y => (x == y) || has (fun k => clash (code3 x k) (code3 y k)) [:: 0; 1; 2]%N) ents3) ents3.
Proof. by vm_compute. Qed.
Lemma ix2_uniq deg : (0 < deg)%N -> uniq [seq i.2 | i <- ix2 deg].
Proof.
move=> Hdeg. have -> : [seq i.2 | i <- ix2 deg] = flatten [seq [seq i.2 | i <- b2 deg x] | x <- ents2] by rewrite map_flatten -map_comp.
apply: uniq_flatten; first by vm_compute.
- move=> x; rewrite ents2E !inE => Hx.
  repeat (case/orP: Hx => [/eqP -> | Hx]; [by rewrite //= -map_comp map_inj_uniq ?E1_uniq // => a b []|]).
  by move/eqP: Hx => -> /=; rewrite -map_comp map_id_in ?F2_uniq.
- move=> x y i Hx Hy /mapP [j /b2_code [[A0 A1]|/negP //] ->] /mapP [j' /b2_code [[B0 B1]|/negP //] E].
  have /allP /(_ _ Hy) := allP clash2 _ Hx. case: eqP => //= _. rewrite E in A0 A1.
  by rewrite (clashP A0 B0) (clashP A1 B1). Qed.
Lemma ix3_uniq deg : (0 < deg)%N -> uniq [seq i.2 | i <- ix3 deg].
Proof.
move=> Hdeg. have -> : [seq i.2 | i <- ix3 deg] = flatten [seq [seq i.2 | i <- b3 deg x] | x <- ents3] by rewrite map_flatten -map_comp.
apply: uniq_flatten; first by vm_compute.
- move=> x; rewrite ents3E !inE => Hx.
  repeat (case/orP: Hx => [/eqP -> | Hx]; [first [by []|by rewrite /= -map_comp map_inj_uniq ?E1_uniq // => a b []|by rewrite /= -map_comp map_inj_uniq ?F2_uniq // => -[a a'] [b b'] [-> ->]]|]).
  by move/eqP: Hx => -> /=; rewrite -map_comp map_id_in ?I3_uniq.
- move=> x y i Hx Hy /mapP [j /b3_code [[A0 [A1 A2]]|/negP //] ->] /mapP [j' /b3_code [[B0 [B1 B2]]|/negP //] E].
  have /allP /(_ _ Hy) := allP clash3 _ Hx. case: eqP => //= _. rewrite E in A0 A1 A2.
  by rewrite (clashP A0 B0) (clashP A1 B1) (clashP A2 B2). Qed.

Section Main.
Variables (F : fieldType) (c : ModelCell.cell) (degree : nat).
Hypothesis ch : [char F] =i pred0.
Hypothesis Hc : ProofsSerIds.ser_cell c.
Hypothesis Hdeg : (0 < degree)%N.
(** ** C35: no nontrivial combination of the basis functions vanishes, so the
    dimension of the space they span is their number. *)
Theorem C35_independent ids n basis (w : nat -> F) : Serendipity F c degree = Base.Ok (IsSerendipity ids n basis) ->
  (forall x y z, \sum_(f < n) w f * nth 0 (basis x y z) f = 0) -> forall f, (f < n)%N -> w f = 0.
Proof.
have [H1 _] := @ser_result F c degree Hc Hdeg.
rewrite H1 => -[_ <- <-] H f Hf.
have Hsz := @size_s_list F c degree Hc Hdeg 0 0 0.
have [_ [_ [_ [Hd _]]]] := ProofsSerIds.ser_checks _ Hc.
case: Hd => Hd; rewrite Hd in H Hf Hsz; set n' := serendipity_dim _ _ in H Hf Hsz.
- rewrite s_list2 size_map in Hsz.
  have Hs x y : \sum_(f < n') w f * sgn F (nth (false, (0,0)%N) (ix2 degree) f).1 * psi (nth (false, (0,0)%N) (ix2 degree) f).2.1 x * psi (nth (false, (0,0)%N) (ix2 degree) f).2.2 y = 0.
    rewrite -[RHS](H x y 0). apply: eq_bigr => g _. by rewrite s_list2 (nth_map (false, (0,0)%N)) ?Hsz ?ltn_ord // /val2 !mulrA.
  set i := nth (false, (0,0)%N) (ix2 degree) in Hs.
  have S1 y := indep1 ch (P := predT) (w := fun f : 'I_n' => w f * sgn F (i f).1 * psi (i f).2.2 y) (k := fun f => (i f).2.1).
  have S2 a := indep1 ch (P := fun f : 'I_n' => (i f).2.1 == a) (w := fun f : 'I_n' => w f * sgn F (i f).1) (k := fun f => (i f).2.2).
  have S : forall a b, \sum_(f < n' | ((i f).2.1 == a) && ((i f).2.2 == b)) w f * sgn F (i f).1 = 0.
    move=> a b; apply: S2 => y. apply: S1 => x. rewrite -[RHS](Hs x y). apply: eq_bigr => g _. by rewrite mulrAC.
  have := S (i f).2.1 (i f).2.2. rewrite (bigD1 (Ordinal Hf)) ?eqxx //= big1 ?addr0.
    by move/eqP; rewrite mulf_eq0 => /orP [/eqP //|]; rewrite /sgn; case: ifP => _; rewrite ?oppr_eq0 oner_eq0.
  move=> g /andP [/andP [/eqP E1 /eqP E2] /negP []]. apply/eqP/val_inj => /=.
  have U := ix2_uniq Hdeg.
  have := nth_uniq (0, 0)%N _ _ U (i := g) (j := f). rewrite size_map Hsz ltn_ord Hf => /(_ isT isT).
  rewrite !(nth_map (false, (0,0)%N)) ?Hsz ?ltn_ord //. rewrite -/i -pair_eqE /= E1 E2 !eqxx => /esym /eqP //.
- rewrite s_list3 size_map in Hsz.
  have Hs x y z : \sum_(f < n') w f * sgn F (nth (false, (0,0,0)%N) (ix3 degree) f).1 * psi (nth (false, (0,0,0)%N) (ix3 degree) f).2.1.1 x *
      psi (nth (false, (0,0,0)%N) (ix3 degree) f).2.1.2 y * psi (nth (false, (0,0,0)%N) (ix3 degree) f).2.2 z = 0.
    rewrite -[RHS](H x y z). apply: eq_bigr => g _. by rewrite s_list3 (nth_map (false, (0,0,0)%N)) ?Hsz ?ltn_ord // /val3 !mulrA.
  set i := nth (false, (0,0,0)%N) (ix3 degree) in Hs.
  have S1 y z := indep1 ch (P := predT) (w := fun f : 'I_n' => w f * sgn F (i f).1 * psi (i f).2.1.2 y * psi (i f).2.2 z) (k := fun f => (i f).2.1.1).
  have S2 a z := indep1 ch (P := fun f : 'I_n' => (i f).2.1.1 == a) (w := fun f : 'I_n' => w f * sgn F (i f).1 * psi (i f).2.2 z) (k := fun f => (i f).2.1.2).
  have S3 a b := indep1 ch (P := fun f : 'I_n' => ((i f).2.1.1 == a) && ((i f).2.1.2 == b)) (w := fun f : 'I_n' => w f * sgn F (i f).1) (k := fun f => (i f).2.2).
  have S : forall a b d, \sum_(f < n' | ((i f).2.1.1 == a) && ((i f).2.1.2 == b) && ((i f).2.2 == d)) w f * sgn F (i f).1 = 0.
    move=> a b d; apply: S3 => z. apply: S2 => y. rewrite -[RHS](S1 y z _ a) => [|x].
      by apply: eq_bigr => g _; rewrite mulrAC.
    rewrite -[RHS](Hs x y z). apply: eq_bigr => g _. by rewrite mulrAC; congr (_ * _); rewrite mulrAC.
  have := S (i f).2.1.1 (i f).2.1.2 (i f).2.2. rewrite (bigD1 (Ordinal Hf)) ?eqxx //= big1 ?addr0.
    by move/eqP; rewrite mulf_eq0 => /orP [/eqP //|]; rewrite /sgn; case: ifP => _; rewrite ?oppr_eq0 oner_eq0.
  move=> g /andP [/andP [/andP [/eqP E1 /eqP E2] /eqP E3] /negP []]. apply/eqP/val_inj => /=.
  have U := ix3_uniq Hdeg.
  have := nth_uniq (0, 0, 0)%N _ _ U (i := g) (j := f). rewrite size_map Hsz ltn_ord Hf => /(_ isT isT).
  rewrite !(nth_map (false, (0,0,0)%N)) ?Hsz ?ltn_ord //. have E : (i g).2 = (i f).2 by move: E1 E2 E3; case: ((i g).2) => [[? ?] ?]; case: ((i f).2) => [[? ?] ?] /= -> -> ->.
  by rewrite -/i E eqxx => /esym /eqP.
Qed.
End Main.
