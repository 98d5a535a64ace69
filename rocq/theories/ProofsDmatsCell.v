(** The symbolic and the numeric runs of the tabulation programs agree, and
    the expansion functions have the expected degree. *)
Set Warnings "-notation-overridden,-ambiguous-paths".
From mathcomp Require Import all_ssreflect all_algebra zify.
From Verif Require Base ModelIndex.
From Verif Require Import FieldTac RingTac ModelJacobi SpecJacobi ProofsJacobi ProofsOrtho ModelExpansion SpecExpansion ProofsExpIdx ProofsExpProg ProofsExpOrtho ProofsExpDeg ModelDmats ProofsDmats.
Set Implicit Arguments. Unset Strict Implicit. Unset Printing Implicit Defensive.
Import GRing.Theory.
Local Open Scope ring_scope.

Lemma full_ok (A : Type) (s : store A) N (f : nat -> A) : size s = N -> (forall k, (k < N)%N -> nth None s k = Some (f k)) ->
  full s = Ok [seq f k | k <- iota 0 N].
Proof.
move=> Hs H. have -> : s = [seq Some (f k) | k <- iota 0 N].
{ apply: (@eq_from_nth _ None); first by rewrite size_map size_iota. move=> i. rewrite Hs => Hi. by rewrite H // nth_map_iota. }
rewrite /full all_map all_predT. congr Ok. elim: (iota 0 N) => [|i l IH] //=. by rewrite IH.
Qed.
Lemma map_res_ok (A B : Type) (f : A -> result B) (g : A -> B) l : (forall a, f a = Ok (g a)) -> map_res f l = Ok [seq g a | a <- l].
Proof. move=> H. elim: l => [|a l IH] //=. by rewrite H /= IH. Qed.

(** inverses of the mode numbering *)
Definition tdec n k : nat * nat :=
  if [pick x : 'I_n.+1 * 'I_n.+1 | (x.1 + x.2 <= n)%N && (tri_idx x.1 x.2 == k)] is Some x then (nat_of_ord x.1, nat_of_ord x.2) else (0%N, 0%N).
Lemma tdec_ok n k : (k < tri_num n)%N -> ((tdec n k).1 + (tdec n k).2 <= n)%N /\ tri_idx (tdec n k).1 (tdec n k).2 = k.
Proof.
move=> Hk. have [p [q [Hpq E]]] := tri_idx_surj Hk. rewrite /tdec. case: pickP => [x /andP [H1 /eqP H2]|H] //=.
have Hp : (p < n.+1)%N by lia. have Hq : (q < n.+1)%N by lia.
have := H (Ordinal Hp, Ordinal Hq). by rewrite /= Hpq E eqxx.
Qed.
Lemma tdec_idx n p q : (p + q <= n)%N -> tdec n (tri_idx p q) = (p, q).
Proof.
move=> H. have [H1 H2] := tdec_ok (tri_idx_lt H). have [E1 E2] := tri_idx_inj H2.
by rewrite [tdec _ _]surjective_pairing E1 E2.
Qed.
Definition sdec n k : nat * nat * nat :=
  if [pick x : 'I_n.+1 * 'I_n.+1 * 'I_n.+1 | (x.1.1 + x.1.2 + x.2 <= n)%N && (tet_idx x.1.1 x.1.2 x.2 == k)] is Some x
  then (nat_of_ord x.1.1, nat_of_ord x.1.2, nat_of_ord x.2) else (0%N, 0%N, 0%N).
Lemma sdec_ok n k : (k < tet_num n)%N ->
  ((sdec n k).1.1 + (sdec n k).1.2 + (sdec n k).2 <= n)%N /\ tet_idx (sdec n k).1.1 (sdec n k).1.2 (sdec n k).2 = k.
Proof.
move=> Hk. have [p [q [r [Hpq E]]]] := tet_idx_surj Hk. rewrite /sdec. case: pickP => [x /andP [H1 /eqP H2]|H] //=.
have Hp : (p < n.+1)%N by lia. have Hq : (q < n.+1)%N by lia. have Hr : (r < n.+1)%N by lia.
have := H (Ordinal Hp, Ordinal Hq, Ordinal Hr). by rewrite /= Hpq E eqxx.
Qed.
Lemma sdec_idx n p q r : (p + q + r <= n)%N -> sdec n (tet_idx p q r) = (p, q, r).
Proof.
move=> H. have [H1 H2] := sdec_ok (tet_idx_lt H). have [E1 [E2 E3]] := tet_idx_inj H2.
by rewrite [sdec _ _]surjective_pairing [(sdec _ _).1]surjective_pairing E1 E2 E3.
Qed.

Section Lin.
Variables (F : fieldType) (A : comRingType) (e : F -> A) (D : nat -> A -> Prop).
Hypotheses (FD : filt D) (C : forall c, D 0%N (e c)) (N1 : D 0%N (-1)).
Ltac lin :=
  repeat first
   [ apply: (filtD FD) | apply: (filtN FD N1) | assumption
   | apply: (filtW FD); exact: (filt1 FD) | apply: (filtW FD); exact: (filt_nat _ FD) | apply: (filtW FD); exact: C
   | apply: (@filtM _ _ FD 0 1); [first [exact: C|exact: (filt_nat _ FD)]|] ].
Variables (h : F) (x y z : A).
Hypotheses (Hx : D 1%N x) (Hy : D 1%N y) (Hz : D 1%N z).
Lemma lin_t1 : D 1%N ((1 + 2%:R * x + y) * e h). Proof. rewrite mulrC. lin. Qed.
Lemma lin_t2 : D 1%N ((1 - y) * e h). Proof. rewrite mulrC. lin. Qed.
Lemma lin_s1 : D 1%N (e h * (2%:R + 2%:R * x + y + z)). Proof. lin. Qed.
Lemma lin_s2 : D 1%N (- (e h * (y + z))). Proof. lin. Qed.
Lemma lin_s3 : D 1%N (e h * (1 + 2%:R * y + z)). Proof. lin. Qed.
Lemma lin_s4 : D 1%N (e h * (1 - z)). Proof. lin. Qed.
Lemma lin_r2 a c d : D 1%N (e a * x + (e c * y + 0) + e d). Proof. rewrite addr0. lin. Qed.
Lemma lin_r3 a c d f : D 1%N (e a * x + (e c * y + (e d * z + 0)) + e f). Proof. rewrite addr0. lin. Qed.
End Lin.

Section Cells.
Variable F : fieldType.
Hypothesis F0 : char_zero F.
Variable sqrt : F -> F.
Notation poly2 := {poly {poly F}}.
Notation poly3 := {poly {poly {poly F}}}.
Notation idF := [rmorphism of @idfun F].
Notation D1 := (lift (@base F)).
Notation D2 := (lift (lift (@base F))).
Notation D3 := (lift (lift (lift (@base F)))).

(** *** Monomials *)
Definition mono2 n (m : 'I_(tri_num n)) : poly2 := 'X ^+ (tdec n m).1 * ('X%:P) ^+ (tdec n m).2.
Lemma decomp2 n (P : poly2) : deg2_le n P ->
  P = \sum_(m < tri_num n) emb2 F (P`_(tdec n m).1)`_(tdec n m).2 * mono2 m.
Proof.
move=> HP. apply/polyP => i. apply/polyP => j. rewrite coef_sum coef_sum.
have E (m : 'I_(tri_num n)) : (emb2 F (P`_(tdec n m).1)`_(tdec n m).2 * mono2 m)`_i`_j =
  if (i == (tdec n m).1) && (j == (tdec n m).2) then P`_i`_j else 0.
{ rewrite /mono2 /= coefCM -rmorphX coefMC coefXn coefCM. case: eqP => [<-|_] /=; last by rewrite mul0r coef0 mulr0.
  rewrite mul1r coefXn. case: eqP => [<-|_]; by rewrite ?mulr1 ?mulr0. }
rewrite (eq_bigr _ (fun m _ => E m)).
case: (leqP (i + j) n) => Hij.
- rewrite (bigD1 (Ordinal (tri_idx_lt Hij))) //= tdec_idx //= !eqxx /= big1 ?addr0 // => m Hm. case: ifP => // /andP [/eqP E1 /eqP E2].
  case/eqP: Hm. apply/val_inj => /=. rewrite E1 E2. by have [_ ->] := tdec_ok (ltn_ord m).
- rewrite HP // big1 // => m _. by case: ifP.
Qed.
Definition mono3 n (m : 'I_(tet_num n)) : poly3 := 'X ^+ (sdec n m).1.1 * ('X%:P) ^+ (sdec n m).1.2 * ('X%:P%:P) ^+ (sdec n m).2.
Lemma decomp3 n (P : poly3) : deg3_le n P ->
  P = \sum_(m < tet_num n) emb3 F ((P`_(sdec n m).1.1)`_(sdec n m).1.2)`_(sdec n m).2 * mono3 m.
Proof.
move=> HP. apply/polyP => i. apply/polyP => j. apply/polyP => k. rewrite coef_sum coef_sum coef_sum.
have E (m : 'I_(tet_num n)) : (emb3 F ((P`_(sdec n m).1.1)`_(sdec n m).1.2)`_(sdec n m).2 * mono3 m)`_i`_j`_k =
  if [&& i == (sdec n m).1.1, j == (sdec n m).1.2 & k == (sdec n m).2] then P`_i`_j`_k else 0.
{ rewrite /mono3 /= coefCM -!rmorphX coefMC coefMC coefXn. case: eqP => [<-|_] /=; last by rewrite !mul0r mulr0 !coef0.
  rewrite mul1r coefCM coefMC coefXn. case: eqP => [<-|_] /=; last by rewrite mul0r mulr0 coef0.
  rewrite mul1r coefCM coefXn. case: eqP => [<-|_]; by rewrite ?mulr1 ?mulr0. }
rewrite (eq_bigr _ (fun m _ => E m)).
case: (leqP (i + j + k) n) => Hij.
- rewrite (bigD1 (Ordinal (tet_idx_lt Hij))) //= sdec_idx //= !eqxx /= big1 ?addr0 // => m Hm. case: ifP => // /and3P [/eqP E1 /eqP E2 /eqP E3].
  case/eqP: Hm. apply/val_inj => /=. rewrite E1 E2 E3. by have [_ ->] := sdec_ok (ltn_ord m).
- rewrite HP // big1 // => m _. by case: ifP.
Qed.

(** *** Degrees for arbitrary affine arguments *)
Lemma triVS_deg x y k : D2 1 x -> D2 1 y -> deg2_le (k.1 + k.2) (triVS (emb2 F) sqrt x y k).
Proof.
move=> Hx Hy. apply: lift2E. rewrite /triVS /triV -[(k.1 + k.2)%N]addn0. apply: (filtM (fD2 F)); last exact: D2c.
apply: (filtM (fD2 F)); apply: (@filt_hom F _ (emb2 F) D2 _ _ _ _ (fD2 F) (@D2c F)).
- exact: (lin_t1 (fD2 F) (@D2c F) _ Hx Hy).
- exact: (lin_t2 (fD2 F) (@D2c F) (D2N1 F) _ Hy).
- exact: Hy.
- apply: (filtW (fD2 F)). exact: (filt1 (fD2 F)).
Qed.
Lemma tetVS_deg x y z k : D3 1 x -> D3 1 y -> D3 1 z -> deg3_le (k.1.1 + k.1.2 + k.2) (tetVS (emb3 F) sqrt x y z k).
Proof.
move=> Hx Hy Hz. apply: lift3E. rewrite /tetVS /tetV -[(k.1.1 + k.1.2 + k.2)%N]addn0. apply: (filtM (fD3 F)); last exact: D3c.
apply: (filtM (fD3 F)); [apply: (filtM (fD3 F))|]; apply: (@filt_hom F _ (emb3 F) D3 _ _ _ _ (fD3 F) (@D3c F)).
- exact: (lin_s1 (fD3 F) (@D3c F) _ Hx Hy Hz).
- exact: (lin_s2 (fD3 F) (@D3c F) (D3N1 F) _ Hy Hz).
- exact: (lin_s3 (fD3 F) (@D3c F) _ Hy Hz).
- exact: (lin_s4 (fD3 F) (@D3c F) (D3N1 F) _ Hz).
- exact: Hz.
- apply: (filtW (fD3 F)). exact: (filt1 (fD3 F)).
Qed.
Lemma triVS_morph (B C : comRingType) (e : {rmorphism F -> B}) (e' : {rmorphism F -> C}) (g : {rmorphism B -> C}) x y k :
  (forall c, g (e c) = e' c) -> g (triVS e sqrt x y k) = triVS e' sqrt (g x) (g y) k.
Proof.
move=> H. by rewrite /triVS /triV !rmorphM !(@hjac_morph F _ _ e e') // !rmorphM !rmorphD rmorphM rmorph1 rmorphN rmorph_nat !H.
Qed.
Lemma tetVS_morph (B C : comRingType) (e : {rmorphism F -> B}) (e' : {rmorphism F -> C}) (g : {rmorphism B -> C}) x y z k :
  (forall c, g (e c) = e' c) -> g (tetVS e sqrt x y z k) = tetVS e' sqrt (g x) (g y) (g z) k.
Proof.
move=> H. by rewrite /tetVS /tetV !rmorphM !(@hjac_morph F _ _ e e') // rmorphN !rmorphM !rmorphD !rmorphM rmorph1 rmorphN !rmorph_nat !H.
Qed.

Lemma ref_morph (B C : comRingType) (e : F -> B) (e' : F -> C) (g : {rmorphism B -> C}) m1 m2 M b (pts : seq B) i :
  (forall c, g (e c) = e' c) -> (i < m1)%N ->
  g (nth 0 (ref_pts e m1 m2 M b pts) i) = nth 0 (ref_pts e' m1 m2 M b [seq g p | p <- pts]) i.
Proof.
move=> Hg Hi. rewrite !(nth_map 0%N) ?size_iota ?subn0 // rmorphD rmorph_sum Hg. congr (_ + _). apply: eq_bigr => j _.
rewrite rmorphM Hg. congr (_ * _). case: (ltnP j (size pts)) => Hj; first by rewrite (nth_map 0).
by rewrite !nth_default ?size_map // rmorph0.
Qed.
(** *** Triangle *)
Section Tri.
Variables (M : nat -> nat -> F) (b : nat -> F) (n : nat).
Definition xt (i : nat) : poly2 := nth 0 (ref_pts (emb2 F) 2 2 M b [:: 'X; 'X%:P]) i.
Definition tri_phi (k : nat) : poly2 := if n == 0%N then 1 else triVS (emb2 F) sqrt (xt 0) (xt 1) (tdec n k).
Lemma xt_deg i : (i < 2)%N -> D2 1 (xt i).
Proof.
move=> Hi. rewrite /xt (nth_map 0%N) ?size_iota // /rng /= !big_cons big_nil /=. exact: (lin_r2 (fD2 F) (@D2c F) (D2X F) (D2Y F)).
Qed.
Lemma tri_phi_deg k : (k < tri_num n)%N -> deg2_le n (tri_phi k).
Proof.
move=> Hk. rewrite /tri_phi. case: eqP => [->|_].
- move=> i j Hij. rewrite coef1. case: i Hij => [|i] Hij; last by rewrite coef0. by rewrite coef1; case: j Hij.
- have [H _] := tdec_ok Hk. move=> i j Hij. apply: (triVS_deg (xt_deg _) (xt_deg _)) => //. lia.
Qed.
Lemma tri_run (B : comRingType) (e : {rmorphism F -> B}) (g : {rmorphism poly2 -> B}) :
  (forall c, g (emb2 F c) = e c) ->
  bind (tri_tabulate e sqrt M b n [:: g 'X; g 'X%:P]) (@full B) = Ok [seq g (tri_phi k) | k <- iota 0 (tri_num n)].
Proof.
move=> Hg. rewrite /tri_phi. case: (posnP n) => [->|Hn] /=.
- by rewrite /tri_tabulate /= !addrK /= rmorph1.
- have [s [-> [Hs H]]] := tri_tabulate_ok e sqrt F0 M b [:: g 'X; g 'X%:P] Hn. apply: full_ok => // k Hk.
  have [H1 H2] := tdec_ok Hk. rewrite -{1}H2. have := H (tdec n k) H1. rewrite /trii => ->. congr Some.
  rewrite (triVS_morph _ _ _ Hg). rewrite !(ref_morph _ M b _ Hg) //.
Qed.
Lemma tri_table_ok pts : tri_table sqrt M b n pts = Ok [seq [seq ev2m p.1 p.2 (tri_phi k) | k <- iota 0 (tri_num n)] | p <- pts].
Proof.
apply: map_res_ok => p. rewrite -(@tri_run F idF (ev2m p.1 p.2)) ?ev2m_X ?ev2m_Y //. by move=> c; rewrite ev2m_c.
Qed.
Lemma tri_syms : bind (tri_tabulate (fun c => c%:P%:P) sqrt M b n [:: 'X; 'X%:P]) (@full poly2) = Ok [seq tri_phi k | k <- iota 0 (tri_num n)].
Proof.
have H := @tri_run [comRingType of poly2] (emb2 F) [rmorphism of @idfun poly2]. set T := bind _ _. 
rewrite (_ : T = Ok [seq idfun (tri_phi k) | k <- iota 0 (tri_num n)]) //. rewrite -H //.
Qed.
End Tri.

Section Tet.
Variables (M : nat -> nat -> F) (b : nat -> F) (n : nat).
Definition xs (i : nat) : poly3 := nth 0 (ref_pts (emb3 F) 3 3 M b [:: 'X; 'X%:P; 'X%:P%:P]) i.
Definition tet_phi (k : nat) : poly3 := if n == 0%N then 1 else tetVS (emb3 F) sqrt (xs 0) (xs 1) (xs 2) (sdec n k).
Lemma xs_deg i : (i < 3)%N -> D3 1 (xs i).
Proof.
move=> Hi. rewrite /xs (nth_map 0%N) ?size_iota // /rng /= !big_cons big_nil /=. exact: (lin_r3 (fD3 F) (@D3c F) (D3X F) (D3Y F) (D3Z F)).
Qed.
Lemma tet_phi_deg k : (k < tet_num n)%N -> deg3_le n (tet_phi k).
Proof.
move=> Hk. rewrite /tet_phi. case: eqP => [->|_].
- move=> i j l Hij. rewrite coef1. case: i Hij => [|i] Hij; last by rewrite !coef0. rewrite coef1. case: j Hij => [|j] Hij; last by rewrite coef0.
  by rewrite coef1; case: l Hij.
- have [H _] := sdec_ok Hk. move=> i j l Hij. apply: (tetVS_deg (xs_deg _) (xs_deg _) (xs_deg _)) => //. lia.
Qed.
Lemma tet_run (B : comRingType) (e : {rmorphism F -> B}) (g : {rmorphism poly3 -> B}) :
  (forall c, g (emb3 F c) = e c) ->
  bind (tet_tabulate e sqrt M b n [:: g 'X; g 'X%:P; g 'X%:P%:P]) (@full B) = Ok [seq g (tet_phi k) | k <- iota 0 (tet_num n)].
Proof.
move=> Hg. rewrite /tet_phi. case: (posnP n) => [->|Hn] /=.
- by rewrite /tet_tabulate /= !addrK /= rmorph1.
- have [s [-> [Hs H]]] := tet_tabulate_ok e sqrt F0 M b [:: g 'X; g 'X%:P; g 'X%:P%:P] Hn. apply: full_ok => // k Hk.
  have [H1 H2] := sdec_ok Hk. rewrite -{1}H2. have := H (sdec n k) H1. rewrite /teti => ->. congr Some.
  rewrite (tetVS_morph _ _ _ _ Hg). rewrite !(ref_morph _ M b _ Hg) //.
Qed.
Lemma tet_table_ok pts : tet_table sqrt M b n pts = Ok [seq [seq ev3m p.1.1 p.1.2 p.2 (tet_phi k) | k <- iota 0 (tet_num n)] | p <- pts].
Proof.
apply: map_res_ok => p. rewrite -(@tet_run F idF (ev3m p.1.1 p.1.2 p.2)) ?ev3m_X ?ev3m_Y ?ev3m_Z //. by move=> c; rewrite ev3m_c.
Qed.
Lemma tet_syms : bind (tet_tabulate (fun c => c%:P%:P%:P) sqrt M b n [:: 'X; 'X%:P; 'X%:P%:P]) (@full poly3) = Ok [seq tet_phi k | k <- iota 0 (tet_num n)].
Proof.
have H := @tet_run [comRingType of poly3] (emb3 F) [rmorphism of @idfun poly3]. set T := bind _ _. 
rewrite (_ : T = Ok [seq idfun (tet_phi k) | k <- iota 0 (tet_num n)]) //. rewrite -H //.
Qed.
End Tet.
End Cells.
