(** Total degree of the modes, their values, and the collapsed coordinates. *)
Set Warnings "-notation-overridden,-ambiguous-paths".
From mathcomp Require Import all_ssreflect all_algebra zify.
From Verif Require Import FieldTac RingTac ModelJacobi SpecJacobi ProofsJacobi ProofsOrtho ModelExpansion SpecExpansion ProofsExpIdx ProofsExpProg ProofsExpOrtho.
Set Implicit Arguments. Unset Strict Implicit. Unset Printing Implicit Defensive.
Import GRing.Theory.
Local Open Scope ring_scope.

(** *** Filtrations by degree *)
Record filt (A : comRingType) (D : nat -> A -> Prop) : Prop := Filt {
  filt0 : forall n, D n 0;
  filtD : forall n x y, D n x -> D n y -> D n (x + y);
  filtM : forall n m x y, D n x -> D m y -> D (n + m)%N (x * y);
  filtS : forall n m x, (n <= m)%N -> D n x -> D m x;
  filt1 : D 0%N 1 }.
Definition lift (A : comRingType) (D : nat -> A -> Prop) (n : nat) (P : {poly A}) : Prop :=
  forall i, if (i <= n)%N then D (n - i)%N P`_i else P`_i = 0.
Lemma filt_sum (A : comRingType) D n I (r : seq I) (Q : pred I) (f : I -> A) : filt D -> (forall i, Q i -> D n (f i)) -> D n (\sum_(i <- r | Q i) f i).
Proof. move=> H Hf. apply: (big_ind (D n)) => //; [exact: filt0|move=> x y; exact: filtD]. Qed.
Lemma filt_lift (A : comRingType) (D : nat -> A -> Prop) : filt D -> filt (lift D).
Proof.
move=> H. constructor.
- move=> n i. rewrite coef0. by case: ifP => // _; exact: filt0.
- move=> n P Q HP HQ i. rewrite coefD. move: (HP i) (HQ i). case: ifP => _ HPi HQi; first exact: filtD.
  by rewrite HPi HQi addr0.
- move=> n m P Q HP HQ i. rewrite coefM. case: ifP => Hi.
  + apply: filt_sum => // a _. move: (HP a) (HQ (i - a)%N). case: leqP => Ha HPa; last by rewrite HPa mul0r => _; exact: filt0.
    case: leqP => Hb HQb; last by rewrite HQb mulr0; exact: filt0.
    apply: (filtS H _ (filtM H HPa HQb)). have := ltn_ord a. lia.
  + apply: big1 => a _. move: (HP a) (HQ (i - a)%N). case: leqP => Ha HPa; last by rewrite HPa mul0r.
    case: leqP => Hb HQb; last by rewrite HQb mulr0. have := ltn_ord a. lia.
- move=> n m P Hnm HP i. move: (HP i). case: leqP => Hi HPi.
  + rewrite (leq_trans Hi Hnm). apply: (filtS H _ HPi). lia.
  + rewrite HPi. case: ifP => // _. exact: filt0.
- move=> i. rewrite coef1. case: i => [|i] //=. exact: filt1.
Qed.
Lemma lift_X (A : comRingType) (D : nat -> A -> Prop) : filt D -> lift D 1 'X.
Proof. move=> H [|[|i]]; rewrite coefX //=; [exact: filt0|exact: filt1]. Qed.
Lemma lift_C (A : comRingType) (D : nat -> A -> Prop) n x : filt D -> D n x -> lift D n x%:P.
Proof. move=> H Hx [|i]; rewrite coefC //= ?subn0 //. by case: ifP => // _; exact: filt0. Qed.
Lemma filt_exp (A : comRingType) (D : nat -> A -> Prop) n x k : filt D -> D n x -> D (n * k)%N (x ^+ k).
Proof. move=> H Hx. elim: k => [|k IH]; first by rewrite muln0; exact: filt1. rewrite mulnS exprS. exact: filtM. Qed.
Lemma filt_nat (A : comRingType) (D : nat -> A -> Prop) k : filt D -> D 0%N k%:R.
Proof. move=> H. elim: k => [|k IH]; first exact: filt0. rewrite mulrS. apply: filtD => //. exact: filt1. Qed.
Lemma filt_hom (F : fieldType) (A : comRingType) (emb : {rmorphism F -> A}) (D : nat -> A -> Prop) n p u w :
  filt D -> (forall c, D 0%N (emb c)) -> D 1%N u -> D 1%N w -> D n (hom emb n p u w).
Proof.
move=> H He Hu Hw. apply: filt_sum => // j _. 
have := filtM H (filtM H (He p`_j) (filt_exp j H Hu)) (filt_exp (n - j) H Hw).
have -> // : (0 + 1 * j + 1 * (n - j))%N = n by have := ltn_ord j; lia.
Qed.
Definition base (F : fieldType) : nat -> F -> Prop := fun _ _ => True.
Lemma filt_base (F : fieldType) : filt (@base F). Proof. by constructor. Qed.
Lemma lift2E (F : fieldType) n (P : {poly {poly F}}) : lift (lift (@base F)) n P -> deg2_le n P.
Proof.
move=> H i j Hij. move: (H i). case: leqP => Hi HPi; last by rewrite HPi coef0.
move: (HPi j). case: leqP => Hj // _. lia.
Qed.
Lemma lift3E (F : fieldType) n (P : {poly {poly {poly F}}}) : lift (lift (lift (@base F))) n P -> deg3_le n P.
Proof.
move=> H i j k Hij. move: (H i). case: leqP => Hi HPi; last by rewrite HPi !coef0.
apply: (lift2E HPi). lia.
Qed.

Section Deg.
Variable F : fieldType.
Notation half := (2%:R^-1 : F).
Let D1 := lift (@base F). Let D2 := lift D1. Let D3 := lift D2.
Lemma fD1 : filt D1. Proof. exact/filt_lift/filt_base. Qed.
Lemma fD2 : filt D2. Proof. exact/filt_lift/fD1. Qed.
Lemma fD3 : filt D3. Proof. exact/filt_lift/fD2. Qed.
Lemma D2c c : D2 0 (emb2 F c). Proof. apply: lift_C; [exact: fD1|]. apply: lift_C => //. Qed.
Lemma D3c c : D3 0 (emb3 F c). Proof. apply: lift_C; [exact: fD2|exact: D2c]. Qed.
Lemma filtN (A : comRingType) (D : nat -> A -> Prop) n x : filt D -> D 0%N (-1) -> D n x -> D n (- x).
Proof. move=> H H1 Hx. rewrite -mulN1r. exact: (filtM H H1 Hx). Qed.
Lemma D2N1 : D2 0 (-1). Proof. have := D2c (-1). by rewrite rmorphN1. Qed.
Lemma D3N1 : D3 0 (-1). Proof. have := D3c (-1). by rewrite rmorphN1. Qed.
Lemma D2X : D2 1 'X. Proof. exact/lift_X/fD1. Qed.
Lemma D2Y : D2 1 'X%:P. Proof. apply: lift_C; [exact: fD1|]. exact/lift_X/filt_base. Qed.
Lemma D3X : D3 1 'X. Proof. exact/lift_X/fD2. Qed.
Lemma D3Y : D3 1 'X%:P. Proof. apply: lift_C; [exact: fD2|exact: D2X]. Qed.
Lemma D3Z : D3 1 'X%:P%:P. Proof. apply: lift_C; [exact: fD2|exact: D2Y]. Qed.
Lemma filtW (A : comRingType) (D : nat -> A -> Prop) x : filt D -> D 0%N x -> D 1%N x.
Proof. move=> H. exact: filtS. Qed.
Ltac lin FD C N1 :=
  repeat first
   [ apply: (filtD FD) | apply: (filtN FD N1) | assumption | exact: D2X | exact: D2Y | exact: D3X | exact: D3Y | exact: D3Z
   | apply: (filtW FD); exact: (filt1 FD) | apply: (filtW FD); exact: (filt_nat _ FD) | apply: (filtW FD); exact: C
   | apply: (@filtM _ _ FD 0 1); [first [exact: C|exact: (filt_nat _ FD)]|] ].
Lemma tri_mode_deg k : deg2_le (k.1 + k.2) (tri_mode F k).
Proof.
apply: lift2E. rewrite -/D1 -/D2 /tri_mode /triV. 
apply: (filtM fD2); apply: (@filt_hom F _ (emb2 F) D2); try exact: fD2; try exact: D2c.
- rewrite mulrC. lin fD2 D2c D2N1.
- rewrite mulrC. lin fD2 D2c D2N1.
- exact: D2Y.
- apply: (filtW fD2). exact: (filt1 fD2).
Qed.
Lemma tet_mode_deg k : deg3_le (k.1.1 + k.1.2 + k.2) (tet_mode F k).
Proof.
apply: lift3E. rewrite -/D1 -/D2 -/D3 /tet_mode /tetV. 
apply: (filtM fD3); [apply: (filtM fD3)|]; apply: (@filt_hom F _ (emb3 F) D3); try exact: fD3; try exact: D3c.
- lin fD3 D3c D3N1.
- lin fD3 D3c D3N1.
- lin fD3 D3c D3N1.
- lin fD3 D3c D3N1.
- exact: D3Z.
- apply: (filtW fD3). exact: (filt1 fD3).
Qed.

(** *** Values *)
Definition ev2m (x y : F) : {rmorphism {poly {poly F}} -> F} := [rmorphism of horner_eval y \o horner_eval x%:P].
Definition ev3m (x y z : F) : {rmorphism {poly {poly {poly F}}} -> F} := [rmorphism of ev2m y z \o horner_eval x%:P%:P].
Lemma ev2mE x y P : ev2m x y P = ev2 P x y. Proof. by []. Qed.
Lemma ev3mE x y z P : ev3m x y z P = ev3 P x y z. Proof. by []. Qed.
Lemma ev2m_c x y c : ev2m x y (emb2 F c) = c. Proof. by rewrite /= /horner_eval /= !hornerC. Qed.
Lemma ev3m_c x y z c : ev3m x y z (emb3 F c) = c. Proof. by rewrite /= /horner_eval /= !hornerC. Qed.
Lemma ev2m_X x y : ev2m x y 'X = x. Proof. by rewrite /= /horner_eval hornerX hornerC. Qed.
Lemma ev2m_Y x y : ev2m x y 'X%:P = y. Proof. by rewrite /= /horner_eval hornerC hornerX. Qed.
Lemma ev3m_X x y z : ev3m x y z 'X = x. Proof. by rewrite /= /horner_eval hornerX !hornerC. Qed.
Lemma ev3m_Y x y z : ev3m x y z 'X%:P = y. Proof. by rewrite /= /horner_eval hornerC hornerX hornerC. Qed.
Lemma ev3m_Z x y z : ev3m x y z 'X%:P%:P = z. Proof. by rewrite /= /horner_eval !hornerC hornerX. Qed.
Notation idF := [rmorphism of @idfun F].
Lemma tri_ev x y k : triV idF x y k = ev2 (tri_mode F k) x y.
Proof.
rewrite -ev2mE /tri_mode /triV rmorphM !(@hjac_morph F _ _ (emb2 F) idF) ?ev2m_Y ?rmorph1 //; try exact: ev2m_c.
by rewrite !rmorphM !rmorphD rmorphM rmorph1 rmorphN rmorph_nat ev2m_X ev2m_Y ev2m_c.
Qed.
Lemma tet_ev x y z k : tetV idF x y z k = ev3 (tet_mode F k) x y z.
Proof.
rewrite -ev3mE /tet_mode /tetV !rmorphM !(@hjac_morph F _ _ (emb3 F) idF) ?ev3m_Z ?rmorph1 //; try exact: ev3m_c.
by rewrite rmorphN !rmorphM !rmorphD rmorphM rmorph1 rmorphN !rmorphM !rmorph_nat ev3m_X ev3m_Y ev3m_Z ev3m_c.
Qed.
End Deg.

Section Collapsed.
Variable F : fieldType.
Hypothesis F0 : char_zero F.
Add Field FFc : (mc_field_theory F).
Notation half := (2%:R^-1 : F).
Notation idF := [rmorphism of @idfun F].
Lemma hj_w a n (u w : F) : hjac idF a n (w * u) w = w ^+ n * (jacobi_poly a%:R 0 n).[u].
Proof. rewrite /hjac hom_scale; last exact: size_jacobi. by rewrite map_poly_id. Qed.
Lemma hj_1 a n (u : F) : hjac idF a n u 1 = (jacobi_poly a%:R 0 n).[u].
Proof. by rewrite -{1}[u]mul1r hj_w expr1n mul1r. Qed.
Lemma regular_nat a n : jacobi_regular (a%:R : F) 0 n.
Proof. move=> m /andP [H _]. rewrite addr0 -natrD. apply: F0. lia. Qed.
Lemma tri_collapsed (e1 e2 : F) k :
  triV idF (half * (1 + e1) * (1 - e2) - 1) e2 k =
  ((1 - e2) / 2%:R) ^+ k.1 * eval_jacobi 0 0 k.1 e1 * eval_jacobi (2 * k.1 + 1)%:R 0 k.2 e2.
Proof.
rewrite /triV /=. have -> : (1 + 2%:R * (half * (1 + e1) * (1 - e2) - 1) + e2) * half = ((1 - e2) * half) * e1.
{ have H := two_neq0 F0. rewrite !mulrS mulr0n in H *. ffield. nz. }
rewrite hj_w hj_1 !eval_jacobi_ok //; try exact: regular_nat; try exact: (@regular_nat 0).
Qed.
Lemma tet_collapsed (e1 e2 e3 : F) k :
  tetV idF (half * half * (1 + e1) * (1 - e2) * (1 - e3) - 1) (half * (1 + e2) * (1 - e3) - 1) e3 k =
  ((1 - e2) / 2%:R * ((1 - e3) / 2%:R)) ^+ k.1.1 * eval_jacobi 0 0 k.1.1 e1 *
  (((1 - e3) / 2%:R) ^+ k.1.2 * eval_jacobi (2 * k.1.1 + 1)%:R 0 k.1.2 e2) *
  eval_jacobi (2 * k.1.1 + 2 * k.1.2 + 2)%:R 0 k.2 e3.
Proof.
rewrite /tetV /=. 
have -> : - (half * (half * (1 + e2) * (1 - e3) - 1 + e3)) = (1 - e2) / 2%:R * ((1 - e3) / 2%:R).
{ have H := two_neq0 F0. rewrite !mulrS mulr0n in H *. ffield. repeat split; nz. }
have -> : half * (2%:R + 2%:R * (half * half * (1 + e1) * (1 - e2) * (1 - e3) - 1) + (half * (1 + e2) * (1 - e3) - 1) + e3) = (1 - e2) / 2%:R * ((1 - e3) / 2%:R) * e1.
{ have H := two_neq0 F0. rewrite !mulrS mulr0n in H *. ffield. repeat split; nz. }
have -> : half * (1 + 2%:R * (half * (1 + e2) * (1 - e3) - 1) + e3) = half * (1 - e3) * e2.
{ have H := two_neq0 F0. rewrite !mulrS mulr0n in H *. ffield. repeat split; nz. }
rewrite !hj_w hj_1 !eval_jacobi_ok //; try exact: regular_nat; try exact: (@regular_nat 0). by rewrite [half * _]mulrC.
Qed.
End Collapsed.
