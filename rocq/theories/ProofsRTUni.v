(** Unisolvence of the Raviart-Thomas point degrees of freedom, for fields
    p + x q given as functions. *)
Set Warnings "-notation-overridden,-ambiguous-paths".
From mathcomp Require Import all_ssreflect all_algebra zify.
From Verif Require Import ModelDual SpecDual SpecPoly ProofsSpace ProofsPolyClo.
Set Implicit Arguments. Unset Strict Implicit. Unset Printing Implicit Defensive.
Import GRing.Theory.
Local Open Scope ring_scope.

(** [v] put at position [i] *)
Definition ins {T} i (v : T) (y : seq T) : seq T := take i y ++ v :: drop i y.
Section Ins.
Variable F : fieldType.
Lemma size_ins T i (v : T) y : size (ins i v y) = (size y).+1.
Proof. by rewrite size_cat /= addnS -size_cat cat_take_drop. Qed.
Lemma nth_ins i (o : F) y j : (i <= size y)%N -> nth 0 (ins i o y) j = if (j < i)%N then nth 0 y j else if j == i then o else nth 0 y j.-1.
Proof.
move=> Hi. rewrite nth_cat size_takel //. case: ltnP => Hj; first by rewrite nth_take.
case: eqP => [->|Hne]; first by rewrite subnn.
have E : (j - i = (j.-1 - i).+1)%N by lia. rewrite E /= nth_drop. congr nth. lia.
Qed.
Lemma ins_del i (o : F) x : (i < size x)%N -> nth 0 x i = o -> x = ins i o (take i x ++ drop i.+1 x).
Proof.
move=> Hi Ho. have Si : size (take i x) = i by rewrite size_takel // ltnW.
by rewrite /ins take_size_cat // drop_size_cat // -Ho -drop_nth // cat_take_drop.
Qed.
Lemma ins_poly d k i (o : F) f : (i <= d)%N -> is_poly d.+1 k f -> is_poly d k (fun y => f (ins i o y)).
Proof.
move=> Hi Hf. apply: (is_poly_comp Hf) => [y Hy|j Hj]; first by rewrite size_ins Hy.
case: (ltnP j i) => Hji; last case: (eqVneq j i) => Hji'.
- apply: is_poly_ext (is_poly_coord F d j (ltnSn 0)) => y Hy. by rewrite nth_ins ?Hy // Hji.
- apply: is_poly_ext (is_poly_const d 1 o) => y Hy. by rewrite nth_ins ?Hy // ltnNge Hji Hji' eqxx.
- apply: is_poly_ext (is_poly_coord F d j.-1 (ltnSn 0)) => y Hy. by rewrite nth_ins ?Hy // ltnNge Hji (negbTE Hji').
Qed.
(** vanishing on a coordinate face from vanishing on a grid of the face *)
Lemma face_zero d k i (o : F) g f : (1 <= d <= 3)%N -> (i <= d)%N -> injective g -> is_poly d.+1 k f ->
  (forall idx, size idx = d -> (sumn idx <= k)%N -> f (ins i o [seq g j | j <- idx]) = 0) ->
  forall x, size x = d.+1 -> nth 0 x i = o -> f x = 0.
Proof.
move=> Hd Hi Hg Hf H x Hx Ho. have Hix : (i < size x)%N by rewrite Hx.
rewrite (ins_del Hix Ho). apply: (is_poly_grid Hd Hg (ins_poly o Hi Hf) H).
rewrite size_cat size_takel ?size_drop ?Hx //; lia.
Qed.
End Ins.

Section Uni.
Variable F : fieldType.
Variables (d m : nat) (o s : F) (g : nat -> F) (p : nat -> seq F -> F) (q : seq F -> F).
Hypothesis Hd : (1 <= d <= 2)%N.
Hypothesis Hg : injective g.
Hypothesis Ho : forall j, g j != o.
Hypothesis Hs : s != 0.
Hypothesis Hsl : forall idx, size idx = d.+1 -> sumn idx = m -> \sum_(i < d.+1) (g (nth 0%N idx i) - o) = s.
Hypothesis Hp : forall i, (i < d.+1)%N -> is_poly d.+1 m (p i).
Hypothesis Hq : is_poly d.+1 m q.
Let v i x := p i x + nth 0 x i * q x.
Hypothesis Hfacet : forall i idx, (i < d.+1)%N -> size idx = d -> (sumn idx <= m)%N -> v i (ins i o [seq g j | j <- idx]) = 0.
Hypothesis Hslant : forall idx, size idx = d.+1 -> sumn idx = m -> \sum_(i < d.+1) v i [seq g j | j <- idx] = 0.
Hypothesis Hint : forall i idx, (i < d.+1)%N -> size idx = d.+1 -> (sumn idx < m)%N -> v i [seq g j | j <- idx] = 0.

Lemma d3 : (1 <= d <= 3)%N. Proof. lia. Qed.
Lemma dS3 : (1 <= d.+1 <= 3)%N. Proof. lia. Qed.
Lemma rt_face i : (i < d.+1)%N -> exists r, [/\ is_poly d.+1 m.-1 r, m = 0%N -> forall x, size x = d.+1 -> r x = 0 &
  forall x, size x = d.+1 -> v i x = (nth 0 x i - o) * (r x + q x)].
Proof.
move=> Hi. pose u x := p i x + o * q x.
have Hu : is_poly d.+1 m u by apply: is_poly_add (Hp Hi) (is_poly_scale o Hq).
have U0 x : size x = d.+1 -> nth 0 x i = o -> u x = 0.
{ apply: (face_zero d3 _ Hg Hu) => [|idx Hidx Hle]; first by rewrite -ltnS.
  rewrite -[RHS](Hfacet Hi Hidx Hle) /v /u nth_ins; last by rewrite size_map Hidx.
  by rewrite ltnn eqxx. }
have [r [R1 R2 R3]] := is_poly_div Hi Hu U0. exists r. split=> // x Hx.
rewrite mulrDr -R3 // /u /v mulrBl addrACA. by rewrite addrN addr0.
Qed.
Theorem rt_uni i x : (i < d.+1)%N -> size x = d.+1 -> v i x = 0.
Proof.
have Hf2 i' : exists r, (i' < d.+1)%N -> [/\ is_poly d.+1 m.-1 r, m = 0%N -> forall x, size x = d.+1 -> r x = 0 &
  forall x, size x = d.+1 -> v i' x = (nth 0 x i' - o) * (r x + q x)].
{ case: (ltnP i' d.+1) => Hi; last by exists (fun=> 0). have [r Hr] := rt_face Hi. by exists r. }
have [r0 [R1 R2 R3]] := rt_face (ltn0Sn d).
have Eg idx i' : size idx = d.+1 -> (i' < d.+1)%N -> nth 0 [seq g j | j <- idx] i' - o != 0.
{ move=> H Hi. by rewrite (nth_map 0%N) ?H // subr_eq0. }
(* all the quotients agree *)
have Er i' x' : (i' < d.+1)%N -> size x' = d.+1 -> v i' x' = (nth 0 x' i' - o) * (r0 x' + q x').
{ move=> Hi Hx. have [r [S1 S2 S3]] := rt_face Hi. rewrite S3 //. congr (_ * (_ + _)).
  case: (posnP m) => [Em|Em]; first by rewrite S2 // R2.
  apply/eqP. rewrite -subr_eq0. apply/eqP. apply: (is_poly_grid dS3 Hg (is_polyB S1 R1)) Hx => idx Hidx Hle.
  have Hlt : (sumn idx < m)%N by lia. have Sx : size [seq g j | j <- idx] = d.+1 by rewrite size_map.
  have /eqP := Hint Hi Hidx Hlt. rewrite S3 // mulf_eq0 (negbTE (Eg idx i' Hidx Hi)) /= => /eqP E1.
  have /eqP := Hint (ltn0Sn d) Hidx Hlt. rewrite R3 // mulf_eq0 (negbTE (Eg idx 0%N Hidx (ltn0Sn d))) /= => /eqP E2.
  apply/eqP. rewrite subr_eq0. apply/eqP. apply: (addIr (q [seq g j | j <- idx])). by rewrite E1 E2. }
move=> Hi Hx. rewrite Er //. set w := r0 x + q x. have -> : w = 0; last by rewrite mulr0.
have Hw : is_poly d.+1 m (fun y => r0 y + q y) by apply: is_poly_add Hq; apply: is_poly_le R1; exact: leq_pred.
apply: (is_poly_grid dS3 Hg Hw _ Hx) => idx Hidx. rewrite leq_eqVlt => /orP [/eqP Hm|Hlt].
- have := Hslant Hidx Hm. have Sx : size [seq g j | j <- idx] = d.+1 by rewrite size_map.
  rewrite (eq_bigr (fun i' : 'I_d.+1 => (g (nth 0%N idx i') - o) * (r0 [seq g j | j <- idx] + q [seq g j | j <- idx]))).
  + rewrite -mulr_suml Hsl // => /eqP. by rewrite mulf_eq0 (negbTE Hs) => /eqP.
  + move=> i' _. by rewrite Er // (nth_map 0%N) // Hidx.
- have := Hint (ltn0Sn d) Hidx Hlt. rewrite R3 ?size_map // => /eqP. by rewrite mulf_eq0 (negbTE (Eg idx 0%N Hidx (ltn0Sn d))) => /eqP.
Qed.
End Uni.
