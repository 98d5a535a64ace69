(** The built-in simplices meet the hypotheses of the theorem about normals. *)
Set Warnings "-notation-overridden,-ambiguous-paths".
From mathcomp Require Import all_ssreflect all_algebra.
From Verif Require Base ModelCell.
From Verif Require Import SpecNormal ModelAffine ProofsSerPlace ModelNormal ProofsNormal PropsNormal ProofsSvd FieldTac.
Set Implicit Arguments. Unset Strict Implicit. Unset Printing Implicit Defensive.
Import Order.TTheory GRing.Theory Num.Theory.
Local Open Scope ring_scope.

(** the vertices as integers *)
Definition vertsZ (c : ModelCell.cell) : seq (seq int) :=
  match c with
  | ModelCell.DefaultLine => [:: [:: -1]; [:: 1]]
  | ModelCell.UFCInterval => [:: [:: 0]; [:: 1]]
  | ModelCell.DefaultTriangle => [:: [:: -1; -1]; [:: 1; -1]; [:: -1; 1]]
  | ModelCell.UFCTriangle | ModelCell.IntrepidTriangle => [:: [:: 0; 0]; [:: 1; 0]; [:: 0; 1]]
  | ModelCell.DefaultTetrahedron => [:: [:: -1; -1; -1]; [:: 1; -1; -1]; [:: -1; 1; -1]; [:: -1; -1; 1]]
  | ModelCell.IntrepidTetrahedron | ModelCell.UFCTetrahedron => [:: [:: 0; 0; 0]; [:: 1; 0; 0]; [:: 0; 1; 0]; [:: 0; 0; 1]]
  | _ => [::]
  end.
Definition is_solid (c : ModelCell.cell) : bool :=
  match c with
  | ModelCell.DefaultTriangle | ModelCell.UFCTriangle | ModelCell.IntrepidTriangle
  | ModelCell.DefaultTetrahedron | ModelCell.UFCTetrahedron | ModelCell.IntrepidTetrahedron => true
  | _ => false end.
Definition is_lineb (c : ModelCell.cell) : bool :=
  match c with ModelCell.DefaultLine | ModelCell.UFCInterval => true | _ => false end.
Definition dotZ (d : nat) (a b : seq int) : int := foldr (fun j s => nth 0 a j * nth 0 b j + s) 0 (iota 0 d).
Definition diffZ (d : nat) (a b : seq int) : seq int := mkseq (fun j => nth 0 a j - nth 0 b j) d.
Definition edgesZ (d : nat) (vs : seq (seq int)) : seq (seq int) := [seq diffZ d v (head [::] vs) | v <- behead vs].
Definition gramcheck (d : nat) (rows : seq (seq int)) : bool :=
  match rows with
  | [:: a] => 1 <= dotZ d a a
  | [:: a; b] => [&& 1 <= dotZ d a a, 1 <= dotZ d b b & dotZ d a b ^+ 2 <= (dotZ d a a - 1) * (dotZ d b b - 1)]
  | [:: a; b; c] => [&& 1 <= dotZ d a a, 1 <= dotZ d b b, 1 <= dotZ d c c, dotZ d a b == 0, dotZ d a c == 0 & dotZ d b c == 0]
  | _ => false
  end.

Section Cells.
Variable R : rcfType.
Add Field FFnc : (mc_field_theory R).
Notation arr := (seq (seq R)).
Definition emb (V : seq (seq int)) : arr := [seq [seq z%:~R | z <- v] | v <- V].
Lemma vertsE c : is_solid c || is_lineb c -> ModelCell.vertices (mcF R) c = emb (vertsZ c).
Proof. by case: c. Qed.
Lemma nth_emb (v : seq int) j : nth 0 [seq z%:~R | z <- v] j = (nth 0 v j)%:~R :> R.
Proof.
case: (ltnP j (size v)) => H; first by rewrite (nth_map 0). by rewrite !nth_default ?size_map.
Qed.
Lemma inner_emb d (a b : seq int) : inner d [seq z%:~R | z <- a] [seq z%:~R | z <- b] = (dotZ d a b)%:~R :> R.
Proof.
rewrite /inner /dotZ -(big_mkord xpredT (fun j => nth 0 [seq z%:~R | z <- a] j * nth 0 [seq z%:~R | z <- b] j)) /index_iota subn0.
elim: (iota 0 d) => [|j l IH] /=; first by rewrite big_nil. rewrite big_cons IH intrD intrM !nth_emb //.
Qed.
Lemma diff_emb d (a b : seq int) : diff d [seq z%:~R | z <- a] [seq z%:~R | z <- b] = [seq z%:~R : R | z <- diffZ d a b].
Proof. rewrite /diff /diffZ /mkseq -map_comp. apply: eq_map => j /=. by rewrite !nth_emb rmorphB. Qed.
Lemma edges_emb d V : edges_from_first d (emb V) = emb (edgesZ d V).
Proof.
rewrite /edges_from_first /edgesZ /emb -map_comp behead_map -map_comp. apply: eq_map => v /=.
by case: V => [|v0 V] /=; rewrite -diff_emb.
Qed.

(** a bound on the Gram form gives the conditioning *)
Lemma tol2_lt1 : (10 ^+ 10) ^- 2 < 1 :> R.
Proof. rewrite invf_lt1 ?exprn_gt0 ?ltr0n // -exprM. apply: exprn_egt1 => //. by rewrite (ltr_nat R 1 10). Qed.
Lemma cond_ge m n (M : arr) : (forall x : 'rV[R]_m, (x *m x^T) 0 0 <= ((x *m mx m n M) *m (x *m mx m n M)^T) 0 0) -> well_conditioned m n M.
Proof. move=> H x Hx. apply: lt_le_trans (H x). rewrite Hx mxE eqxx. exact: tol2_lt1. Qed.
Lemma form m n (M : arr) (x : 'rV[R]_m) :
  ((x *m mx m n M) *m (x *m mx m n M)^T) 0 0 = \sum_(i < m) \sum_(k < m) x 0 i * x 0 k * inner n (nth [::] M i) (nth [::] M k).
Proof.
rewrite trmx_mul mulmxA -(mulmxA x) mxE exchange_big. apply: eq_bigr => k _. rewrite mxE mulr_suml. apply: eq_bigr => i _.
rewrite !mxE mulrAC. congr (_ * _). apply: eq_bigr => j _. by rewrite !mxE.
Qed.
Lemma gram2 (p q r a b : R) : 0 <= p -> 0 <= r -> q ^+ 2 <= p * r -> 0 <= p * a ^+ 2 + 2%:R * q * a * b + r * b ^+ 2.
Proof.
move=> Hp Hr Hq. have [p0|p0] := eqVneq p 0.
{ have q0 : q = 0. { apply/eqP. rewrite -sqrf_eq0 eq_le sqr_ge0 andbT. by rewrite p0 mul0r in Hq. }
  rewrite p0 q0 mul0r mulr0 !mul0r !add0r. apply: mulr_ge0 => //. exact: sqr_ge0. }
have p1 : 0 < p by rewrite lt_neqAle eq_sym p0 Hp.
rewrite -(pmulr_rge0 _ p1). have -> : p * (p * a ^+ 2 + 2%:R * q * a * b + r * b ^+ 2) = (p * a + q * b) ^+ 2 + (p * r - q ^+ 2) * b ^+ 2.
{ rewrite -[2%:R]/(1 + 1). fring. }
apply: addr_ge0; first exact: sqr_ge0. apply: mulr_ge0; [by rewrite subr_ge0|exact: sqr_ge0].
Qed.
Lemma le1 (z : int) : 1 <= z -> 0 <= z%:~R - 1 :> R.
Proof. move=> H. rewrite subr_ge0. by rewrite (ler_int R 1 z). Qed.
Lemma gramcheck_ok d rows : gramcheck d rows -> well_conditioned (size rows) d (emb rows).
Proof.
move=> H. apply: cond_ge => x. rewrite form. change ((x *m x^T) 0 0) with (sq x). rewrite sqE.
have En : forall i, nth [::] (emb rows) i = [seq z%:~R | z <- nth [::] rows i] :> seq R.
{ move=> i. case: (ltnP i (size rows)) => Hi; first by rewrite (nth_map [::]). by rewrite !nth_default ?size_map. }
have E : forall i k : 'I_(size rows), inner d (nth [::] (emb rows) i) (nth [::] (emb rows) k) = (dotZ d (nth [::] rows i) (nth [::] rows k))%:~R :> R.
{ move=> i k. by rewrite !En inner_emb. }
have -> : \sum_(i < size rows) \sum_(k < size rows) x 0 i * x 0 k * inner d (nth [::] (emb rows) i) (nth [::] (emb rows) k) =
  \sum_(i < size rows) \sum_(k < size rows) x 0 i * x 0 k * (dotZ d (nth [::] rows i) (nth [::] rows k))%:~R.
{ apply: eq_bigr => i _. apply: eq_bigr => k _. by rewrite E. }
have Dsym : forall a b, dotZ d a b = dotZ d b a.
{ move=> a b. rewrite /dotZ. elim: (iota 0 d) => //= j l ->. by rewrite mulrC. }
clear E En. case: rows H x => [//|a [|b [|c [|//]]]] /= H x; rewrite !big_ord_recl !big_ord0 !addr0 /=.
- rewrite -subr_ge0 -expr2 -[X in _ - X]mulr1 -mulrBr. apply: mulr_ge0; [exact: sqr_ge0|exact: le1].
- case/and3P: H => H1 H2 H3. rewrite -subr_ge0 (Dsym b a). set x0 := x 0 _. set x1 := x 0 _.
  have := @gram2 ((dotZ d a a)%:~R - 1) (dotZ d a b)%:~R ((dotZ d b b)%:~R - 1) x0 x1 (le1 H1) (le1 H2).
  move=> K. have {}K := K _. rewrite -(ler_int R) intrM !rmorphB rmorphX in H3. move: {K} (K H3). rewrite -[2%:R]/(1 + 1). clearbody x0 x1.
  move: (dotZ d a a)%:~R (dotZ d a b)%:~R (dotZ d b b)%:~R => p q r. move: x0 x1 => y z.
  rewrite (_ : (p - 1) * y ^+ 2 + _ + _ = y * y * p + y * z * q + (z * y * q + z * z * r) - (y ^+ 2 + z ^+ 2)) //. fring.
- case/and5P: H => H1 H2 H3 /eqP H4 /andP [/eqP H5 /eqP H6]. rewrite (Dsym b a) (Dsym c a) (Dsym c b) H4 H5 H6.
  set x0 := x 0 _. set x1 := x 0 _. set x2 := x 0 _. rewrite -subr_ge0 !mulr0 !addr0 !add0r.
  have K : forall (y : R) z, 1 <= z -> 0 <= y * y * z%:~R - y ^+ 2.
  { move=> y z Hz. rewrite -expr2 -[X in _ - X]mulr1 -mulrBr. apply: mulr_ge0; [exact: sqr_ge0|exact: le1]. }
  have := addr_ge0 (K x0 _ H1) (addr_ge0 (K x1 _ H2) (K x2 _ H3)). clear K. clearbody x0 x1 x2.
  move: (dotZ d a a)%:~R (dotZ d b b)%:~R (dotZ d c c)%:~R => p q r. move: x0 x1 x2 => y z w.
  rewrite (_ : y * y * p - _ + _ = y * y * p + (z * z * q + w * w * r) - (y ^+ 2 + (z ^+ 2 + w ^+ 2))) //. fring.
Qed.

End Cells.
