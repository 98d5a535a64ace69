(** The positions of the expansion modes form a bijection (C04). *)
Set Warnings "-notation-overridden,-ambiguous-paths".
From mathcomp Require Import all_ssreflect zify.
From Verif Require Import ModelExpansion.
Set Implicit Arguments. Unset Strict Implicit. Unset Printing Implicit Defensive.

(** triangular and tetrahedral numbers *)
Definition T2 t := (t * (t + 1)) %/ 2.
Definition T3 t := (t * (t + 1) * (t + 2)) %/ 6.
Lemma T2S t : T2 t.+1 = T2 t + t.+1.
Proof. rewrite /T2. have -> : t.+1 * (t.+1 + 1) = t.+1 * 2 + t * (t + 1) by nia. by rewrite divnMDl // addnC. Qed.
Lemma T2E t : 2 * T2 t = t * (t + 1).
Proof. elim: t => // t IH. rewrite T2S. nia. Qed.
Lemma T3S t : T3 t.+1 = T3 t + T2 t.+1.
Proof.
rewrite /T3. have H := T2E t.+1. 
have -> : t.+1 * (t.+1 + 1) * (t.+1 + 2) = T2 t.+1 * 6 + t * (t + 1) * (t + 2) by nia.
by rewrite divnMDl // addnC.
Qed.
Lemma T3E t : 6 * T3 t = t * (t + 1) * (t + 2).
Proof. elim: t => // t IH. rewrite T3S. have := T2E t.+1. nia. Qed.
Lemma T2_le a b : a <= b -> T2 a <= T2 b.
Proof. elim: b => [|b IH]; first by rewrite leqn0 => /eqP ->. rewrite leq_eqVlt => /orP [/eqP -> //|H]. rewrite T2S. have := IH H. lia. Qed.
Lemma T3_le a b : a <= b -> T3 a <= T3 b.
Proof. elim: b => [|b IH]; first by rewrite leqn0 => /eqP ->. rewrite leq_eqVlt => /orP [/eqP -> //|H]. rewrite T3S. have := IH H. lia. Qed.
Lemma tri_numE n : tri_num n = T2 n.+1. Proof. rewrite /tri_num /T2. congr (_ %/ _). lia. Qed.
Lemma tet_numE n : tet_num n = T3 n.+1. Proof. rewrite /tet_num /T3. congr (_ %/ _). lia. Qed.
Lemma tri_idxE p q : tri_idx p q = T2 (p + q) + q. Proof. by []. Qed.
Lemma tet_idxE p q r : tet_idx p q r = T3 (p + q + r) + tri_idx q r. Proof. by rewrite /tet_idx /T3 /tri_idx -addnA. Qed.

Lemma tri_idx_lt n p q : p + q <= n -> tri_idx p q < tri_num n.
Proof. move=> H. rewrite tri_numE tri_idxE. have := T2_le H. rewrite T2S. have := T2S (p + q). lia. Qed.
Lemma tri_idx_inj p q p' q' : tri_idx p q = tri_idx p' q' -> p = p' /\ q = q'.
Proof.
rewrite !tri_idxE => H.
have E : p + q = p' + q'.
{ case: (ltngtP (p + q) (p' + q')) => // L; have := T2_le L; rewrite T2S; lia. }
rewrite E in H. lia.
Qed.
Lemma T2_floor k : exists t, T2 t <= k < T2 t.+1.
Proof.
elim: k => [|k [t /andP [H1 H2]]]; first by exists 0.
case: (ltnP k.+1 (T2 t.+1)) => H; first by exists t; rewrite (leq_trans H1).
exists t.+1. rewrite H. rewrite (T2S t.+1). lia.
Qed.
Lemma T3_floor k : exists t, T3 t <= k < T3 t.+1.
Proof.
elim: k => [|k [t /andP [H1 H2]]]; first by exists 0.
case: (ltnP k.+1 (T3 t.+1)) => H; first by exists t; rewrite (leq_trans H1).
exists t.+1. rewrite H. rewrite (T3S t.+1). have := T2S t.+1. lia.
Qed.
Lemma tri_idx_surj n k : k < tri_num n -> exists p q, p + q <= n /\ tri_idx p q = k.
Proof.
rewrite tri_numE => H. have [t /andP [H1 H2]] := T2_floor k. rewrite T2S in H2.
have Ht : t <= n.
{ case: (leqP t n) => // L. have := T2_le L. lia. }
exists (t - (k - T2 t)), (k - T2 t). have E : t - (k - T2 t) + (k - T2 t) = t by lia.
rewrite tri_idxE E. lia.
Qed.
Lemma tet_idx_lt n p q r : p + q + r <= n -> tet_idx p q r < tet_num n.
Proof.
move=> H. rewrite tet_numE tet_idxE. have := T3_le H. rewrite T3S.
have Hqr : q + r <= n by lia. have := tri_idx_lt Hqr. rewrite tri_numE. 
have Hqr2 : q + r <= p + q + r by lia. have := tri_idx_lt Hqr2. rewrite tri_numE.
have L : (p + q + r).+1 <= n.+1 by lia. have := T3_le L. rewrite !T3S. lia.
Qed.
Lemma tet_idx_inj p q r p' q' r' : tet_idx p q r = tet_idx p' q' r' -> p = p' /\ q = q' /\ r = r'.
Proof.
rewrite !tet_idxE => H.
have B a b c : tri_idx b c < T2 (a + b + c).+1 by rewrite -tri_numE; apply: tri_idx_lt; lia.
have E : p + q + r = p' + q' + r'.
{ case: (ltngtP (p + q + r) (p' + q' + r')) => // L; have := T3_le L; rewrite T3S; have := B p q r; have := B p' q' r'; lia. }
rewrite E in H. have /tri_idx_inj : tri_idx q r = tri_idx q' r' by lia. lia.
Qed.
Lemma tet_idx_surj n k : k < tet_num n -> exists p q r, p + q + r <= n /\ tet_idx p q r = k.
Proof.
rewrite tet_numE => H. have [t /andP [H1 H2]] := T3_floor k. rewrite T3S in H2.
have Ht : t <= n.
{ case: (leqP t n) => // L. have := T3_le L. lia. }
have [q [r [Hqr E]]] : exists q r, q + r <= t /\ tri_idx q r = k - T3 t.
{ apply: tri_idx_surj. rewrite tri_numE. lia. }
exists (t - (q + r)), q, r. have E' : t - (q + r) + q + r = t by lia.
rewrite tet_idxE E' E. lia.
Qed.
