(** [gauss] of orthopoly.py, in terms of the tridiagonal eigenproblem. *)
Set Warnings "-notation-overridden,-ambiguous-paths".
From mathcomp Require Import all_ssreflect all_algebra.
From Verif Require Base.
From Verif Require Import FieldTac ModelOrthopoly ProofsOrthopoly ModelGauss SpecGauss ProofsGW.
Set Implicit Arguments. Unset Strict Implicit. Unset Printing Implicit Defensive.
Import Order.TTheory GRing.Theory Num.Theory.
Local Open Scope ring_scope.

Lemma recurrence_mp (F : fieldType) (al be : seq F) p : recurrence al be p -> 
  forall k, (k <= maxn 1 (size al))%N -> p k = monic_p (nth 0 al) (nth 0 be) k.
Proof.
move=> [p0 p1 pS]. elim/ltn_ind=> -[|[|k]] IH Hk; rewrite ?p0 ?p1 ?/monic_p //=.
rewrite -/(monic_p _ _ k.+2) mon_rec pS /=; last by move: Hk; rewrite leq_max.
have Hk1 := ltnW Hk. by rewrite (IH k.+1) // (IH k) // ltnW.
Qed.

Section G.
Variable F : rcfType.
Variable eigh : forall n, 'M[F]_n -> 'rV[F]_n * 'M[F]_n.
Hypothesis EO : eigh_correct eigh.
Implicit Types (alpha beta : seq F).
Definition rt beta (i : nat) : F := Num.sqrt (nth 0 beta i).

Lemma nth_sqrt beta i : nth 0 [seq Num.sqrt b | b <- beta] i = Num.sqrt (nth 0 beta i).
Proof.
have [H|H] := ltnP i (size beta); first by rewrite (nth_map 0).
by rewrite !nth_default ?size_map // sqrtr0.
Qed.
Lemma upper_tri n alpha beta :
  sym_upper (superdiag n (behead [seq Num.sqrt b | b <- beta]) + maindiag n alpha) = tridiag n (nth 0 alpha) (rt beta).
Proof.
apply/matrixP => i j. rewrite !mxE !nth_behead !nth_sqrt /rt (eq_sym (j : nat) i).
case: (ltngtP i j) => H.
- rewrite addr0. case: (eqVneq (j : nat) i.+1) => [->|_] //. by rewrite [_ == _]ltn_eqF // ltnW.
- rewrite addr0. have E : (j == i.+1 :> nat) = false by rewrite ltn_eqF // ltnS ltnW. rewrite E. by case: (eqVneq (i : nat) j.+1) => [->|_].
- by rewrite H -[_ == _.+1]negbK neq_ltn ltnSn /= add0r.
Qed.

Section Run.
Variables (alpha beta : seq F) (n : nat).
Hypotheses (Sa : size alpha = n.+1) (Sb : size beta = n.+1).
Hypothesis Hb : forall k, (0 < k <= n)%N -> 0 < nth 0 beta k.
Let A : 'M[F]_n.+1 := superdiag n.+1 (behead [seq Num.sqrt b | b <- beta]) + maindiag n.+1 alpha.
Definition gx : 'rV[F]_n.+1 := (eigh A).1.
Definition gV : 'M[F]_n.+1 := (eigh A).2.
Notation mp k := (monic_p (nth 0 alpha) (nth 0 beta) k).
Lemma gauss_val : gauss eigh alpha beta = Base.Ok ([seq gx 0 j | j <- enum 'I_n.+1], [seq nth 0 beta 0 * vv gV j 0 ^+ 2 | j <- enum 'I_n.+1]).
Proof.
rewrite /gauss Sa Sb eqxx /= -/A. have -> : eigh A = (gx, gV) by rewrite /gx /gV; case: (eigh A).
congr (Base.Ok (_, _)). apply: eq_map => j. congr (_ * _ ^+ 2).
rewrite (big_pred1 ord0) => [|i]; last by [].
by rewrite vvE.
Qed.
(* the recurrence coefficients, made positive beyond the ones used *)
Let rr (i : nat) : F := rt beta i.
Let be' (i : nat) : F := if (i <= n)%N then nth 0 beta i else 0.
Lemma bpos i : (0 < i)%N -> rr i * rr i = be' i.
Proof.
move=> Hi. rewrite /rr /rt /be' -expr2. case: leqP => H.
- rewrite sqr_sqrtr //. apply: ltW. apply: Hb. by rewrite Hi.
- by rewrite nth_default ?sqrtr0 ?expr0n // Sb.
Qed.
Lemma mp' k : (k <= n.+1)%N -> monic_p (nth 0 alpha) be' k = mp k.
Proof.
elim/ltn_ind: k => -[|[|k]] IH Hk //. rewrite !mon_rec (IH k.+1) // ?(IH k) //; try exact: ltnW; last exact: ltnW (ltnW Hk).
by rewrite /be' -ltnS Hk.
Qed.
Lemma r_neq0 i : (0 < i <= n)%N -> rr i != 0.
Proof. move=> Hi. rewrite /rr /rt sqrtr_eq0 -ltNge. exact: Hb. Qed.
Lemma gEV : tridiag n.+1 (nth 0 alpha) rr *m gV = gV *m diag_mx gx.
Proof. have [E _ _] := EO A. by rewrite /A upper_tri in E. Qed.
Lemma gOV : gV^T *m gV = 1%:M. Proof. by have [_ O _] := EO A. Qed.
Lemma gx_sorted (i j : 'I_n.+1) : (i <= j)%N -> gx 0 i <= gx 0 j. Proof. have [_ _ S] := EO A. exact: S. Qed.
Lemma gx_root j : root (mp n.+1) (gx 0 j).
Proof. rewrite -mp' //. exact: (gw_root bpos r_neq0 gEV gOV). Qed.
Lemma gx_inj i j : gx 0 i = gx 0 j -> i = j. Proof. exact: (gw_inj bpos r_neq0 gEV gOV). Qed.
Lemma gv0 j : vv gV j 0 != 0. Proof. exact: (v0_neq0 bpos r_neq0 gEV gOV). Qed.
Lemma gauss_ok : exists xs ws, [/\ gauss eigh alpha beta = Base.Ok (xs, ws), size xs = n.+1, size ws = n.+1, sorted <%O xs & all (root (mp n.+1)) xs]
  /\ (0 < nth 0 beta 0 -> all (fun w => 0 < w) ws) /\
  forall L d, linear_form L -> L 1 = nth 0 beta 0 -> (forall k, (0 < k <= n)%N -> L (mp k) = 0) ->
   (forall q : {poly F}, (size q <= d)%N -> L (mp n.+1 * q) = 0) ->
   forall q : {poly F}, (size q <= n.+1 + d)%N -> \sum_(xw <- zip xs ws) xw.2 * q.[xw.1] = L q.
Proof.
exists [seq gx 0 j | j <- enum 'I_n.+1], [seq nth 0 beta 0 * vv gV j 0 ^+ 2 | j <- enum 'I_n.+1].
split; [|split].
- split; rewrite ?size_map -?enumT ?size_enum_ord //; first exact: gauss_val.
  + apply/(path.sortedP (0 : F)) => i. rewrite size_map size_enum_ord => Hi. have Hi' := ltnW Hi.
    have E k : (k < n.+1)%N -> nth (0 : F) [seq gx 0 j | j <- enum 'I_n.+1] k = gx 0 (inord k).
    { move=> Hk. rewrite (nth_map ord0) ?size_enum_ord //. congr (gx _ _). apply: val_inj. by rewrite /= nth_enum_ord // inordK. }
    rewrite !E // lt_neqAle. apply/andP; split.
    * apply/negP => /eqP /gx_inj /(congr1 val). by rewrite /= !inordK // => /n_Sn.
    * apply: gx_sorted. by rewrite !inordK.
  + apply/allP => y /mapP [j _ ->]. exact: gx_root.
- move=> B0. apply/allP => y /mapP [j _ ->]. apply: mulr_gt0 => //. by rewrite exprn_even_gt0 //= gv0.
- move=> L d [LD LZ] L1 Lm Lo q Sq.
  rewrite zip_map big_map -[RHS](@gw_exact F (nth 0 alpha) be' rr bpos n gx gV r_neq0 gEV gOV L LD LZ _ _ d q) //.
  + rewrite big_enum /=. by apply: eq_bigr => j _.
  + move=> k Hk. rewrite mp'; first exact: Lm. case/andP: Hk => _ Hk. exact: leqW.
  + by rewrite mp'.
Qed.
End Run.
End G.
