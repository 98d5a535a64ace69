(** C10, C11: dual sets and Ciarlet elements. *)
Set Warnings "-notation-overridden,-ambiguous-paths".
From mathcomp Require Import all_ssreflect all_algebra.
From Verif Require Import ModelDual SpecDual ProofsDual.
Set Implicit Arguments. Unset Strict Implicit. Unset Printing Implicit Defensive.
Import GRing.Theory.
Local Open Scope ring_scope.

Section Props.
Variables (F : fieldType) (P : eqType) (E : expansion F P).
Notation functional := (functional F P).
Notation nil_f := (mkFunctional [::] [::] [::]).

(** ** C11 *)
(** Whatever points the nodes share, row [k] of the batched matrix is the
    action of node [k] on every expansion function in every component, which
    is also what the node computes alone. *)
Theorem C11_dual_riesz_is_action :
  forall (nodes : seq functional), (0 < size nodes)%N ->
    let shp := target_shape (head nil_f nodes) in
    all (wf_functional E shp) nodes ->
    (has (fun l => deriv_dict l != [::]) nodes -> (0 < \max_(l <- nodes) max_deriv_order l)%N) ->
    exists m, to_riesz E nodes = Ok m /\
      forall k, (k < size nodes)%N ->
        exists r, functional_to_riesz E shp (nth nil_f nodes k) = Ok r /\
          forall c i, c \in comps shp -> (i < nexp E)%N ->
            m k c i = apply (nth nil_f nodes k) (unit_func E c i) /\ r c i = m k c i.
Proof.
move=> nodes H0 shp Hwf Hd. have [m [Hm Hv]] := to_riesz_ok H0 Hwf Hd. exists m; split=> // k Hk.
have [r [Hr Hr']] := functional_to_riesz_ok (all_nthP nil_f Hwf k Hk). exists r; split=> // c i Hc Hi.
by rewrite Hr' // Hv.
Qed.

(** The condition on derivatives cannot be dropped: if every derivative in the
    set has order zero, [DualSet.to_riesz] never looks at the derivative
    dictionaries, although [Functional.to_riesz] does. *)
Theorem C11_zero_order_derivatives_refuted :
  forall x : P, (0 < nexp E)%N -> phi E 0%N x = 1 -> (forall a i y, sumn a = 0%N -> dphi E a i y = phi E i y) ->
    let l := mkFunctional [::] [::] [:: (x, [:: (1, nseq (sdim E) 0%N, [::])])] in
    wf_functional E [::] l /\
    exists m r, to_riesz E [:: l] = Ok m /\ functional_to_riesz E [::] l = Ok r /\ m 0%N [::] 0%N <> r [::] 0%N.
Proof.
move=> x Hn Hphi Hd l.
have Hwf : wf_functional E [::] l by rewrite /wf_functional /= size_nseq eqxx.
split=> //. have [r [Hr Hv]] := functional_to_riesz_ok Hwf.
exists (fun _ _ _ => 0), r. split; last split=> //.
- rewrite /to_riesz /= big_seq1 /max_deriv_order /= big_seq1 /= big_seq1 /= sumn_nseq mul0n. by [].
- rewrite Hv // apply_unit /= big_nil add0r big_seq1 /= big_seq1 /= mul1r Hd ?Hphi ?sumn_nseq ?mul0n // => H.
  by have := oner_neq0 F; rewrite -H eqxx.
Qed.

(** ** C10 *)
(** Construction succeeds exactly when the nodes determine a combination of
    the primal functions: as many nodes as functions, and no nonzero
    combination on which every node vanishes. *)
Definition unisolvent (nodes : seq functional) (U : polyset F) : Prop :=
  size nodes = num_members U /\
  forall a : nat -> F, (forall i, (i < size nodes)%N -> apply (nth nil_f nodes i) (combination E U a) = 0) ->
    forall j, (j < num_members U)%N -> a j = 0.

Lemma vandermonde_combination nodes U R : all (wf_functional E (pshape U)) nodes ->
  (forall k c i, (k < size nodes)%N -> (i < nexp E)%N -> R k c i = apply (nth nil_f nodes k) (unit_func E c i)) ->
  forall (i : 'I_(size nodes)) (a : 'I_(size nodes) -> F), size nodes = num_members U ->
  \sum_(j < size nodes) vandermonde E (size nodes) (pshape U) R (coeffs U) i j * a j =
  apply (nth nil_f nodes i) (combination E U (fun j => if insub j is Some j' then a j' else 0)).
Proof.
move=> Hwf HR i a Hn. have Hi := all_nthP nil_f Hwf i (ltn_ord i).
under eq_bigr do rewrite /vandermonde (dual_matrix _ _ _ Hwf HR) (apply_expand _ Hi).
rewrite (apply_expand _ Hi). under eq_bigr do rewrite mulr_suml.
rewrite exchange_big /=. apply: eq_bigr => c _. under eq_bigr do rewrite mulr_suml.
rewrite exchange_big /=. apply: eq_bigr => k _. rewrite -Hn mulr_sumr. apply: eq_bigr => j _.
by rewrite valK mulrA mulrAC -mulrA.
Qed.

Theorem C10_construction_iff_unisolvent :
  forall nodes U, good_nodes E nodes U ->
    (unisolvent nodes U -> exists U', ciarlet E nodes U = Ok U') /\
    (~ unisolvent nodes U -> ciarlet E nodes U = Err Base.LinAlgError).
Proof.
move=> nodes U HG. have [H0 Hs Hwf Hd] := HG. have [R [HR ->]] := ciarlet_cases HG.
case: eqP => [Hn|Hn] /=; last by split=> // -[].
set V := vandermonde _ _ _ _ _.
have HV := vandermonde_combination Hwf HR.
have U2 : V \in unitmx -> unisolvent nodes U.
{ move=> HU; split=> // a Ha j Hj. rewrite -Hn in Hj.
  have Hz : V *m (\col_l a (val l)) = 0.
  { apply/matrixP => i z. rewrite mxE [RHS]mxE. under eq_bigr do rewrite [X in _ * X]mxE. apply: (etrans (HV i (fun l => a (val l)) Hn)).
    rewrite -[RHS](Ha i (ltn_ord i)). apply: (expand_ext (shp := pshape U)); first exact: (all_nthP nil_f Hwf).
    move=> c k _ _. rewrite -Hn. apply: eq_bigr => l _. by rewrite valK. }
  have : \col_l a (val l) = 0 :> 'cV[F]_(size nodes) by rewrite -[LHS](mulKmx HU) Hz mulmx0.
  by move/matrixP/(_ (Ordinal Hj) 0); rewrite !mxE. }
split.
- move=> [_ Hinj]. case: ifP => [_|Hu]; first by eexists.
  exfalso. move/negbT: Hu. rewrite -unitmx_tr -row_free_unit -kermx_eq0 => /negP []. apply/eqP/row_matrixP => i. rewrite row0.
  have Hk : row i (kermx V^T) *m V^T = 0 by rewrite -row_mul mulmx_ker row0.
  set v := row i _ in Hk *. apply/rowP => j. rewrite [RHS]mxE.
  have := Hinj (fun j => if insub j is Some j' then v 0 j' else 0). move=> /(_ _ j); rewrite valK; apply.
  + move=> i' Hi'. apply: (etrans (esym (HV (Ordinal Hi') (fun j => v 0 j) Hn))).
    move/rowP: Hk => /(_ (Ordinal Hi')). rewrite mxE [X in _ = X]mxE => Hk. rewrite -[RHS]Hk. apply: eq_bigr => l _. by rewrite [X in _ = _ * X]mxE mulrC.
  + by rewrite -Hn.
- by move=> Hnu; case: ifP => // /U2.
Qed.

(** The constructed basis is nodal, spans the same space, and is the only
    nodal basis of that space. *)
Theorem C10_nodal_basis :
  forall nodes U U', good_nodes E nodes U -> ciarlet E nodes U = Ok U' ->
    let n := size nodes in
    [/\ num_members U' = n, num_members U = n, pshape U' = pshape U,
     (forall i j, (i < n)%N -> (j < n)%N -> apply (nth nil_f nodes i) (member E U' j) = (i == j)%:R) &
     (forall j, (j < n)%N -> exists a : nat -> F, forall c k, c \in comps (pshape U) -> (k < nexp E)%N ->
         coeffs U' j c k = \sum_(l < n) a l * coeffs U l c k) /\
     (forall j, (j < n)%N -> exists a : nat -> F, forall c k, c \in comps (pshape U) -> (k < nexp E)%N ->
         coeffs U j c k = \sum_(l < n) a l * coeffs U' l c k) /\
     (forall a : nat -> nat -> F,
        (forall i j, (i < n)%N -> (j < n)%N -> apply (nth nil_f nodes i) (combination E U (a j)) = (i == j)%:R) ->
        forall j c k, (j < n)%N -> c \in comps (pshape U) -> (k < nexp E)%N ->
          \sum_(l < n) a j l * coeffs U l c k = coeffs U' j c k)].
Proof.
move=> nodes U U' HG. have [H0 Hs Hwf Hd] := HG. have [R [HR ->]] := ciarlet_cases HG.
case: eqP => [Hn|Hn] //=. set V := vandermonde _ _ _ _ _. case: ifP => // HU [<-] /=.
set n := size nodes in V HU Hn *. set B := flat_mat E n (pshape U) (coeffs U). set N := (invmx V)^T *m B.
have HN : flat_mat E n (pshape U) (unflat_mat N) = N by exact: unflatK.
have HV := vandermonde_combination Hwf HR.
have row_entry : forall (A : 'M[F]_n) (m1 m2 : mat F), flat_mat E n (pshape U) m1 = A *m flat_mat E n (pshape U) m2 ->
   forall j, (j < n)%N -> exists a : nat -> F, forall c k, c \in comps (pshape U) -> (k < nexp E)%N ->
         m1 j c k = \sum_(l < n) a l * m2 l c k.
{ move=> A m1 m2 Hm j Hj. exists (fun l => if insub l is Some l' then A (Ordinal Hj) l' else 0) => c k Hc Hk.
  have [q [Hq Hq']] := flat_entry m1 (Ordinal Hj) Hc Hk.
  rewrite -[LHS]Hq Hm mxE. apply: eq_bigr => l _. rewrite valK. congr (_ * _).
  by rewrite mxE /flat_row mxE; have := Hq' (fun _ => m2 l); rewrite !mxE. }
split; rewrite -?Hn //.
- move=> i j Hi Hj. rewrite /member /= -(dual_matrix (unflat_mat N) (Ordinal Hi) (Ordinal Hj) Hwf HR) HN /N trmx_mul trmxK mulmxA.
  by rewrite -/(vandermonde E n (pshape U) R (coeffs U)) -/V mulmxV // mxE.
- split; [|split].
  + exact: (row_entry (invmx V)^T).
  + apply: (row_entry V^T). rewrite HN /N mulmxA -trmx_mul mulVmx // trmx1 mul1mx. by [].
  + move=> a Ha j c k Hj Hc Hk.
    have Hinv : V *m (\matrix_(l < n, j < n) a j l) = 1%:M.
    { apply/matrixP => i j'. rewrite mxE [RHS]mxE. under eq_bigr do rewrite [X in _ * X]mxE. apply: (etrans (HV i (fun l => a j' l) Hn)).
      rewrite -val_eqE -(Ha i j' (ltn_ord i) (ltn_ord j')). apply: (expand_ext (shp := pshape U)); first exact: (all_nthP nil_f Hwf).
      move=> c' k' _ _. rewrite -Hn. apply: eq_bigr => l _. by rewrite valK. }
    have Hinv' : \matrix_(l < n, j < n) a j l = invmx V by rewrite -[LHS](mulKmx HU) Hinv mulmx1.
    have [q [Hq Hq']] := flat_entry (unflat_mat N) (Ordinal Hj) Hc Hk.
    rewrite -[RHS]Hq HN /N -Hinv' mxE. apply: eq_bigr => l _. rewrite !mxE. congr (_ * _).
    by have := Hq' (fun _ => coeffs U l); rewrite !mxE.
Qed.
End Props.
Print Assumptions C11_dual_riesz_is_action.
Print Assumptions C11_zero_order_derivatives_refuted.
Print Assumptions C10_construction_iff_unisolvent.
Print Assumptions C10_nodal_basis.

(** Non-vacuity: on an interval with expansion functions 1 and x, the nodes
    "value at 0" and "value at 2 plus three times the derivative at 2". *)
Section Example.
Let E : expansion [fieldType of rat] [eqType of rat] :=
  mkExpansion 2 1 (fun i x => if i == 0%N then 1 else x)
    (fun a i x => if sumn a == 0%N then (if i == 0%N then 1 else x)
                  else if (sumn a == 1%N) && (i == 1%N) then 1 else 0).
Let l0 : functional [fieldType of rat] [eqType of rat] := mkFunctional [::] [:: (0, [:: (1, [::])])] [::].
Let l1 : functional [fieldType of rat] [eqType of rat] :=
  mkFunctional [::] [:: (2%:Q, [:: (1, [::])])] [:: (2%:Q, [:: (3%:Q, [:: 1%N], [::])])].
Let U : polyset [fieldType of rat] := mkPolySet 2 [::] (fun j _ k => (j == k)%:R).
Example C10_nonvacuous : good_nodes E [:: l0; l1] U /\ unisolvent E [:: l0; l1] U.
Proof.
split.
- split=> //. by rewrite !big_cons big_nil /max_deriv_order /= !big_cons !big_nil /=.
- split=> // a Ha.
  have H0 := Ha 0%N isT. have H1 := Ha 1%N isT.
  rewrite /apply /= /l0 /= !(big_cons, big_nil, big_ord_recl, big_ord0) /= /bump /= !(mul1r, mulr0, mulr1, addr0, add0r, mul0r) in H0.
  rewrite /apply /= /l1 /= !(big_cons, big_nil, big_ord_recl, big_ord0) /= /bump /= !(mul1r, mulr0, mulr1, addr0, add0r, mul0r) H0 in H1.
  case=> [|[|]] //= _.
  have : a 1%N * 5%:Q = 0. { rewrite -[RHS]H1. rewrite add0r (mulrC _ (a 1%N)) -mulrDr. by []. }
  by move/eqP; rewrite mulf_eq0 orbF => /eqP.
Qed.
End Example.
