(** C37: the pointwise dual. *)
Set Warnings "-notation-overridden,-ambiguous-paths".
From mathcomp Require Import all_ssreflect all_algebra.
From Verif Require Base ModelCell.
From Verif Require Import ModelDual SpecDual ProofsDual ModelPointwise.
Set Implicit Arguments. Unset Strict Implicit. Unset Printing Implicit Defensive.
Import Order.TTheory GRing.Theory Num.Theory.
Local Open Scope ring_scope.

Section C37.
Variable F : realFieldType.
Notation point := (seq F).
Notation fnl := (functional F [eqType of seq F]).
Notation nil_f := (mkFunctional [::] [::] [::] : fnl).
Notation func := (func F [eqType of seq F]).
Implicit Types (el : element F) (pts : seq point).

(** ** Specification *)
(** basis function [j] of the element, as a function to apply nodes to (the
    derivatives play no part) *)
Definition basis el (j : nat) : func := mkFunc (fun c x => e_basis el j c x) (fun _ _ _ => 0).
(** the function with coefficients [a] in that basis *)
Definition in_basis el (a : nat -> F) : func :=
  mkFunc (fun c x => \sum_(j < e_dim el) a j * e_basis el j c x) (fun _ _ _ => 0).
(** the points determine the functions of the space: only the zero coefficients
    vanish at all points in all components *)
Definition unisolvent el pts : Prop :=
  forall a : nat -> F, (forall c x, c \in comps (e_shape el) -> x \in pts -> fval (in_basis el a) c x = 0) ->
    forall j, (j < e_dim el)%N -> a j = 0.
Definition total el pts (f : comp -> point -> F) : F := \sum_(c <- comps (e_shape el)) \sum_(x <- pts) f c x.

(** ** Proofs *)
Lemma append_to_sum (g : F * comp -> point -> F) x w d :
  \sum_(pw <- append_to x w d) \sum_(wc <- pw.2) g wc pw.1 = g w x + \sum_(pw <- d) \sum_(wc <- pw.2) g wc pw.1.
Proof.
elim: d => [|[x' ws] d IH] /=; first by rewrite !big_cons !big_nil /= addr0.
case: eqP => [->|_]; rewrite !big_cons /=; last by rewrite IH addrCA.
by rewrite -cats1 big_cat big_seq1 /= addrCA addrA.
Qed.
Lemma append_to_keys x w (d : seq (point * seq (F * comp))) :
  [seq pw.1 | pw <- append_to x w d] = if x \in [seq pw.1 | pw <- d] then [seq pw.1 | pw <- d] else rcons [seq pw.1 | pw <- d] x.
Proof.
elim: d => [|[x' ws] d IH] //=. rewrite inE. case: eqP => [->|Hx] //=. rewrite IH. by case: ifP.
Qed.
Lemma append_to_all (p : pred (F * comp)) x w (d : seq (point * seq (F * comp))) : p w -> all (fun pw => all p pw.2) d ->
  all (fun pw => all p pw.2) (append_to x w d).
Proof.
move=> Hw. elim: d => [|[x' ws] d IH] /=; first by rewrite Hw.
case/andP => H1 H2. case: eqP => _ /=; rewrite ?all_rcons ?Hw ?H1 ?H2 //=. exact: IH.
Qed.

Lemma row_apply shp pts co (f : func) : apply (row_functional shp pts co) f =
  \sum_(cp <- [seq cp <- entries shp (size pts) | drop_tol F < `|co cp.1 cp.2|]) co cp.1 cp.2 * fval f cp.1 (nth [::] pts cp.2).
Proof.
rewrite /apply /= big_nil addr0. set l := filter _ _.
have H : forall d, \sum_(pw <- foldl (fun d cp => append_to (nth [::] pts cp.2) (co cp.1 cp.2, cp.1) d) d l)
    \sum_(wc <- pw.2) wc.1 * fval f wc.2 pw.1 =
    \sum_(cp <- l) co cp.1 cp.2 * fval f cp.1 (nth [::] pts cp.2) + \sum_(pw <- d) \sum_(wc <- pw.2) wc.1 * fval f wc.2 pw.1.
{ elim: l => [|cp l IH] d /=; first by rewrite big_nil add0r.
  rewrite IH (append_to_sum (fun wc x => wc.1 * fval f wc.2 x)) big_cons /= addrA. by rewrite [X in X + _]addrC. }
by rewrite H big_nil addr0.
Qed.
Lemma row_wf shp pts co (E : expansion F [eqType of seq F]) : 
  [/\ target_shape (row_functional shp pts co) = shp, deriv_dict (row_functional shp pts co) = [::],
   wf_functional E shp (row_functional shp pts co) &
   forall x, x \in [seq pw.1 | pw <- pt_dict (row_functional shp pts co)] -> x \in pts].
Proof.
rewrite /row_functional. set l := filter _ _ => /=. rewrite /wf_functional /=.
have H : forall d, uniq [seq pw.1 | pw <- d] -> all (fun pw => all (fun wc => wc.2 \in comps shp) pw.2) d ->
   (forall x, x \in [seq pw.1 | pw <- d] -> x \in pts) -> all (fun cp => (cp.1 \in comps shp) && (cp.2 < size pts)%N) l ->
   let d' := foldl (fun d cp => append_to (nth [::] pts cp.2) (co cp.1 cp.2, cp.1) d) d l in
   [/\ uniq [seq pw.1 | pw <- d'], all (fun pw => all (fun wc => wc.2 \in comps shp) pw.2) d' &
    (forall x, x \in [seq pw.1 | pw <- d'] -> x \in pts)].
{ elim: l => [|cp l IH] d H1 H2 H3 //= /andP [/andP [H4 H4'] H5]. apply: IH => //.
  - rewrite append_to_keys. case: ifP => // H6. by rewrite rcons_uniq H6.
  - exact: append_to_all.
  - move=> x. rewrite append_to_keys. case: ifP => // H6; first exact: H3.
    rewrite mem_rcons inE => /orP [/eqP ->|]; [exact: mem_nth|exact: H3]. }
have Hl : all (fun cp => (cp.1 \in comps shp) && (cp.2 < size pts)%N) l.
{ apply/allP => cp. rewrite mem_filter => /andP [_ /allpairsP [[c p] /= [Hc Hp ->]]] /=.
  by rewrite Hc; rewrite mem_iota in Hp. }
have [K1 K2 K3] := H [::] isT isT (fun x => fun h => ltac:(by rewrite in_nil in h)) Hl.
split=> //. by rewrite K1 K2.
Qed.

Lemma sum_entries shp npts (g : comp -> nat -> F) :
  \sum_(cp <- entries shp npts) g cp.1 cp.2 = \sum_(c <- comps shp) \sum_(p < npts) g c p.
Proof.
rewrite /entries big_allpairs_dep. apply: eq_bigr => c _ /=. by rewrite -{1}[npts]subn0 -/(index_iota 0 npts) big_mkord.
Qed.
Lemma sum_cols shp npts (g : comp -> nat -> F) :
  \sum_(q < size (comps shp) * npts) g (nth [::] (comps shp) (q %/ npts)) (q %% npts)%N =
  \sum_(c <- comps shp) \sum_(p < npts) g c p.
Proof.
exact: (sum_flat (@mkExpansion F [eqType of seq F] npts 0 (fun _ _ => 0) (fun _ _ _ => 0)) shp g).
Qed.
Lemma total_nth el pts (f : comp -> point -> F) :
  total el pts f = \sum_(c <- comps (e_shape el)) \sum_(p < size pts) f c (nth [::] pts p).
Proof. rewrite /total. apply: eq_bigr => c _. by rewrite (big_nth [::]) big_mkord. Qed.

(** the weights the function computes: they are dual to the basis *)
Lemma computed el pts nodes ids : compute_pointwise_dual el pts = Ok (nodes, ids) ->
  exists co : nat -> comp -> nat -> F,
  [/\ ids = e_ids el, (size (comps (e_shape el)) * size pts)%N = e_dim el, all (fun x => size x == e_sd el) pts,
   nodes = [seq row_functional (e_shape el) pts (co i) | i <- iota 0 (e_dim el)] &
   forall i j, (i < e_dim el)%N -> (j < e_dim el)%N ->
     \sum_(c <- comps (e_shape el)) \sum_(p < size pts) co i c p * e_basis el j c (nth [::] pts p) = (i == j)%:R] /\
   (point_matrix el pts \in unitmx).
Proof.
rewrite /compute_pointwise_dual. case: ifP => // _. case: ifP => // /negbFE /andP [_ Hsz]. case: ifP => // /negbFE /eqP HN.
case: ifP => // HU [<- <-]. 
exists (fun i c p => if insub i is Some i' then
   (if insub (index c (comps (e_shape el)) * size pts + p)%N is Some q then invmx (point_matrix el pts) i' q else 0) else 0).
split=> //. split=> //.
- rewrite -[iota 0 _]val_enum_ord -[in RHS]map_comp. apply: eq_map => i /=. by rewrite valK.
- move=> i j Hi Hj. rewrite insubT.
  rewrite -(sum_cols _ _ (fun c p => match insub (index c (comps (e_shape el)) * size pts + p)%N with
      | Some q => invmx (point_matrix el pts) (Sub i Hi) q | None => 0 end * e_basis el j c (nth [::] pts p))).
  have := mulVmx HU. move/matrixP/(_ (Ordinal Hi) (Ordinal Hj)). rewrite !mxE => <-.
  rewrite -(big_mkord xpredT (fun q => match insub (index (nth [::] (comps (e_shape el)) (q %/ size pts)) (comps (e_shape el)) * size pts + q %% size pts)%N with
      | Some q => invmx (point_matrix el pts) (Sub i Hi) q | None => 0 end * e_basis el j (nth [::] (comps (e_shape el)) (q %/ size pts)) (nth [::] pts (q %% size pts)))).
  rewrite HN big_mkord. apply: eq_bigr => q _. rewrite [in RHS]mxE [in RHS]mxE /=.
  have Hp : (0 < size pts)%N. { case: (posnP (size pts)) => // H. have := ltn_ord q. by rewrite -[X in (_ < X)%N]HN H muln0. }
  rewrite index_uniq ?comps_uniq //; last by rewrite ltn_divLR // HN.
  by rewrite -divn_eq valK.
Qed.

Lemma split_drop shp pts co (f : func) :
  apply (row_functional shp pts co) f = \sum_(c <- comps shp) \sum_(p < size pts) co c p * fval f c (nth [::] pts p)
   - \sum_(c <- comps shp) \sum_(p < size pts) (if drop_tol F < `|co c p| then 0 else co c p * fval f c (nth [::] pts p)).
Proof.
rewrite row_apply big_filter. apply/eqP. rewrite eq_sym subr_eq. apply/eqP.
rewrite -(sum_entries shp (size pts) (fun c p => co c p * fval f c (nth [::] pts p))).
rewrite -(sum_entries shp (size pts) (fun c p => if drop_tol F < `|co c p| then 0 else co c p * fval f c (nth [::] pts p))).
rewrite [X in _ = X + _]big_mkcond -big_split /=. apply: eq_bigr => cp _. by case: ifP; rewrite ?addr0 ?add0r.
Qed.

Lemma drop_bound shp pts co (f : func) :
  `|\sum_(c <- comps shp) \sum_(p < size pts) (if drop_tol F < `|co c p| then 0 else co c p * fval f c (nth [::] pts p))|
  <= drop_tol F * \sum_(c <- comps shp) \sum_(p < size pts) `|fval f c (nth [::] pts p)|.
Proof.
rewrite mulr_sumr. apply: le_trans (ler_norm_sum _ _ _) _. apply: ler_sum => c _.
rewrite mulr_sumr. apply: le_trans (ler_norm_sum _ _ _) _. apply: ler_sum => p _.
case: ifP => [_|/negbT]; first by rewrite normr0 mulr_ge0 ?invr_ge0 ?exprn_ge0 ?ler0n ?normr_ge0.
rewrite -leNgt => H. by rewrite normrM ler_wpmul2r.
Qed.

(** ** C37: the nodes take only values at the given points, there is one for
    each basis function, and node [i] applied to any function of the space gives
    its coefficient [i] up to 1e-12 times the sum of the absolute values of the
    function at the points; the entity dofs are those of the element. *)
Theorem C37_dual el pts nodes ids : compute_pointwise_dual el pts = Ok (nodes, ids) ->
  [/\ ids = e_ids el, size nodes = e_dim el,
   (forall i, (i < e_dim el)%N -> let l := nth nil_f nodes i in
      [/\ target_shape l = e_shape el, deriv_dict l = [::],
       (forall x, x \in [seq pw.1 | pw <- pt_dict l] -> x \in pts),
       uniq [seq pw.1 | pw <- pt_dict l] &
       all (fun pw => all (fun wc => wc.2 \in comps (e_shape el)) pw.2) (pt_dict l)]) &
   forall i a, (i < e_dim el)%N ->
     `|apply (nth nil_f nodes i) (in_basis el a) - a i| <= (10 ^+ 12)^-1 * total el pts (fun c x => `|fval (in_basis el a) c x|)].
Proof.
move=> /computed [co [[-> HN Hsz -> Hd] _]].
have Hn : forall i, (i < e_dim el)%N -> nth nil_f [seq row_functional (e_shape el) pts (co i0) | i0 <- iota 0 (e_dim el)] i =
   row_functional (e_shape el) pts (co i).
{ move=> i Hi. by rewrite (nth_map 0%N) ?size_iota // nth_iota. }
split=> //; first by rewrite size_map size_iota.
- move=> i Hi. rewrite Hn //. have [K1 K2 K3 K4] := row_wf (e_shape el) pts (co i) (mkExpansion 0 0 (fun _ _ => 0) (fun _ _ _ => 0)).
  have /and4P [K5 _ K6 _] := K3. by split.
- move=> i a Hi. rewrite Hn // split_drop.
  have -> : \sum_(c <- comps (e_shape el)) \sum_(p < size pts) co i c p * fval (in_basis el a) c (nth [::] pts p) = a i.
  { transitivity (\sum_(j < e_dim el) a j * (i == j)%:R).
    - rewrite [RHS](eq_bigr (fun j : 'I_(e_dim el) => \sum_(c <- comps (e_shape el)) \sum_(p < size pts) co i c p * (a j * e_basis el j c (nth [::] pts p)))).
      + rewrite [RHS]exchange_big /=. apply: eq_bigr => c _. rewrite [RHS]exchange_big /=. apply: eq_bigr => p _. by rewrite mulr_sumr.
      + move=> j _. rewrite -Hd // mulr_sumr. apply: eq_bigr => c _. rewrite mulr_sumr. apply: eq_bigr => p _. by rewrite mulrCA.
    - rewrite (bigD1 (Ordinal Hi)) //= eqxx mulr1 big1 ?addr0 // => j Hj.
      rewrite (_ : (i == j) = false) ?mulr0 //. apply/negP => /eqP H. by case/eqP: Hj; apply: val_inj. }
  rewrite addrAC subrr add0r normrN total_nth. exact: drop_bound.
Qed.

(** In particular the action on basis function [j] is the Kronecker delta up to
    the tolerance. *)
Theorem C37_kronecker el pts nodes ids : compute_pointwise_dual el pts = Ok (nodes, ids) ->
  forall i j, (i < e_dim el)%N -> (j < e_dim el)%N ->
  `|apply (nth nil_f nodes i) (basis el j) - (i == j)%:R| <= (10 ^+ 12)^-1 * total el pts (fun c x => `|e_basis el j c x|).
Proof.
move=> HC i j Hi Hj. have [_ _ Hw H] := C37_dual HC. have := H i (fun k => (k == j)%:R) Hi.
have HE : forall c x, fval (in_basis el (fun k => (k == j)%:R)) c x = e_basis el j c x.
{ move=> c x /=. rewrite (bigD1 (Ordinal Hj)) //= eqxx mul1r big1 ?addr0 // => k Hk.
  rewrite (_ : (nat_of_ord k == j) = false) ?mul0r //. apply/negP => /eqP E. by case/eqP: Hk; apply: val_inj. }
have -> : apply (nth nil_f nodes i) (in_basis el (fun k => (k == j)%:R)) = apply (nth nil_f nodes i) (basis el j).
{ have [_ Hdd _ _ _] := Hw i Hi. rewrite /apply Hdd !big_nil. congr (_ + _). apply: eq_bigr => pw _. apply: eq_bigr => wc _. by rewrite HE. }
have -> // : total el pts (fun c x => `|fval (in_basis el (fun k => (k == j)%:R)) c x|) = total el pts (fun c x => `|e_basis el j c x|).
rewrite /total. apply: eq_bigr => c _. apply: eq_bigr => x _. by rewrite HE.
Qed.

(** If the dual weights have no nonzero entry of absolute value at most 1e-12,
    nothing is dropped and the action is exact.  [w] is any family of weights at
    the points that is dual to the basis. *)
Theorem C37_exact el pts nodes ids : compute_pointwise_dual el pts = Ok (nodes, ids) ->
  forall i (w : comp -> nat -> F), (i < e_dim el)%N ->
  (forall j, (j < e_dim el)%N ->
     \sum_(c <- comps (e_shape el)) \sum_(p < size pts) w c p * e_basis el j c (nth [::] pts p) = (i == j)%:R) ->
  (forall c p, c \in comps (e_shape el) -> (p < size pts)%N -> w c p = 0 \/ (10 ^+ 12)^-1 < `|w c p|) ->
  forall j, (j < e_dim el)%N -> apply (nth nil_f nodes i) (basis el j) = (i == j)%:R.
Proof.
move=> /computed [co [[_ HN Hsz -> Hd] HU]] i w Hi Hw Hbig j Hj.
rewrite (nth_map 0%N) ?size_iota // nth_iota // add0n split_drop.
have E0 : forall c p, c \in comps (e_shape el) -> (p < size pts)%N -> co i c p = w c p.
{ move=> c p Hc Hp.
  have Hcol : forall (v : comp -> nat -> F), (forall j, (j < e_dim el)%N ->
     \sum_(c <- comps (e_shape el)) \sum_(p < size pts) v c p * e_basis el j c (nth [::] pts p) = 0) -> v c p = 0.
  { move=> v Hv. pose r : 'rV[F]_(e_dim el) := \row_q v (nth [::] (comps (e_shape el)) (q %/ size pts)) (q %% size pts)%N.
    have Hr : r *m point_matrix el pts = 0.
    { apply/rowP => k. rewrite !mxE -[RHS](Hv k (ltn_ord k)).
      rewrite -(sum_cols _ _ (fun c p => v c p * e_basis el k c (nth [::] pts p))).
      rewrite -(big_mkord xpredT (fun q => v (nth [::] (comps (e_shape el)) (q %/ size pts)) (q %% size pts)%N * e_basis el k (nth [::] (comps (e_shape el)) (q %/ size pts)) (nth [::] pts (q %% size pts)))) HN big_mkord.
      apply: eq_bigr => q _. by rewrite !mxE. }
    have Hr0 : r = 0 by rewrite -[r](mulmxK HU) Hr mul0mx.
    have Hp0 : (0 < size pts)%N by apply: leq_ltn_trans Hp.
    have Hq : (index c (comps (e_shape el)) * size pts + p < e_dim el)%N.
    { rewrite -HN. apply: (@leq_trans ((index c (comps (e_shape el))).+1 * size pts)%N).
      - by rewrite mulSnr ltn_add2l.
      - by rewrite leq_mul2r index_mem Hc orbT. }
    have := congr1 (fun M : 'rV_(_) => M 0 (Ordinal Hq)) Hr0.
    by rewrite !mxE /= divnMDl // divn_small // addn0 modnMDl modn_small // nth_index. }
  apply/eqP. rewrite -subr_eq0. apply/eqP. apply: (Hcol (fun c p => co i c p - w c p)) => k Hk.
  rewrite -[RHS](subrr (i == k)%:R) -{1}(Hd i k Hi Hk) -(Hw k Hk) -sumrB. apply: eq_bigr => c' _. rewrite -sumrB.
  apply: eq_bigr => p' _. by rewrite mulrBl. }
set Y := (X in _ - X). suff -> : Y = 0 by rewrite subr0; exact: Hd.
rewrite /Y big_seq. apply: big1 => c Hc. rewrite big1 // => p _. case: ifP => // /negbT. rewrite -leNgt E0 // => Hle.
case: (Hbig c p Hc (ltn_ord p)) => [->|Hlt]; first by rewrite mul0r.
by rewrite /drop_tol leNgt Hlt in Hle.
Qed.

(** The function succeeds exactly on the point sets that determine the functions
    of the space; otherwise it reports a singular system. *)
Theorem C37_iff_unisolvent el pts : (0 < size (comps (e_shape el)))%N ->
  (size (comps (e_shape el)) * size pts)%N = e_dim el -> all (fun x => size x == e_sd el) pts ->
  (unisolvent el pts -> exists nodes, compute_pointwise_dual el pts = Ok (nodes, e_ids el)) /\
  (~ unisolvent el pts -> compute_pointwise_dual el pts = Err Base.LinAlgError).
Proof.
move=> Hc HN Hsz. have D : (e_dim el %/ size (comps (e_shape el)))%N = size pts by rewrite -HN mulKn.
rewrite /compute_pointwise_dual (negbTE (lt0n_neq0 Hc)) Hsz D eqxx /= HN eqxx /=.
have U1 : point_matrix el pts \in unitmx -> unisolvent el pts.
{ move=> HU a Ha j Hj. pose v : 'cV[F]_(e_dim el) := \col_j a j.
  have Hv : point_matrix el pts *m v = 0.
  { apply/colP => q. rewrite !mxE. have Hp : (0 < size pts)%N. { case: (posnP (size pts)) => // H. have := ltn_ord q. by rewrite -[X in (_ < X)%N]HN H muln0. }
    rewrite -[RHS](Ha (nth [::] (comps (e_shape el)) (q %/ size pts)) (nth [::] pts (q %% size pts))) /=.
    - apply: eq_bigr => k _. by rewrite !mxE mulrC.
    - by rewrite mem_nth // ltn_divLR // HN.
    - by rewrite mem_nth // ltn_mod. }
  have : v = 0 by rewrite -[v](mulKmx HU) Hv mulmx0.
  move/colP/(_ (Ordinal Hj)). by rewrite !mxE. }
have U2 : unisolvent el pts -> point_matrix el pts \in unitmx.
{ move=> Hu. rewrite -unitmx_tr -row_free_unit -kermx_eq0. apply/eqP/row_matrixP => i. rewrite row0. set u := row i _.
  have Hu0 : point_matrix el pts *m u^T = 0.
  { rewrite -[point_matrix _ _]trmxK -trmx_mul. by rewrite /u -row_mul mulmx_ker row0 trmx0. }
  apply/rowP => j. rewrite [RHS]mxE.
  have := Hu (fun k => if insub k is Some k' then u 0 k' else 0) _ j (ltn_ord j). rewrite valK. apply.
  move=> c x Hcc Hx /=. have Hp : (index x pts < size pts)%N by rewrite index_mem.
  have Hp0 : (0 < size pts)%N by apply: leq_ltn_trans Hp.
  have Hq : (index c (comps (e_shape el)) * size pts + index x pts < e_dim el)%N.
  { rewrite -HN. apply: (@leq_trans ((index c (comps (e_shape el))).+1 * size pts)%N).
    - by rewrite mulSnr ltn_add2l.
    - by rewrite leq_mul2r index_mem Hcc orbT. }
  have := congr1 (fun M : 'cV_(_) => M (Ordinal Hq) 0) Hu0. rewrite mxE [RHS]mxE => H. rewrite -[RHS]H.
  apply: eq_bigr => k _. rewrite valK !mxE /= divnMDl // divn_small // addn0 modnMDl modn_small // !nth_index // mulrC. by []. }
split.
- move=> /U2 ->. by eexists.
- by case: ifP => // /U1.
Qed.

(** A wrong number of points, or points of a wrong dimension, are refused. *)
Theorem C37_wrong_points_refused el pts : (0 < size (comps (e_shape el)))%N ->
  (size pts != (e_dim el %/ size (comps (e_shape el)))%N) || has (fun x => size x != e_sd el) pts ->
  compute_pointwise_dual el pts = Err Base.AssertionError.
Proof.
move=> Hc H. rewrite /compute_pointwise_dual (negbTE (lt0n_neq0 Hc)).
case: ifP => // /negbFE /andP [H1 H2]. move: H. rewrite H1 /= => /hasP [x Hx]. by rewrite (allP H2 x Hx).
Qed.
End C37.

(** ** Instance: the element with basis 1, x (value shape ()) on the points 0, 1:
    the dual is the value at 0 and the difference of the values. *)
Definition ex_el : element rat_realFieldType :=
  mkElement 2 [::] 1 (fun j _ x => if j == 0%N then 1 else nth 0 x 0) [::].
Definition ex_pts : seq (seq rat) := [:: [:: 0]; [:: 1]].
Theorem C37_instance : unisolvent ex_el ex_pts /\
  exists nodes, compute_pointwise_dual ex_el ex_pts = Ok (nodes, [::]).
Proof.
have U : unisolvent ex_el ex_pts.
{ move=> a Ha. have H0 := Ha [::] [:: 0] isT isT. have H1 := Ha [::] [:: 1] isT isT.
  rewrite /= !big_ord_recl !big_ord0 /= mulr1 mulr0 !addr0 in H0. rewrite /= !big_ord_recl !big_ord0 /= !mulr1 !addr0 H0 add0r in H1.
  by case=> [|[|]]. }
split=> //. exact: (proj1 (@C37_iff_unisolvent rat_realFieldType ex_el ex_pts isT erefl isT) U).
Qed.
