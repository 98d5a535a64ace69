Set Warnings "-notation-overridden,-ambiguous-paths".
From mathcomp Require Import all_ssreflect all_algebra.
From Verif Require Import ModelDual SpecDual.
Set Implicit Arguments. Unset Strict Implicit. Unset Printing Implicit Defensive.
Import GRing.Theory.
Local Open Scope ring_scope.

Section Folds.
Lemma foldl_ok {S : Type} {T : eqType} (step : result S -> T -> result S) (upd : S -> T -> S) l s :
  (forall x s', x \in l -> step (Ok s') x = Ok (upd s' x)) -> foldl step (Ok s) l = Ok (foldl upd s l).
Proof.
elim: l s => //= x l IH s H. rewrite H ?mem_head // IH // => y s' Hy. apply: H. by rewrite in_cons Hy orbT.
Qed.
Lemma foldl_okT {S T : Type} (step : result S -> T -> result S) (upd : S -> T -> S) (p : pred T) l s : all p l ->
  (forall x s', p x -> step (Ok s') x = Ok (upd s' x)) -> foldl step (Ok s) l = Ok (foldl upd s l).
Proof. elim: l s => //= x l IH s /andP [Hx Hl] H. by rewrite H // IH. Qed.
Variables (F : fieldType).
Lemma foldl_val {A : Type} {T : Type} (upd : (A -> F) -> T -> A -> F) (contrib : T -> A -> F) l m a :
  (forall m x a, upd m x a = m a + contrib x a) ->
  foldl upd m l a = m a + \sum_(x <- l) contrib x a.
Proof.
move=> H. elim: l m => [|x l IH] m /=; first by rewrite big_nil addr0.
by rewrite IH H big_cons addrA.
Qed.
Lemma sum_iota_pick n i (g : nat -> F) : (i < n)%N ->
  \sum_(i' <- iota 0 n) (if i' == i then g i' else 0) = g i.
Proof.
move=> Hi. rewrite (bigD1_seq i) /= ?iota_uniq ?mem_iota //= eqxx big1 ?addr0 //.
by move=> j /negbTE ->.
Qed.
Lemma sum_iota_out n i (g : nat -> F) : (n <= i)%N ->
  \sum_(i' <- iota 0 n) (if i' == i then g i' else 0) = 0.
Proof.
move=> Hi. rewrite big_seq big1 // => j. rewrite mem_iota add0n => /andP [_ Hj].
case: eqP => // Hij. by rewrite Hij ltnNge Hi in Hj.
Qed.
Lemma sum_if {T} (l : seq T) (b : bool) (g : T -> F) :
  \sum_(x <- l) (if b then g x else 0) = if b then \sum_(x <- l) g x else 0.
Proof. by case: b => //; rewrite big1. Qed.
End Folds.

Section Collect.
Variables (P : eqType).
Definition entries (d : seq (P * seq nat)) : seq (P * nat) := flatten [seq [seq (pk.1, k) | k <- pk.2] | pk <- d].
Lemma append_at_entries pt k d : perm_eq (entries (append_at pt k d)) ((pt, k) :: entries d).
Proof.
elim: d => [|[pt' ks] d IH] //=. case: eqP => [->|_]; rewrite /entries /=.
- by rewrite map_rcons -cats1 -catA /= perm_catC /= perm_cons perm_catC.
- rewrite -[_ :: _]/([:: (pt, k)] ++ _) perm_sym perm_catCA perm_cat2l perm_sym. exact: IH.
Qed.
Lemma foldl_append_entries k pts d :
  perm_eq (entries (foldl (fun d pt => append_at pt k d) d pts)) ([seq (pt, k) | pt <- pts] ++ entries d).
Proof.
elim: pts d => [|pt pts IH] d //=. apply: (perm_trans (IH _)).
rewrite -[_ :: _]/([:: (pt, k)] ++ (_ ++ _)). rewrite perm_sym perm_catCA perm_cat2l perm_sym. exact: append_at_entries.
Qed.
Lemma collect_entries {V} (dicts : seq (seq (P * V))) :
  perm_eq (entries (collect dicts))
    (flatten [seq [seq (pw.1, ki.1) | pw <- ki.2] | ki <- zip (iota 0 (size dicts)) dicts]).
Proof.
rewrite /collect.
have H : forall l d, perm_eq (entries (foldl (fun d (ki : nat * seq (P * V)) => foldl (fun d pt => append_at pt ki.1 d) d [seq pw.1 | pw <- ki.2]) d l))
   (entries d ++ flatten [seq [seq (pw.1, ki.1) | pw <- ki.2] | ki <- l]).
{ elim=> [|[k dk] l IH] d /=; first by rewrite cats0.
  apply: (perm_trans (IH _)). rewrite catA perm_cat2r perm_sym perm_catC perm_sym.
  apply: (perm_trans (foldl_append_entries _ _ _)). by rewrite -map_comp. }
exact: (H _ [::]).
Qed.
End Collect.

Section Loop.
Variables (F : fieldType) (P : eqType) (E : expansion F P).
Lemma foldl_val3 {T} (upd : mat F -> T -> mat F) (contrib : T -> nat -> comp -> nat -> F) l m k c i :
  (forall m x k c i, upd m x k c i = m k c i + contrib x k c i) ->
  foldl upd m l k c i = m k c i + \sum_(x <- l) contrib x k c i.
Proof.
move=> H. elim: l m => [|x l IH] m /=; first by rewrite big_nil addr0. by rewrite IH H big_cons addrA.
Qed.
Lemma foldl_val2 {T} (upd : rowT F -> T -> rowT F) (contrib : T -> comp -> nat -> F) l m c i :
  (forall m x c i, upd m x c i = m c i + contrib x c i) ->
  foldl upd m l c i = m c i + \sum_(x <- l) contrib x c i.
Proof.
move=> H. elim: l m => [|x l IH] m /=; first by rewrite big_nil addr0. by rewrite IH H big_cons addrA.
Qed.
Lemma mat_add_val (m : mat F) k c i v k' c' i' :
  mat_add m k c i v k' c' i' = m k' c' i' + (if (k' == k) && (c' == c) && (i' == i) then v else 0).
Proof.
rewrite /mat_add /row_add. case: eqP => [->|_] /=; last by rewrite addr0. by case: (_ && _); rewrite ?addr0.
Qed.
Lemma row_add_val (m : rowT F) c i v c' i' :
  row_add m c i v c' i' = m c' i' + (if (c' == c) && (i' == i) then v else 0).
Proof. rewrite /row_add. by case: (_ && _); rewrite ?addr0. Qed.

Lemma foldl_entries {S} (g : P -> S -> nat -> S) m (coll : seq (P * seq nat)) :
  foldl (fun m pk => foldl (g pk.1) m pk.2) m coll = foldl (fun m e => g e.1 m e.2) m (entries coll).
Proof.
elim: coll m => [|[pt ks] coll IH] m //=. rewrite /entries /= foldl_cat IH /entries. congr foldl.
by elim: ks m => //= k ks IHk m.
Qed.

Lemma dget_in {V} (d : seq (P * V)) (pt : P) : pt \in [seq pw.1 | pw <- d] -> exists v, dget pt d = Some v.
Proof. elim: d => [|[p v] d IH] //=. rewrite in_cons. case: eqP => [->|_] /=; [by exists v|exact: IH]. Qed.

Section Gen.
Variables (W : eqType) (step : P -> nat -> nat -> result (mat F) -> W -> result (mat F))
  (cmp : W -> comp) (val : P -> nat -> W -> F) (ok : pred W).
Hypothesis Hstep : forall pt k i m w, ok w -> step pt k i (Ok m) w = Ok (mat_add m k (cmp w) i (val pt i w)).

Definition add_ws pt k (ws : seq W) (m : mat F) : mat F :=
  foldl (fun m i => foldl (fun m w => mat_add m k (cmp w) i (val pt i w)) m ws) m (iota 0 (nexp E)).
Lemma add_ws_ok pt k ws m : all ok ws ->
  foldl (fun m i => foldl (step pt k i) m ws) (Ok m) (iota 0 (nexp E)) = Ok (add_ws pt k ws m).
Proof.
move=> H. apply: (@foldl_okT _ _ _ _ xpredT); first by elim: iota.
move=> i s _. by apply: (foldl_okT (p := ok)) => // x s' Hx; exact: Hstep.
Qed.
Lemma add_ws_val pt k ws m k' c i : add_ws pt k ws m k' c i =
  m k' c i + (if k' == k then \sum_(i' <- iota 0 (nexp E)) (if i' == i then \sum_(w <- ws) (if cmp w == c then val pt i' w else 0) else 0) else 0).
Proof.
rewrite /add_ws.
rewrite (@foldl_val3 _ _ (fun i' k' c i => \sum_(w <- ws) (if (k' == k) && (c == cmp w) && (i == i') then val pt i' w else 0))).
- congr (_ + _). case: (k' == k) => /=; last by rewrite big1 // => j _; rewrite big1.
  apply: eq_bigr => i' _. rewrite (eq_sym i' i). case: (i == i') => /=.
  + by apply: eq_bigr => w _; rewrite andbT eq_sym.
  + by rewrite big1 // => w _; rewrite andbF.
- move=> m0 x k0 c0 i0. rewrite (@foldl_val3 _ _ (fun w k0 c0 i0 => if (k0 == k) && (c0 == cmp w) && (i0 == x) then val pt x w else 0)) //.
  move=> m1 w k1 c1 i1. exact: mat_add_val.
Qed.

Definition dict_ok (d : seq (P * seq W)) : bool := uniq [seq pw.1 | pw <- d] && all (fun pw => all ok pw.2) d.

Lemma dget_ok d pt ws : dict_ok d -> dget pt d = Some ws -> all ok ws.
Proof.
move=> /andP [_]. elim: d => [|[p v] d IH] //= /andP [H1 H2]. case: eqP => _; [by case=> <-|exact: IH].
Qed.

Lemma sum_dict (d : seq (P * seq W)) (g : P -> seq W -> F) : uniq [seq pw.1 | pw <- d] ->
  \sum_(pt <- [seq pw.1 | pw <- d]) (if dget pt d is Some ws then g pt ws else 0) = \sum_(pw <- d) g pw.1 pw.2.
Proof.
elim: d => [|[p v] d IH] /=; first by rewrite !big_nil.
move=> /andP [Hn Hu]. rewrite !big_cons /= eqxx -IH //. congr (_ + _).
rewrite big_seq [RHS]big_seq. apply: eq_bigr => pt Hpt. case: eqP => // Hp. by rewrite Hp (negbTE Hn) in Hpt.
Qed.

Lemma in_collect (dicts : seq (seq (P * seq W))) e :
  e \in entries (collect dicts) -> (e.2 < size dicts)%N && (e.1 \in [seq pw.1 | pw <- nth [::] dicts e.2]).
Proof.
rewrite (perm_mem (collect_entries _)) => /flattenP [s /mapP [[k d] Hk ->]] /mapP [pw Hpw ->] /=.
have /(nthP (0%N, [::])) [j Hj] := Hk. rewrite size_zip size_iota minnn in Hj. rewrite nth_zip ?size_iota // nth_iota //.
case=> <- Hd. rewrite Hj /= add0n Hd. exact: map_f.
Qed.

Lemma sum_collect (dicts : seq (seq (P * seq W))) (g : P -> nat -> F) k : (k < size dicts)%N ->
  \sum_(e <- entries (collect dicts)) (if k == e.2 then g e.1 e.2 else 0) =
  \sum_(pt <- [seq pw.1 | pw <- nth [::] dicts k]) g pt k.
Proof.
move=> Hk. rewrite (perm_big _ (collect_entries _)) /= big_flatten /= big_map.
rewrite (big_nth (0%N, [::])) size_zip size_iota minnn.
rewrite (big_cat_nat _ _ _ (leq0n k) (ltnW Hk)) /= (big_ltn Hk) /= big_nat big1 ?add0r.
- rewrite [X in _ + X]big_nat [X in _ + X]big1 ?addr0.
  + rewrite big_map !nth_zip ?size_iota //= nth_iota // add0n big_map. apply: eq_bigr => pw _ /=. by rewrite eqxx.
  + move=> j /andP [H1 H2]. rewrite big_map nth_zip ?size_iota //= nth_iota // add0n big1 // => pw _.
    case: eqP => // Hj. by rewrite Hj ltnn in H1.
- move=> j /andP [H1 H2]. rewrite big_map nth_zip ?size_iota //= nth_iota ?(ltn_trans H2) // add0n big1 // => pw _.
  case: eqP => // Hj. by rewrite Hj ltnn in H2.
Qed.

Lemma pt_loop_ok (dicts : seq (seq (P * seq W))) m : all dict_ok dicts ->
  exists m', pt_loop E step dicts (collect dicts) (Ok m) = Ok m' /\
    forall k c i, (k < size dicts)%N -> (i < nexp E)%N ->
      m' k c i = m k c i + \sum_(pw <- nth [::] dicts k) \sum_(w <- pw.2) (if cmp w == c then val pw.1 i w else 0).
Proof.
move=> Hd. rewrite /pt_loop.
rewrite (foldl_entries (fun pt m k => match dget pt (nth [::] dicts k) with None => Err Base.KeyError
      | Some ws => foldl (fun m i => foldl (step pt k i) m ws) m (iota 0 (nexp E)) end)).
pose upd (m : mat F) (e : P * nat) := if dget e.1 (nth [::] dicts e.2) is Some ws then add_ws e.1 e.2 ws m else m.
rewrite (@foldl_ok _ _ _ upd).
- eexists; split; first by reflexivity.
  move=> k c i Hk Hi.
  rewrite (@foldl_val3 _ _ (fun e k c i => if k == e.2 then
     (if dget e.1 (nth [::] dicts e.2) is Some ws then
       \sum_(i' <- iota 0 (nexp E)) (if i' == i then \sum_(w <- ws) (if cmp w == c then val e.1 i' w else 0) else 0) else 0) else 0)).
  + rewrite (@sum_collect _ (fun pt k => if dget pt (nth [::] dicts k) is Some ws then
       \sum_(i' <- iota 0 (nexp E)) (if i' == i then \sum_(w <- ws) (if cmp w == c then val pt i' w else 0) else 0) else 0)) //.
    rewrite (@sum_dict _ (fun pt ws => \sum_(i' <- iota 0 (nexp E)) (if i' == i then \sum_(w <- ws) (if cmp w == c then val pt i' w else 0) else 0))).
    * congr (_ + _). apply: eq_bigr => pw _.
      by rewrite (@sum_iota_pick _ _ i (fun i' => \sum_(w <- pw.2) (if cmp w == c then val pw.1 i' w else 0))).
    * by have /andP [] := all_nthP [::] Hd k Hk.
  + move=> m0 e k0 c0 i0. rewrite /upd. case: dget => [ws|]; last by rewrite if_same addr0. exact: add_ws_val.
- move=> e s /in_collect /andP [He Hin]. have [ws Hws] := dget_in Hin. rewrite /upd Hws. apply: add_ws_ok.
  apply: dget_ok Hws. exact: (all_nthP [::] Hd).
Qed.
End Gen.

(** one functional *)
Section GenRow.
Variables (W : eqType) (step : P -> nat -> result (rowT F) -> W -> result (rowT F))
  (cmp : W -> comp) (val : P -> nat -> W -> F) (ok : pred W).
Hypothesis Hstep : forall pt i m w, ok w -> step pt i (Ok m) w = Ok (row_add m (cmp w) i (val pt i w)).
Lemma row_loop_ok (d : seq (P * seq W)) m : all (fun pw => all ok pw.2) d ->
  exists m', foldl (fun r pw => foldl (fun r i => foldl (step pw.1 i) r pw.2) r (iota 0 (nexp E))) (Ok m) d = Ok m' /\
    forall c i, (i < nexp E)%N ->
      m' c i = m c i + \sum_(pw <- d) \sum_(w <- pw.2) (if cmp w == c then val pw.1 i w else 0).
Proof.
move=> Hd.
rewrite (@foldl_okT _ _ _ (fun m pw => foldl (fun m i => foldl (fun m w => row_add m (cmp w) i (val pw.1 i w)) m pw.2) m (iota 0 (nexp E))) _ _ _ Hd).
- eexists; split; first by reflexivity. move=> c i Hi.
  rewrite (@foldl_val2 _ _ (fun pw c i => \sum_(i' <- iota 0 (nexp E)) (if i' == i then \sum_(w <- pw.2) (if cmp w == c then val pw.1 i' w else 0) else 0))).
  + congr (_ + _). apply: eq_bigr => pw _.
    by rewrite (@sum_iota_pick _ _ i (fun i' => \sum_(w <- pw.2) (if cmp w == c then val pw.1 i' w else 0))).
  + move=> m0 pw c0 i0. rewrite (@foldl_val2 _ _ (fun i' c i => \sum_(w <- pw.2) (if (c == cmp w) && (i == i') then val pw.1 i' w else 0))).
    * congr (_ + _). apply: eq_bigr => i' _. rewrite (eq_sym i' i0). case: (i0 == i').
      -- by apply: eq_bigr => w _; rewrite andbT eq_sym.
      -- by rewrite big1 // => w _; rewrite andbF.
    * move=> m1 i1 c1 i2. rewrite (@foldl_val2 _ _ (fun w c i => if (c == cmp w) && (i == i1) then val pw.1 i1 w else 0)) //.
      move=> m2 w c2 i3. exact: row_add_val.
- move=> pw s Hpw. apply: (@foldl_okT _ _ _ _ xpredT); first by elim: iota.
  move=> i s' _. by apply: (foldl_okT (p := ok)) => // x s'' Hx; exact: Hstep.
Qed.
End GenRow.
End Loop.

Section Riesz.
Variables (F : fieldType) (P : eqType) (E : expansion F P).
Notation functional := (functional F P).

Lemma apply_unit (l : functional) c i : apply l (unit_func E c i) =
  \sum_(pw <- pt_dict l) \sum_(w <- pw.2) (if w.2 == c then w.1 * phi E i pw.1 else 0) +
  \sum_(pw <- deriv_dict l) \sum_(w <- pw.2) (if w.2 == c then w.1.1 * dphi E w.1.2 i pw.1 else 0).
Proof.
rewrite /apply /=. congr (_ + _); apply: eq_bigr => pw _; apply: eq_bigr => w _; by case: eqP => _; rewrite ?mulr0.
Qed.

Lemma max_order_bound (l : functional) pw w : pw \in deriv_dict l -> w \in pw.2 -> (sumn w.1.2 <= max_deriv_order l)%N.
Proof. move=> Hpw Hw. apply: (bigmax_sup_seq pw) => //. by apply: (bigmax_sup_seq w). Qed.
Lemma max_nth (nodes : seq functional) k : (k < size nodes)%N ->
  (max_deriv_order (nth (mkFunctional [::] [::] [::]) nodes k) <= \max_(l <- nodes) max_deriv_order l)%N.
Proof.
elim: nodes k => [|l nodes IH] [|k] //= Hk; rewrite big_cons leq_max ?leqnn //. by rewrite IH ?orbT.
Qed.

Lemma functional_to_riesz_ok shp (l : functional) : wf_functional E shp l ->
  exists r, functional_to_riesz E shp l = Ok r /\
    forall c i, (i < nexp E)%N -> r c i = apply l (unit_func E c i).
Proof.
move=> /and4P [U1 U2 A1 A2]. rewrite /functional_to_riesz.
have [|r1 [-> H1]] := @row_loop_ok _ _ E _ (pt_step E shp) (fun wc => wc.2) (fun pt i wc => wc.1 * phi E i pt)
   (fun wc => wc.2 \in comps shp) _ (pt_dict l) (fun _ _ => 0) A1.
  by move=> pt i m w Hw; rewrite /pt_step Hw.
case Ed : (deriv_dict l) => [|x d'].
- exists r1; split=> // c i Hi. by rewrite H1 // apply_unit Ed big_nil addr0 add0r.
- rewrite -Ed.
  have [||r2 [-> H2]] := @row_loop_ok _ _ E _ (dpt_step E (max_deriv_order l) shp) (fun w => w.2) (fun pt i w => w.1.1 * dphi E w.1.2 i pt)
   (fun wac => [&& wac.2 \in comps shp, size wac.1.2 == sdim E & (sumn wac.1.2 <= max_deriv_order l)%N]) _ (deriv_dict l) r1.
  + by move=> pt i m w /and3P [H H' H'']; rewrite /dpt_step H H' H''.
  + apply/allP => pw Hpw. apply/allP => w Hw. have /allP /(_ w Hw) /andP [-> ->] := allP A2 pw Hpw. 
    exact: max_order_bound Hpw Hw.
  + exists r2; split=> // c i Hi. by rewrite H2 // H1 // apply_unit add0r.
Qed.

Lemma to_riesz_ok (nodes : seq functional) : (0 < size nodes)%N ->
  let shp := target_shape (head (mkFunctional [::] [::] [::]) nodes) in
  all (wf_functional E shp) nodes ->
  (has (fun l => deriv_dict l != [::]) nodes -> (0 < \max_(l <- nodes) max_deriv_order l)%N) ->
  exists m, to_riesz E nodes = Ok m /\
    forall k c i, (k < size nodes)%N -> (i < nexp E)%N ->
      m k c i = apply (nth (mkFunctional [::] [::] [::]) nodes k) (unit_func E c i).
Proof.
case: nodes => [//|l0 nodes _] shp Hwf Hord. rewrite /to_riesz -/shp.
set all_nodes := l0 :: nodes in Hwf Hord *.
have [||m1 [-> H1]] := @pt_loop_ok _ _ E _ (mpt_step E shp) (fun wc => wc.2) (fun pt i wc => wc.1 * phi E i pt)
   (fun wc => wc.2 \in comps shp) _ (map (@pt_dict _ _) all_nodes) (fun _ _ _ => 0).
- by move=> pt k i m w Hw; rewrite /mpt_step Hw.
- apply/(all_nthP [::]) => k. rewrite size_map => Hk. rewrite (nth_map (mkFunctional [::] [::] [::])) //.
  have /and4P [U1 _ A1 _] := all_nthP (mkFunctional [::] [::] [::]) Hwf k Hk. by rewrite /dict_ok U1.
have Hnth : forall k, (k < size all_nodes)%N -> nth [::] [seq pt_dict i | i <- all_nodes] k = pt_dict (nth (mkFunctional [::] [::] [::]) all_nodes k).
{ move=> k Hk. by rewrite (nth_map (mkFunctional [::] [::] [::])). }
have Hnthd : forall k, (k < size all_nodes)%N -> nth [::] [seq deriv_dict i | i <- all_nodes] k = deriv_dict (nth (mkFunctional [::] [::] [::]) all_nodes k).
{ move=> k Hk. by rewrite (nth_map (mkFunctional [::] [::] [::])). }
case: ifP => Ho.
- have [||m2 [-> H2]] := @pt_loop_ok _ _ E _ (mdpt_step E (\max_(l <- all_nodes) max_deriv_order l) shp) (fun w => w.2) (fun pt i w => w.1.1 * dphi E w.1.2 i pt)
   (fun wac => [&& wac.2 \in comps shp, size wac.1.2 == sdim E & (sumn wac.1.2 <= \max_(l <- all_nodes) max_deriv_order l)%N]) _ (map (@deriv_dict _ _) all_nodes) m1.
  + by move=> pt k i m w /and3P [H H' H'']; rewrite /mdpt_step H H' H''.
  + apply/(all_nthP [::]) => k. rewrite size_map => Hk. rewrite (nth_map (mkFunctional [::] [::] [::])) //.
    have /and4P [_ U2 _ A2] := all_nthP (mkFunctional [::] [::] [::]) Hwf k Hk. rewrite /dict_ok U2 /=.
    apply/allP => pw Hpw. apply/allP => w Hw. have /allP /(_ w Hw) /andP [-> ->] /= := allP A2 pw Hpw.
    apply: (leq_trans (max_order_bound Hpw Hw)). exact: max_nth.
  + exists m2; split=> // k c i Hk Hi. rewrite H2 ?size_map // H1 ?size_map // Hnth // Hnthd // add0r.
    by rewrite apply_unit.
- exists m1; split=> // k c i Hk Hi. rewrite H1 ?size_map // Hnth // add0r apply_unit.
  have /negbT Hno : has (fun l => deriv_dict l != [::]) all_nodes = false.
    by apply/negP => /Hord; rewrite Ho.
  have -> : deriv_dict (nth (mkFunctional [::] [::] [::]) all_nodes k) = [::].
    move: Hno. rewrite -all_predC => /(all_nthP (mkFunctional [::] [::] [::])) /(_ k Hk) /=. by rewrite negbK => /eqP.
  by rewrite big_nil addr0.
Qed.
End Riesz.

Lemma comps_uniq shp : uniq (comps shp).
Proof.
elim: shp => [|s shp IH] //=.
have H : forall a n, uniq (flatten [seq [seq i :: c | c <- comps shp] | i <- iota a n]).
{ move=> a n. elim: n a => [|n IHn] a //=. rewrite cat_uniq IHn andbT map_inj_uniq ?IH //=; last by move=> x y [].
  apply/hasPn => x /flattenP [t /mapP [i Hi ->]] /mapP [c Hc ->]. apply/negP => /mapP [c' _ [Hai _]].
  by rewrite Hai mem_iota ltnn in Hi. }
exact: H.
Qed.

Section Flat.
Variables (F : fieldType) (P : eqType) (E : expansion F P).
Notation functional := (functional F P).

Lemma sum_blocks (g : nat -> F) N n : \sum_(q < N * n) g q = \sum_(a < N) \sum_(k < n) g (a * n + k)%N.
Proof.
rewrite -(big_mkord xpredT g) /=. elim: N => [|N IH]; first by rewrite mul0n big_geq // big_ord0.
rewrite big_ord_recr /= -IH mulSnr (big_cat_nat _ _ _ (leq0n (N * n)) (leq_addr n _)) /=. congr (_ + _).
rewrite -{1}[(N * n)%N]add0n big_addn addnC addnK big_mkord. by apply: eq_bigr => i _; rewrite addnC.
Qed.

Lemma sum_flat shp (f : comp -> nat -> F) :
  \sum_(q < ncols E shp) f (nth [::] (comps shp) (q %/ nexp E)) (q %% nexp E)%N =
  \sum_(c <- comps shp) \sum_(k < nexp E) f c k.
Proof.
rewrite /ncols (sum_blocks (fun q => f (nth [::] (comps shp) (q %/ nexp E)) (q %% nexp E)%N)).
rewrite (big_nth [::]) big_mkord. apply: eq_bigr => a _. apply: eq_bigr => k _.
have Hn : (0 < nexp E)%N by apply: leq_ltn_trans (ltn_ord k).
by rewrite divnMDl // divn_small // addn0 modnMDl modn_small.
Qed.

Lemma sum_comps shp (c0 : comp) (X : comp -> F) : c0 \in comps shp ->
  \sum_(c <- comps shp) (if c0 == c then X c else 0) = X c0.
Proof.
move=> H. rewrite (bigD1_seq c0) /= ?comps_uniq // eqxx big1 ?addr0 // => c.
by rewrite eq_sym => /negbTE ->.
Qed.

Lemma apply_expand shp (l : functional) (r : rowT F) : wf_functional E shp l ->
  apply l (expand E r) = \sum_(c <- comps shp) \sum_(k < nexp E) apply l (unit_func E c k) * r c k.
Proof.
move=> /and4P [_ _ A1 A2].
have EX : forall c (k : 'I_(nexp E)), apply l (unit_func E c k) * r c k =
   \sum_(pw <- pt_dict l) \sum_(w <- pw.2) (if w.2 == c then w.1 * phi E k pw.1 * r c k else 0) +
   \sum_(pw <- deriv_dict l) \sum_(w <- pw.2) (if w.2 == c then w.1.1 * dphi E w.1.2 k pw.1 * r c k else 0).
{ move=> c k. rewrite apply_unit mulrDl. congr (_ + _); rewrite mulr_suml; apply: eq_bigr => pw _;
  rewrite mulr_suml; apply: eq_bigr => w _; by case: eqP; rewrite ?mul0r. }
under [RHS]eq_bigr do under eq_bigr do rewrite EX.
under [RHS]eq_bigr do rewrite big_split /=. rewrite big_split /= /apply /=. congr (_ + _).
- rewrite (eq_bigr (fun c => \sum_(pw <- pt_dict l) \sum_(w <- pw.2) (if w.2 == c then \sum_(k < nexp E) w.1 * phi E k pw.1 * r c k else 0))); last first.
    move=> c _. rewrite exchange_big /=. apply: eq_bigr => pw _. rewrite exchange_big /=. apply: eq_bigr => w _.
    by case: eqP => // _; rewrite big1.
  rewrite exchange_big /= big_seq [RHS]big_seq. apply: eq_bigr => pw Hpw. rewrite exchange_big /= big_seq [RHS]big_seq.
  apply: eq_bigr => w Hw. rewrite (@sum_comps shp w.2 (fun c => \sum_(k < nexp E) w.1 * phi E k pw.1 * r c k)).
  + rewrite mulr_sumr. apply: eq_bigr => k _. by rewrite -mulrA (mulrC (phi _ _ _)).
  + exact: (allP (allP A1 pw Hpw) w Hw).
- rewrite (eq_bigr (fun c => \sum_(pw <- deriv_dict l) \sum_(w <- pw.2) (if w.2 == c then \sum_(k < nexp E) w.1.1 * dphi E w.1.2 k pw.1 * r c k else 0))); last first.
    move=> c _. rewrite exchange_big /=. apply: eq_bigr => pw _. rewrite exchange_big /=. apply: eq_bigr => w _.
    by case: eqP => // _; rewrite big1.
  rewrite exchange_big /= big_seq [RHS]big_seq. apply: eq_bigr => pw Hpw. rewrite exchange_big /= big_seq [RHS]big_seq.
  apply: eq_bigr => w Hw. rewrite (@sum_comps shp w.2 (fun c => \sum_(k < nexp E) w.1.1 * dphi E w.1.2 k pw.1 * r c k)).
  + rewrite mulr_sumr. apply: eq_bigr => k _. by rewrite -mulrA (mulrC (dphi _ _ _ _)).
  + by have /andP [] := allP (allP A2 pw Hpw) w Hw.
Qed.

Lemma unflatK n shp (A : 'M[F]_(n, ncols E shp)) : flat_mat E n shp (unflat_mat A) = A.
Proof.
apply/matrixP => i q. rewrite !mxE /unflat_mat.
have Hn : (0 < nexp E)%N. { have : (0 < ncols E shp)%N by exact: leq_ltn_trans (ltn_ord q). by rewrite /ncols muln_gt0 => /andP []. }
rewrite index_uniq ?comps_uniq //; last first.
  rewrite ltn_divLR //.
rewrite -divn_eq. rewrite (insubT (fun x => x < n)%N (ltn_ord i)) (insubT (fun x => x < ncols E shp)%N (ltn_ord q)) /=.
by congr (A _ _); apply/val_inj.
Qed.

(** entries on valid indices determine the flattened matrix and conversely *)
Lemma flat_entry n shp (m : mat F) (i : 'I_n) c k : c \in comps shp -> (k < nexp E)%N ->
  exists q : 'I_(ncols E shp), flat_mat E n shp m i q = m i c k /\ forall m', flat_mat E n shp m' i q = m' i c k.
Proof.
move=> Hc Hk.
have Hq : (index c (comps shp) * nexp E + k < ncols E shp)%N.
{ rewrite /ncols. apply: (@leq_trans ((index c (comps shp)).+1 * nexp E)%N).
  - by rewrite mulSnr ltn_add2l.
  - by rewrite leq_mul2r index_mem Hc orbT. }
exists (Ordinal Hq). have Hn : (0 < nexp E)%N by exact: leq_ltn_trans Hk.
have G : forall m', flat_mat E n shp m' i (Ordinal Hq) = m' i c k.
{ move=> m'. rewrite !mxE /= divnMDl // divn_small // addn0 modnMDl modn_small // nth_index //. }
split; exact: G.
Qed.
End Flat.

Section Ciarlet.
Variables (F : fieldType) (P : eqType) (E : expansion F P).
Notation functional := (functional F P).
Notation nil_f := (mkFunctional [::] [::] [::]).

Lemma expand_ext shp (l : functional) r r' : wf_functional E shp l ->
  (forall c k, c \in comps shp -> (k < nexp E)%N -> r c k = r' c k) -> apply l (expand E r) = apply l (expand E r').
Proof.
move=> H Hr. rewrite !(apply_expand _ H) big_seq [RHS]big_seq. apply: eq_bigr => c Hc. apply: eq_bigr => k _.
by rewrite Hr.
Qed.

Lemma dual_matrix shp (nodes : seq functional) R (m : mat F) (i j : 'I_(size nodes)) :
  all (wf_functional E shp) nodes ->
  (forall k c i, (k < size nodes)%N -> (i < nexp E)%N -> R k c i = apply (nth nil_f nodes k) (unit_func E c i)) ->
  (flat_mat E (size nodes) shp R *m (flat_mat E (size nodes) shp m)^T) i j = apply (nth nil_f nodes i) (expand E (m j)).
Proof.
move=> Hwf HR. rewrite mxE. under eq_bigr do rewrite !mxE.
rewrite (@sum_flat _ _ E shp (fun c k => R i c k * m j c k)).
rewrite (@apply_expand _ _ E shp); last exact: (all_nthP nil_f Hwf).
apply: eq_bigr => c _. apply: eq_bigr => k _. by rewrite HR.
Qed.

Definition good_nodes (nodes : seq functional) (U : polyset F) : Prop :=
  [/\ (0 < size nodes)%N, target_shape (head nil_f nodes) = pshape U,
      all (wf_functional E (pshape U)) nodes &
      has (fun l => deriv_dict l != [::]) nodes -> (0 < \max_(l <- nodes) max_deriv_order l)%N].

Lemma ciarlet_cases nodes U : good_nodes nodes U ->
  let n := size nodes in
  exists R, (forall k c i, (k < n)%N -> (i < nexp E)%N -> R k c i = apply (nth nil_f nodes k) (unit_func E c i)) /\
   ciarlet E nodes U = if n != num_members U then Err Base.LinAlgError else
      let V := vandermonde E n (pshape U) R (coeffs U) in
      if V \in unitmx then Ok (mkPolySet (num_members U) (pshape U) (unflat_mat ((invmx V)^T *m flat_mat E n (pshape U) (coeffs U))))
      else Err Base.LinAlgError.
Proof.
move=> [H0 Hs Hwf Hd] n. rewrite /ciarlet -Hs in Hwf *. have [R [-> HR]] := to_riesz_ok H0 Hwf Hd.
exists R; split=> //. by rewrite eqxx.
Qed.
End Ciarlet.
