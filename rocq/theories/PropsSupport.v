(** C60: what [entity_support_dofs] reports. *)
Set Warnings "-notation-overridden,-ambiguous-paths".
From mathcomp Require Import all_ssreflect all_algebra zify.
From Verif Require Base ModelIndex SpecIndex ModelCell SpecCell SpecConcat ModelTPE ModelGeom SpecGeom ProofsGeom PropsGeom SpecFam ModelFam ProofsFam PropsFam.
From Verif Require Import FieldTac SpecJacobi ProofsDmatsReg PropsExpansion ModelDual SpecDual SpecPoly ModelSpace SpecRT ProofsSpace ProofsSpaceCell ProofsLagLat PropsLagrange PropsConform .
From Verif Require Import ProofsGaussReal ProofsRegge.
From Verif Require Import SpecJet PropsHermite.
From Verif Require Import ModelSupport.
Set Implicit Arguments. Unset Strict Implicit. Unset Printing Implicit Defensive.
Import Order.TTheory GRing.Theory Num.Theory.
Local Open Scope ring_scope.

(** the cells with sub-elements: the UFC simplices *)
Definition ufc_simplex_cell (c : ModelCell.cell) : Prop :=
  match c with ModelCell.UFCInterval | ModelCell.UFCTriangle | ModelCell.UFCTetrahedron => True | _ => False end.

Section C60.
Variable R : realFieldType.
Notation K := (mcF R).
Notation vts c := (ModelCell.vertices K c : seq (seq R)).
Let R0 : char_zero R := num_char0 R.
Add Field FFsu : (mc_field_theory R).
Implicit Types (quad : ModelCell.cell -> Base.result (seq (seq R) * seq R)).

Lemma map_ok_all (A B : Type) (f : A -> Base.result B) (P : A -> B -> Prop) (l : seq A) :
  (forall a, List.In a l -> exists b, f a = Base.Ok b /\ P a b) -> exists bs, map_ok f l = Base.Ok bs /\ List.Forall2 P l bs.
Proof.
elim: l => [|a l IH] H; first by exists [::].
have [b [Eb Pb]] := H a (or_introl erefl). have [bs [Ebs Pbs]] := IH (fun x Hx => H x (or_intror Hx)).
by exists (b :: bs); split; [rewrite /= Eb /= Ebs|constructor].
Qed.

(** the transform of an entity maps into its plane *)
Lemma transform_plane c d e W : ufc_simplex_cell c -> ModelCell.lookup (ModelCell.topology c) (ModelCell.DI d) e = Some W ->
  exists T, @ModelGeom.get_entity_transform K c (ModelCell.DI d) e = Base.Ok T /\
    forall x : seq R, size x = d -> exists y : seq R, T x = Base.Ok y /\ in_plane (sdim_of c) (vts c) W y.
Proof.
move=> Hc HW. have Hx : SpecFam.simplex c by case: c Hc {HW}.
have [UW NW SW LW] := entity_ok Hx HW.
have Hin : List.In c [:: ModelCell.Point; ModelCell.DefaultLine; ModelCell.UFCInterval; ModelCell.DefaultTriangle; ModelCell.UFCTriangle; ModelCell.IntrepidTriangle; ModelCell.DefaultTetrahedron; ModelCell.IntrepidTetrahedron; ModelCell.UFCTetrahedron] by case: (c) Hc => // _ /=; auto 10.
have [V1 V2] := @PropsGeom.C18_vertices_and_cell K c Hin.
case: (posnP d) => [Ed|Hd].
{ subst d. have [[T [ET HT]] EW] : (exists T, @ModelGeom.get_entity_transform K c (ModelCell.DI 0) e = Base.Ok T /\ forall x, T x = Base.Ok (nth [::] (vts c) e)) /\ W = [:: e].
  { have [Le ->] : (e <= sdim_of c)%N /\ W = [:: e] by clear -Hc HW; case: c Hc HW => //= _; do 5 (try case: e => [|e] //); case=> <-.
    split=> //. have Lv : (e < ModelCell.num_vertices c)%coq_nat by apply/ssrnat.ltP; clear -Le Hc; case: c Hc Le.
    have [T [E1 E2]] := V1 e Lv. exists T. split=> // x. rewrite E2; congr Base.Ok; exact: Lnth. }
  exists T. split=> // x _. exists (nth [::] (vts c) e). split; first exact: HT. rewrite EW. split.
  - by clear -Hc HW; case: c Hc HW => //= _; do 5 (try case: e => [|e] //).
  - exists (fun _ => 1). split; first by rewrite big_seq1. by move=> j _; rewrite big_seq1 mul1r. }
case: (eqVneq d (sdim_of c)) => [Ed|Dn].
{ subst d. have [T [E1 E2]] : exists T, @ModelGeom.get_entity_transform K c (ModelCell.DI (sdim_of c)) 0 = Base.Ok T /\ forall x : seq R, T x = Base.Ok x.
  { have [|T [E1 E2]] := V2; first by move=> E; rewrite E in Hc. exists T. by split. }
  have [-> ->] : e = 0%N /\ W = iota 0 (sdim_of c).+1 by clear -Hc HW; case: c Hc HW => //= _; case: e => [|e] //; case=> <-.
  exists T. split=> // x Sx. exists x. split; first exact: E2. apply: ProofsRegge.cell_plane; [exact: R0|by []|by []]. }
have Hd3 : (0 < d < sdim_of c)%N.
{ rewrite Hd /=. clear -Hc HW Dn. by case: c Hc HW Dn => //= _; case: d => [|[|[|[|d]]]]. }
exists (ModelGeom.affine_transform (K := K) (sdim_of c) d (ProofsGeom.ufc_verts (K := K) d) (List.map (fun i => List.nth i (vts c) [::]) W)).
split.
{ clear -Hc HW Hd3. case: c Hc HW Hd3 => //= _; case: d => [|[|[|d]]] //; do 6 (try case: e => [|e] //); case=> <- _; reflexivity. }
move=> x Sx. eexists. split.
{ apply: (ProofsGeom.affine_closed (K := K)) => //.
  - clear -Hc Hd3. case: c Hc Hd3 => //= _; case: d => [|[|[|d]]] //; lia.
  - rewrite -SW. by rewrite -[LHS]/(size _) size_map.
  - apply/List.Forall_forall => v /List.in_map_iff [i [<- Hi]]. rewrite Lnth.
    have {Hi} : i \in W by elim: (W) Hi => [|u L IH] //= [->|/IH]; rewrite inE ?eqxx // => ->; rewrite orbT.
    move/LW. clear -Hc. by case: c Hc => //= _; case: i => [|[|[|[|i]]]]. }
split; first exact: ProofsGeom.length_comb.
have Hd2 : (d == 1%N) || (d == 2%N) by clear -Hd3 Hc; case: c Hc Hd3 => //= _; case: d => [|[|[|d]]].
case/orP: Hd2 => /eqP Ed; rewrite Ed in SW Sx.
- case: W UW SW {NW LW HW} => [|a [|b [|u L]]] // UW _. case: x Sx => [|t [|t1 L1]] // _.
  have Nab : b == a = false by move: UW; rewrite /= inE andbT => /negbTE; rewrite eq_sym.
  exists (fun v => if v == a then 1 - t else t). rewrite !big_cons big_nil eqxx Nab addr0 subrK. split=> // j Hj.
  have E := @ProofsGeom.nth_comb K (sdim_of c) (SpecGeom.bary (K := K) [:: t]) (List.map (fun i => List.nth i (vts c) [::]) [:: a; b]) j (ssrnat.ltP Hj). apply: (etrans (etrans (esym (Lnth _ _ _)) E)). rewrite !big_cons big_nil eqxx Nab /= /addF /mulF /subF /oneF /zeroF !Lnth !addr0. by [].
- case: W UW SW {NW LW HW} => [|a [|b [|e1 [|u L]]]] // UW _. case: x Sx => [|s [|t [|t1 L1]]] // _.
  have [Nab [Nea Neb]] : b == a = false /\ e1 == a = false /\ e1 == b = false.
  { move: UW. rewrite /= !inE !andbT negb_or -andbA => /and3P [H1 H2 H3]. by rewrite eq_sym (negbTE H1) eq_sym (negbTE H2) eq_sym (negbTE H3). }
  exists (fun v => if v == a then 1 - (s + t) else if v == b then s else t). rewrite !big_cons big_nil !eqxx Nab Nea Neb addr0 subrK. split=> // j Hj.
  have E := @ProofsGeom.nth_comb K (sdim_of c) (SpecGeom.bary (K := K) [:: s; t]) (List.map (fun i => List.nth i (vts c) [::]) [:: a; b; e1]) j (ssrnat.ltP Hj). apply: (etrans (etrans (esym (Lnth _ _ _)) E)). rewrite !big_cons big_nil !eqxx Nab Nea Neb /= /addF /mulF /subF /oneF /zeroF !Lnth !addr0. by [].
Qed.

(** the square of the norm of a scalar or vector value *)
Definition norm2 (vshape : seq nat) (f : seq nat -> seq R -> R) (x : seq R) : R :=
  match vshape with [:: n] => \sum_(i < n) f [:: i : nat] x ^+ 2 | _ => f [::] x ^+ 2 end.
Lemma listed_ok vshape phi points wts nb (f : nat) : (size vshape <= 1)%N ->
  Base.bind (map_ok (@listed R vshape phi points wts) (iota 0 nb)) (fun bs => Base.Ok (f, [seq p.1 | p <- zip (iota 0 nb) bs & p.2]))
  = Base.Ok (f, [seq dof <- iota 0 nb | eps R < ints vshape phi points wts dof]).
Proof.
move=> H. have E dof : listed vshape phi points wts dof = Base.Ok (eps R < ints vshape phi points wts dof).
{ rewrite /listed. by case: (vshape) H => [|n [|]]. }
have -> : map_ok (listed vshape phi points wts) (iota 0 nb) = Base.Ok [seq eps R < ints vshape phi points wts dof | dof <- iota 0 nb].
{ by elim: (iota 0 nb) => //= x l ->; rewrite E. }
rewrite /=. congr (Base.Ok (_, _)). elim: (iota 0 nb) => //= x l IH. by case: ifP => _ /=; rewrite IH.
Qed.
(** On every UFC simplex and for every scalar (value shape [()]) or vector-valued
    ([(n,)]) element: the result has one entry
    for each entity of the dimension asked for; degree of freedom [j] is listed
    for entity [f] exactly when the rule, mapped to points of the plane of [f],
    gives the square of (the norm of) basis function [j] a value above 10^-8. *)
Theorem C60_support : forall c ids nb vshape (phi : nat -> seq nat -> seq R -> R) quad d sub pts wts es,
  ufc_simplex_cell c -> (size vshape <= 1)%N -> ModelTPE.construct_subelement c (ModelCell.DI d) = Base.Ok sub -> quad sub = Base.Ok (pts, wts) ->
  (forall x, List.In x pts -> size x = d) ->
  ModelCell.dlookup (ModelCell.DI d) ids = Some es ->
  (forall f, List.In f [seq kv.1 | kv <- es] -> exists W, ModelCell.lookup (ModelCell.topology c) (ModelCell.DI d) f = Some W) ->
  exists D, entity_support_dofs c ids nb vshape phi quad d = Base.Ok D /\ [seq kv.1 | kv <- D] = [seq kv.1 | kv <- es] /\
    forall f L, List.In (f, L) D -> exists W points,
      [/\ ModelCell.lookup (ModelCell.topology c) (ModelCell.DI d) f = Some W, size points = size pts,
          forall y, List.In y points -> in_plane (sdim_of c) (vts c) W y &
          forall j, (j \in L) = (j < nb)%N && (10%:R ^- 8 < \sum_(xw <- zip points wts) norm2 vshape (phi j) xw.1 * xw.2)].
Proof.
move=> c ids nb vshape phi quad d sub pts wts es Hc Hr1 Hs Hq Hp Hd He. rewrite /entity_support_dofs Hs /= Hq /= Hd.
pose P (f : nat) (r : nat * seq nat) := r.1 = f /\ exists W points,
  [/\ ModelCell.lookup (ModelCell.topology c) (ModelCell.DI d) f = Some W, size points = size pts,
      forall y, List.In y points -> in_plane (sdim_of c) (vts c) W y &
      forall j, (j \in r.2) = (j < nb)%N && (10%:R ^- 8 < \sum_(xw <- zip points wts) norm2 vshape (phi j) xw.1 * xw.2)].
have G : forall f, List.In f [seq kv.1 | kv <- es] -> exists b, 
  Base.bind (@ModelGeom.get_entity_transform K c (ModelCell.DI d) f) (fun T => Base.bind (map_ok T pts) (fun points =>
      Base.bind (map_ok (listed vshape phi points wts) (iota 0 nb)) (fun bs =>
      Base.Ok (f, [seq p.1 | p <- zip (iota 0 nb) bs & p.2])))) = Base.Ok b /\ P f b.
{ move=> f Hf. have [W HW] := He f Hf. have [T [ET HT]] := transform_plane Hc HW.
  have [|points [Ep Fp]] := @map_ok_all _ _ T (fun _ y => in_plane (sdim_of c) (vts c) W y) pts.
  { move=> x Hx. have [y [E1 E2]] := HT x (Hp x Hx). by exists y. }
  exists (f, [seq dof <- iota 0 nb | eps R < ints vshape phi points wts dof]). split; first by rewrite ET /= Ep /= listed_ok.
  split=> //. exists W, points. split=> //.
  - elim: Fp => //= x y l l' _ _ ->. by [].
  - elim: Fp => //= x y l l' Hxy _ IH z [<-|/IH]; by [].
  - move=> j /=. rewrite mem_filter mem_iota /= add0n andbC /eps /ints. by case: (vshape) Hr1 => [|n [|m l]]. }
have [D [ED FD]] := map_ok_all G. exists D. split; first exact: ED. split.
- by elim: FD => //= f r l l' [-> _] _ ->.
- elim: FD => //= f r l l' [Hr H] _ IH f' L [E|/IH]; [|by []]. by move: H Hr; rewrite E /= => H ->.
Qed.

Lemma support_point (g : seq R -> R) points wts : 10%:R ^- 8 < \sum_(xw <- zip points wts) g xw.1 * xw.2 ->
  exists y, List.In y points /\ g y != 0.
Proof.
have Heps : (10%:R ^- 8 < (0 : R)) = false by apply: negbTE; rewrite -leNgt invr_ge0 exprn_ge0 // ler0n.
elim: points wts => [|y points IH] [|w wts] /=; rewrite ?big_nil ?Heps // big_cons /=.
case: (eqVneq (g y) 0) => [->|Hy _]; last by exists y; split=> //; left.
rewrite mul0r add0r => /IH [z [Hz Nz]]. by exists z; split=> //; right.
Qed.
Lemma norm2_neq0 vshape f x : norm2 vshape f x != 0 -> exists k, f k x != 0.
Proof.
have S (k : seq nat) : f k x ^+ 2 != 0 -> exists k, f k x != 0 by rewrite sqrf_eq0 => H; exists k.
case: vshape => [|n [|m l]]; [exact: S| |exact: S]. rewrite /norm2.
elim: n => [|n IH]; rewrite ?big_ord0 ?eqxx // big_ord_recr /=.
case: (eqVneq (f [:: n] x) 0) => [->|H _]; last by exists [:: n]. by rewrite expr0n addr0.
Qed.
Lemma elookup_none (V : Type) f (es : seq (nat * V)) : ModelCell.elookup f es = None <-> ~ List.In f [seq kv.1 | kv <- es].
Proof.
elim: es => [|[g v] es IH] /=; first by split=> [_ []|_].
case: (PeanoNat.Nat.eqb_spec f g) => [->|H]; first by split=> [E|H]; [discriminate E|case: H; left].
rewrite IH. split=> [A [B|B]|A B]; [by case: H; rewrite -B|exact: A|by apply: A; right].
Qed.

(** Hence a listed degree of freedom has a basis function with a component that
    does not vanish on the plane of the entity. *)
Theorem C60_listed_nonzero : forall c ids nb vshape (phi : nat -> seq nat -> seq R -> R) quad d sub pts wts es,
  ufc_simplex_cell c -> (size vshape <= 1)%N -> ModelTPE.construct_subelement c (ModelCell.DI d) = Base.Ok sub -> quad sub = Base.Ok (pts, wts) ->
  (forall x, List.In x pts -> size x = d) ->
  ModelCell.dlookup (ModelCell.DI d) ids = Some es ->
  (forall f, List.In f [seq kv.1 | kv <- es] -> exists W, ModelCell.lookup (ModelCell.topology c) (ModelCell.DI d) f = Some W) ->
  exists D, entity_support_dofs c ids nb vshape phi quad d = Base.Ok D /\
    forall f L j, List.In (f, L) D -> j \in L -> exists W y k,
      [/\ ModelCell.lookup (ModelCell.topology c) (ModelCell.DI d) f = Some W, in_plane (sdim_of c) (vts c) W y & phi j k y != 0].
Proof.
move=> c ids nb vshape phi quad d sub pts wts es Hc Hr1 Hs Hq Hp Hd He.
have [D [E1 [_ H]]] := C60_support nb phi Hc Hr1 Hs Hq Hp Hd He. exists D. split=> // f L j HD Hj.
have [W [points [H1 _ H2 H3]]] := H f L HD. exists W. move: Hj. rewrite H3 => /andP [_ Hgt].
have [y [Hy Ny]] := support_point Hgt. have [k Nk] := norm2_neq0 Ny. exists y, k. split=> //. exact: H2.
Qed.

(** Refuted for matrix-valued elements (Regge, Hellan-Herrmann-Johnson): the
    einsum leaves one number for each row, and comparing an array of [a > 1]
    numbers with the tolerance raises ValueError. *)
Theorem C60_tensor_refuted : forall c ids nb a b (phi : nat -> seq nat -> seq R -> R) quad d sub pts wts f es l,
  ufc_simplex_cell c -> (1 < a)%N -> (0 < nb)%N -> ModelTPE.construct_subelement c (ModelCell.DI d) = Base.Ok sub -> quad sub = Base.Ok (pts, wts) ->
  (forall x, List.In x pts -> size x = d) ->
  ModelCell.dlookup (ModelCell.DI d) ids = Some ((f, l) :: es) ->
  (exists W, ModelCell.lookup (ModelCell.topology c) (ModelCell.DI d) f = Some W) ->
  entity_support_dofs c ids nb [:: a; b] phi quad d = Base.Err Base.ValueError.
Proof.
move=> c ids nb a b phi quad d sub pts wts f es l Hc Ha Hnb Hs Hq Hp Hd [W HW].
rewrite /entity_support_dofs Hs /= Hq /= Hd /=. have [T [ET HT]] := transform_plane Hc HW. rewrite ET /=.
have [|points [Ep _]] := @map_ok_all _ _ T (fun _ _ => True) pts; first by move=> x Hx; have [y [E _]] := HT x (Hp x Hx); exists y.
rewrite Ep /=. case: nb Hnb => // nb _. rewrite /= /listed /=. have -> : (a * 1 == 1)%N = false by rewrite muln1; lia. by [].
Qed.

(** On the intervals, triangles and tetrahedra of the other families there are no
    sub-elements, and the function raises for every element and dimension. *)
Theorem C60_other_cells_refuted : forall c ids nb vshape (phi : nat -> seq nat -> seq R -> R) quad d, SpecFam.simplex c -> ~ ufc_simplex_cell c ->
  entity_support_dofs c ids nb vshape phi quad d = Base.Err Base.NotImplementedError.
Proof. by case=> // ids nb vshape phi quad d _ H; case: H. Qed.

(** The degrees of freedom [ids] with the functions [phi] are conforming: a
    function registered on an entity that is not part of (the closure of) another
    one vanishes on the plane of that one; and the result of the function then
    lists for an entity only degrees of freedom of its closure. *)
Definition conforming c (ids : ModelCell.dict (seq nat)) (phi : nat -> seq R -> R) : Prop :=
  forall d e W d' e' W', ModelCell.lookup (ModelCell.topology c) (ModelCell.DI d) e = Some W ->
    ModelCell.lookup (ModelCell.topology c) (ModelCell.DI d') e' = Some W' -> ~ {subset W' <= W} ->
    forall j, List.In j (SpecCell.dofs_on ids (ModelCell.DI d', e')) ->
    forall x, in_plane (sdim_of c) (vts c) W x -> phi j x = 0.
Definition closure_only c (ids : ModelCell.dict (seq nat)) nb (phi : nat -> seq R -> R) : Prop :=
  forall quad d sub pts wts, (d <= sdim_of c)%N -> ModelTPE.construct_subelement c (ModelCell.DI d) = Base.Ok sub ->
      quad sub = Base.Ok (pts, wts) -> (forall x, List.In x pts -> size x = d) ->
      exists D, entity_support_dofs c ids nb [::] (fun j _ => phi j) quad d = Base.Ok D /\
        (forall e W, ModelCell.lookup (ModelCell.topology c) (ModelCell.DI d) e = Some W -> exists L, List.In (e, L) D) /\
        forall e L W d' e' W', List.In (e, L) D ->
          ModelCell.lookup (ModelCell.topology c) (ModelCell.DI d) e = Some W ->
          ModelCell.lookup (ModelCell.topology c) (ModelCell.DI d') e' = Some W' -> ~ {subset W' <= W} ->
          forall j, List.In j (SpecCell.dofs_on ids (ModelCell.DI d', e')) -> j \notin L.
Theorem C60_conforming_closure : forall c ids nb phi, ufc_simplex_cell c -> SpecConcat.same_entities ids (ModelCell.topology c) ->
  conforming c ids phi -> closure_only c ids nb phi.
Proof.
move=> c ids nb phi Hc Hsame HC quad d sub pts wts Ld Hs Hq Hp.
have [W0 HW0] : exists W, ModelCell.lookup (ModelCell.topology c) (ModelCell.DI d) 0 = Some W.
{ clear -Hc Ld. case: c Hc Ld => //= _; case: d => [|[|[|[|d]]]] // _; by eexists. }
have [es Hes] : exists es, ModelCell.dlookup (ModelCell.DI d) ids = Some es.
{ case E : (ModelCell.dlookup _ _) => [es|]; first by exists es.
  have [H _] := Hsame (ModelCell.DI d) 0%N. move: HW0. by rewrite H // /ModelCell.lookup E. }
have Hkeys f : List.In f [seq kv.1 | kv <- es] <-> exists W, ModelCell.lookup (ModelCell.topology c) (ModelCell.DI d) f = Some W.
{ have [A B] := Hsame (ModelCell.DI d) f. split.
  - move=> Hf. case E : (ModelCell.lookup (ModelCell.topology c) (ModelCell.DI d) f) => [W|]; first by exists W.
    move: (B E). rewrite /ModelCell.lookup Hes. move: Hf. rewrite elookup_none. by [].
  - move=> [W HW]. case: (List.in_dec PeanoNat.Nat.eq_dec f [seq kv.1 | kv <- es]) => // Hf.
    have /A : ModelCell.lookup ids (ModelCell.DI d) f = None by rewrite /ModelCell.lookup Hes elookup_none. by rewrite HW. }
have [D [ED [KD HD]]] := C60_support nb (fun j _ => phi j) Hc (isT : size [::] <= 1)%N Hs Hq Hp Hes (fun f Hf => (Hkeys f).1 Hf).
exists D. split=> //. split.
- move=> e W HW. have : List.In e [seq kv.1 | kv <- D] by rewrite KD; apply/Hkeys; exists W.
  move/List.in_map_iff => [[e0 L] [/= <- HL]]. by exists L.
- move=> e L W d' e' W' HL HW HW' Hns j Hj. have [W1 [points [HW1 _ Hpl Hin]]] := HD e L HL.
  move: HW1. rewrite HW => -[EW]. subst W1. rewrite Hin. apply/negP => /andP [_ Hgt].
  have [y [Hy Ny]] := support_point Hgt. have [k Nk] := norm2_neq0 Ny. case/eqP: Nk. apply: (HC _ _ _ _ _ _ HW HW' Hns j Hj y). exact: Hpl.
Qed.

(** The Lagrange elements of every degree and the cubic Hermite element on every
    UFC simplex: no degree of freedom outside of the closure of an entity is
    listed for it. *)
Theorem C60_lagrange : forall sqrt, sqrt_exact sqrt -> forall c n, ufc_simplex_cell c -> (0 < n)%N ->
  exists U el, [/\ ModelFam.Lagrange K c n = Base.Ok el, lagrange sqrt c n = Ok U &
    closure_only c (ModelFam.el_ids K el) (num_members U) (basis sqrt c n U)].
Proof.
move=> sqrt Hsq c n Hc Hn. have Hx : SpecFam.simplex c by case: (c) Hc.
have [U [el [E1 E2 HC]]] := C50_lagrange_conforming R0 Hsq Hx Hn. exists U, el. split=> //.
have [el0 [E0 [[_ Hsame] _]]] := PropsFam.C34_lagrange K (char0K R0) c n Hx (ssrnat.ltP Hn).
rewrite E1 in E0. case: E0 => E0. rewrite -E0 in Hsame. exact: C60_conforming_closure.
Qed.
Theorem C60_hermite : forall sqrt, sqrt_exact sqrt -> forall c, ufc_simplex_cell c ->
  exists U el, [/\ ModelFam.CubicHermite K c 3 = Base.Ok el, cubic_hermite sqrt c = Ok U &
    closure_only c (ModelFam.el_ids K el) (num_members U) (bval sqrt c 3 U)].
Proof.
move=> sqrt Hsq c Hc. have Hx : SpecFam.simplex c by case: (c) Hc.
have [U [el [E1 E2 HC]]] := C51_hermite_conforming R0 Hsq Hx. exists U, el. split=> //.
have [H3 _] := PropsFam.C34_hermite K (char0K R0) c 3 Hx. have [el0 [E0 [[_ Hsame] _]]] := H3 erefl.
rewrite E1 in E0. case: E0 => E0. rewrite -E0 in Hsame. exact: C60_conforming_closure.
Qed.
End C60.
Print Assumptions C60_support.
Print Assumptions C60_listed_nonzero.
Print Assumptions C60_tensor_refuted.
Print Assumptions C60_conforming_closure.
Print Assumptions C60_lagrange.
Print Assumptions C60_hermite.

(** Concrete cases: a constant function is listed for the two end points of the
    interval; and for quadratic Lagrange on the triangle the function of vertex 0
    is not listed for edge 0, which joins the other vertices. *)
Example C60_example_listed (R : realFieldType) :
  entity_support_dofs (R := R) ModelCell.UFCInterval
    [:: (ModelCell.DI 0, [:: (0%N, [:: 0%N]); (1%N, [::])])] 1 [::] (fun _ _ _ => 1) (fun _ => Base.Ok ([:: [::]], [:: 1])) 0
  = Base.Ok [:: (0%N, [:: 0%N]); (1%N, [:: 0%N])].
Proof.
have H : eps R < 1 by rewrite /eps invf_lt1 ?exprn_gt0 ?ltr0n // exprn_egt1 // ltr1n.
by rewrite /entity_support_dofs /= /listed /= /ints /= !big_cons !big_nil /= expr1n mulr1 addr0 H.
Qed.
Example C60_example (R : rcfType) : exists U el D L, [/\ ModelFam.Lagrange (mcF R) ModelCell.UFCTriangle 2 = Base.Ok el,
  lagrange (Num.sqrt : R -> R) ModelCell.UFCTriangle 2 = Ok U,
  entity_support_dofs ModelCell.UFCTriangle (ModelFam.el_ids (mcF R) el) (num_members U) [::] (fun j _ => basis Num.sqrt ModelCell.UFCTriangle 2 U j)
    (fun _ => Base.Ok ([:: [:: 2%:R^-1]], [:: 1])) 1 = Base.Ok D, List.In (0%N, L) D & 0%N \notin L].
Proof.
have [U [el [E1 E2 H]]] := @C60_lagrange R Num.sqrt (proj2 (C23_sqrt_witness_rcf R)) ModelCell.UFCTriangle 2 I isT.
have [|D [ED [KD HD]]] := H (fun _ => Base.Ok ([:: [:: 2%:R^-1]], [:: 1])) 1%N ModelCell.UFCInterval [:: [:: 2%:R^-1]] [:: 1] isT erefl erefl.
- by move=> x [<-|[]].
have [L HL] := KD 0%N [:: 1%N; 2%N] erefl. exists U, el, D, L. split=> //.
apply: (HD 0%N L [:: 1%N; 2%N] 0%N 0%N [:: 0%N] HL) => //.
- by move/(_ 0%N (mem_head _ _)).
- move: E1. rewrite /ModelFam.Lagrange /=. by move=> [<-]; left.
Qed.
