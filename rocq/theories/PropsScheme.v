(** C27 tensor-product rules, C29 hard-coded tables, C30 create_quadrature. *)
Set Warnings "-notation-overridden,-ambiguous-paths".
From Coq Require Import ZArith QArith String.
From mathcomp Require Import all_ssreflect all_algebra zify.
From Verif Require Base.
From Verif Require Import FieldTac SpecJacobi ProofsJacobi SpecExpansion ModelQuad SpecQuad ProofsQuadMap ModelTables ModelScheme SpecScheme ProofsScheme ProofsBeta ProofsTables ProofsGaussReal.
Set Implicit Arguments. Unset Strict Implicit. Unset Printing Implicit Defensive.
Import Order.TTheory GRing.Theory Num.Theory.
Local Open Scope ring_scope.

(** *** C27 *)
(** [make_tensor_product_quadrature] always succeeds on rules built by the
    constructor; it has one point per choice of a point of each factor and
    integrates factor by factor. *)
Theorem C27_iterated : forall (F : fieldType) (qs : seq (rule F)),
  (forall q, List.In q qs -> balanced q) ->
  exists r, [/\ tp_quadrature qs = Base.Ok r, q_cell r = QProd [seq q_cell q | q <- qs], balanced r,
    size (q_pts r) = (\prod_(q <- qs) size (q_pts q))%N &
    forall f, integrate r f = iterated qs f].
Proof.
move=> F qs B. exists (tp_rule qs). split=> //; [exact: tp_ok|exact: tp_balanced| |].
- by rewrite /= /tp_pts size_map size_iproduct big_map.
- move=> f. exact: tp_iterated.
Qed.
Lemma iteratedZ (F : fieldType) (qs : seq (rule F)) c f : iterated qs (fun x => c * f x) = c * iterated qs f.
Proof.
elim: qs f => [|q qs IH] f //=. rewrite -integrateZ. apply: integrate_ext => x _. exact: IH.
Qed.
(** Product integrands: the rule gives the product of the factors' sums. *)
Theorem C27_product : forall (F : fieldType) (qs : seq (rule F)) (q0 r : rule F) (fs : seq (seq F -> F)) (dims : seq nat),
  (forall q, List.In q qs -> balanced q) -> size dims = size qs ->
  (forall i, (i < size qs)%N -> forall p, p \in q_pts (nth q0 qs i) -> size p = nth 0%N dims i) ->
  tp_quadrature qs = Base.Ok r ->
  integrate r (fun x => \prod_(i < size qs) nth (fun _ => 0) fs i (nth [::] (reshape dims x) i)) =
  \prod_(i < size qs) integrate (nth q0 qs i) (nth (fun _ => 0) fs i).
Proof.
move=> F qs q0 r fs dims B Sd D E. have := tp_ok B. rewrite E => -[->]. rewrite tp_iterated // {r E}.
elim: qs fs dims Sd D {B} => [|q qs IH] fs [|d dims] //=; first by rewrite !big_ord0.
move=> [Sd] D. rewrite [RHS]big_ord_recl /=.
transitivity (integrate q (fun x => nth (fun=> 0) fs 0 x * \prod_(i < size qs) integrate (nth q0 qs i) (nth (fun=> 0) (behead fs) i))); last first.
{ rewrite (@integrate_ext _ _ _ (fun x => (\prod_(i < size qs) integrate (nth q0 qs i) (nth (fun=> 0) (behead fs) i)) * nth (fun=> 0) fs 0 x)); last by move=> x _; rewrite mulrC.
  rewrite integrateZ mulrC. congr (_ * _). apply: eq_bigr => i _. by rewrite /= nth_behead. }
apply: integrate_ext => x Hx. have Sx : size x = d := D 0%N isT x Hx.
rewrite -(IH (behead fs) dims Sd (fun i Hi => D i.+1 Hi)) -iteratedZ. apply: iterated_ext => y _.
rewrite big_ord_recl /= take_size_cat // drop_size_cat //. congr (_ * _). apply: eq_bigr => i _. by rewrite /= nth_behead.
Qed.

(** *** C30 *)
(** The canonical scheme integrates every integrand that is polynomial of the
    requested degree(s) exactly, on points, intervals, triangles, tetrahedra and
    arbitrary (nested) products, quadrilaterals and hexahedra. *)
Theorem C30_canonical_exact : forall (F : fieldType) (gjp : nat -> nat -> nat -> seq F),
  char_zero F -> (forall m, (0 < m)%N -> gauss_points gjp m) ->
  forall c d f I, integ_on c d f I ->
  exists r, [/\ create_quadrature gjp c d "canonical" = Base.Ok r, balanced r,
    forall p, p \in q_pts r -> size p = cdim c & integrate r f = I].
Proof. move=> F gjp F0 G c d f I H. exact: canonical_good. Qed.

Section Ind.
Variables (F : fieldType) (P : qcell F -> Prop).
Hypotheses (Ps : forall d u v, P (QSimp d u v)) (Pp : forall cs, (forall c, List.In c cs -> P c) -> P (QProd cs)) (Pq : P (QQuad F)) (Ph : P (QHex F)).
Fixpoint qcell_nind (c : qcell F) : P c :=
  match c with
  | QSimp d u v => Ps d u v
  | QProd cs => Pp ((fix go (l : seq (qcell F)) : forall c, List.In c l -> P c :=
      match l with
      | [::] => fun c (H : List.In c [::]) => match H with end
      | a :: l' => fun c (H : List.In c (a :: l')) => match H with or_introl e => match e in _ = y return P y with erefl => qcell_nind a end | or_intror H' => go l' c H' end
      end) cs)
  | QQuad => Pq
  | QHex => Ph
  end.
End Ind.
(** The default scheme is the canonical one except on UFC triangles and
    tetrahedra of degree at most 6. *)
Theorem C30_default_is_canonical : forall (F : fieldType) (gjp : nat -> nat -> nat -> seq F) (c : qcell F) (d : darg),
  ufc_ok c -> table_free c d -> create_quadrature gjp c d "default" = create_quadrature gjp c d "canonical".
Proof.
move=> F gjp c. elim/qcell_nind: c => [dim u v|cs IH||] d //=.
- move=> K. rewrite /simplex_quadrature. case: d => [z|l] //= H. case: Z.ltb_spec => // Hz.
  case: dim u K H => [|[|[|[|dim]]]] [] //= -> /(_ isT) H.
  + rewrite /triangle_scheme. by have -> : (Z.to_nat z <= 6)%N = false by lia.
  + rewrite /tetrahedron_scheme. by have -> : (Z.to_nat z <= 6)%N = false by lia.
- rewrite /product_quadrature. move: (match d with DTuple _ => _ | _ => _ end) => ds K H. case: ifP => // _. congr (Base.bind _ _).
  elim: cs IH ds K H => [|c cs IHc] IH [|d0 ds] //= [K1 K2] [H1 H2]. rewrite (IH c) //; last by left. rewrite IHc // => c' Hc. apply: IH. by right.
Qed.

Lemma quadrature_rule_cell (F : fieldType) (c : qcell F) x w r : quadrature_rule c x w = Base.Ok r -> q_cell r = c.
Proof. by rewrite /quadrature_rule; case: ifP => // _ [<-]. Qed.
Lemma bind_ok (A B : Type) (a : Base.result A) (k : A -> Base.result B) b : Base.bind a k = Base.Ok b -> exists x, a = Base.Ok x /\ k x = Base.Ok b.
Proof. by case: a => //= x; exists x. Qed.
Lemma make_quadrature_cell (F : fieldType) gjp (dim : nat) u (v : seq (seq F)) m r : make_quadrature gjp (QSimp dim u v) m = Base.Ok r -> q_cell r = QSimp dim u v.
Proof.
rewrite /make_quadrature; case: ifP => // _. case: dim => [|[|[|[|dim]]]] //; try exact: quadrature_rule_cell.
all: rewrite /gj_line_rule /map_line_rule /collapsed_triangle /collapsed_tetrahedron /gauss_jacobi_rule => H;
  have [Ab [_ H1]] := bind_ok H; have [sc [_ H2]] := bind_ok H1; exact: quadrature_rule_cell H2.
Qed.
(** The rule returned by the default and canonical schemes is a rule on the
    requested cell, quadrilaterals and hexahedra being replaced by products. *)
Theorem C30_cell : forall (F : fieldType) (gjp : nat -> nat -> nat -> seq F) (c : qcell F) (d : darg) (s : string) r,
  ufc_ok c -> s = "default"%string \/ s = "canonical"%string ->
  create_quadrature gjp c d s = Base.Ok r -> q_cell r = norm_cell c.
Proof.
move=> F gjp c d s r K Hs.
have S1 dim u v d0 r0 : ufc_ok (QSimp dim u v) -> simplex_quadrature gjp dim u v d0 s = Base.Ok r0 -> q_cell r0 = QSimp dim u v.
{ move=> K0. rewrite /simplex_quadrature. case: d0 => [z|l] //. case: ifP => // _. case: Hs => -> /=; last by exact: make_quadrature_cell.
  case: dim K0 => [|[|[|[|dim]]]] K0; case: u K0 => K0; try exact: make_quadrature_cell.
  - rewrite /triangle_scheme K0. case: ifP => _; [exact: quadrature_rule_cell|exact: make_quadrature_cell].
  - rewrite /tetrahedron_scheme K0. case: ifP => _; [exact: quadrature_rule_cell|exact: make_quadrature_cell]. }
have SP (cq : qcell F -> darg -> Base.result (rule F)) cs d0 r0 : (forall c d r, List.In c cs -> cq c d = Base.Ok r -> q_cell r = norm_cell c) -> product_quadrature cq cs d0 = Base.Ok r0 -> q_cell r0 = QProd (map (@norm_cell F) cs).
{ move=> H. rewrite /product_quadrature. move: (match d0 with DTuple _ => _ | _ => _ end) => ds. case: ifP => // /negbFE /eqP Sz.
  move=> HB; have [qs [E HB']] := bind_ok HB. rewrite (quadrature_rule_cell HB'). congr QProd. clear HB HB'.
  elim: cs H ds qs Sz E => [|c0 cs IH] H [|d1 ds] qs //=; first by move=> _ [<-].
  move=> [Sz] HB. have [q [E1 HB1]] := bind_ok HB. have [qs' [E2 [<-]]] := bind_ok HB1. rewrite /=. rewrite (H _ _ _ _ E1); last by left. rewrite (IH _ ds qs') // => c' d' r' Hc. apply: H. by right. }
elim/qcell_nind: c d r K => [dim u v|cs IH||] d r K.
- exact: S1.
- apply: SP => c0 d0 r0 Hc. apply: IH => //. move: K Hc. clear. rewrite /=. elim: cs => [|c1 cs IH] //= [K1 K2] [<-|Hc] //. exact: IH.
- apply: SP => c0 d0 r0 [<-|[<-|[]]] H; exact: (S1 1%N true _ _ _ _ H).
- apply: SP => c0 d0 r0 [<-|[<-|[<-|[]]]] H; exact: (S1 1%N true _ _ _ _ H).
Qed.

(** Refused arguments. *)
Theorem C30_refused : forall (F : fieldType) (gjp : nat -> nat -> nat -> seq F) (dim : nat) (u : bool) (v : seq (seq F)) (s : string),
  (forall l, create_quadrature gjp (QSimp dim u v) (DTuple l) s = Base.Err Base.TypeError) /\
  (forall z, Z.lt z 0 -> create_quadrature gjp (QSimp dim u v) (DInt z) s = Base.Err Base.ValueError) /\
  (forall z, s <> "default"%string -> s <> "canonical"%string -> s <> "KMV"%string ->
     create_quadrature gjp (QSimp dim u v) (DInt z) s = Base.Err Base.ValueError) /\
  (forall cs l, size l <> size cs -> create_quadrature gjp (QProd cs) (DTuple l) s = Base.Err Base.AssertionError).
Proof.
move=> F gjp dim u v s. split=> //. split; last split.
- move=> z Hz /=. case: Z.ltb_spec => //. lia.
- move=> z H1 H2 H3 /=. case: Z.ltb_spec => // _. case: String.eqb_spec => // _. case: String.eqb_spec => // _. by case: String.eqb_spec.
- move=> cs l H /=. rewrite /product_quadrature /=. by have -> : (size cs == size l) = false by apply/eqP => E; apply: H.
Qed.
(** A refusal by a factor is a refusal of the product. *)
Theorem C30_refused_product : forall (F : fieldType) (gjp : nat -> nat -> nat -> seq F) (cs : seq (qcell F)) (ds : seq darg) (s : string) c d e,
  size cs = size ds -> List.In (c, d) (zip cs ds) -> create_quadrature gjp c d s = Base.Err e ->
  exists e', create_quadrature gjp (QProd cs) (DTuple ds) s = Base.Err e'.
Proof.
move=> F gjp cs ds s c d e Sz Hin E. rewrite /= /product_quadrature Sz eqxx /=.
suff [e' ->] : exists e', quad_rules (fun c0 d0 => create_quadrature gjp c0 d0 s) cs ds = Base.Err e' by exists e'.
elim: cs ds Hin {Sz} => [|c0 cs IH] [|d0 ds] //= [[-> ->]|Hin]; first by rewrite E; exists e.
case: create_quadrature => [q|e1] /=; last by exists e1. have [e' ->] := IH _ Hin. by exists e'.
Qed.
Lemma quadrature_rule_size (F : fieldType) (c : qcell F) x w r : quadrature_rule c x w = Base.Ok r -> q_pts r = x /\ balanced r.
Proof. by rewrite /quadrature_rule; case: eqP => //= E [<-]. Qed.
Lemma make_quadrature_size (F : fieldType) gjp (dim : nat) u (v : seq (seq F)) m r : (forall m a, size (gjp a 0%N m) = m) ->
  make_quadrature gjp (QSimp dim u v) m = Base.Ok r -> size (q_pts r) = (m ^ dim)%N /\ balanced r.
Proof.
move=> G. rewrite /make_quadrature; case: ifP => // _. case: dim => [|[|[|[|dim]]]] //.
- by move/quadrature_rule_size => [-> ?].
all: rewrite /gj_line_rule /map_line_rule /collapsed_triangle /collapsed_tetrahedron /gauss_jacobi_rule => H;
  have [Ab [_ H1]] := bind_ok H; have [sc [_ H2]] := bind_ok H1; have [-> B] := quadrature_rule_size H2; split=> //.
- by rewrite size_map G expn1.
- by rewrite size_map size_allpairs !G expnS expn1.
- rewrite size_map (PropsQuad.size3 _ (m := m)) // !expnS expn0. lia.
Qed.
(** Number of points of the canonical rule. *)
Theorem C30_num_points : forall (F : fieldType) (gjp : nat -> nat -> nat -> seq F) c d r,
  (forall m a, size (gjp a 0%N m) = m) ->
  create_quadrature gjp c d "canonical" = Base.Ok r -> size (q_pts r) = npts c d /\ balanced r.
Proof.
move=> F gjp c d r G.
have S1 dim u v d0 r0 : simplex_quadrature gjp dim u v d0 "canonical" = Base.Ok r0 -> size (q_pts r0) = npts1 dim d0 /\ balanced r0.
{ rewrite /simplex_quadrature. case: d0 => [z|l] //=. case: ifP => // _ /(make_quadrature_size G) [-> B]. by rewrite -addnA. }
have SP (cq : qcell F -> darg -> Base.result (rule F)) cs d0 r0 : (forall c d r, List.In c cs -> cq c d = Base.Ok r -> size (q_pts r) = npts c d /\ balanced r) -> product_quadrature cq cs d0 = Base.Ok r0 -> size (q_pts r0) = npts (QProd cs) d0 /\ balanced r0.
{ move=> H. rewrite /product_quadrature /=. move: (match d0 with DTuple _ => _ | _ => _ end) => ds. case: ifP => // /negbFE /eqP Sz.
  move=> HB; have [qs [E HB']] := bind_ok HB. have [-> B] := quadrature_rule_size HB'. split=> //. rewrite size_map size_iproduct big_map. clear HB HB' B.
  elim: cs H ds qs Sz E => [|c0 cs IH] H [|d1 ds] qs //=; first by move=> _ [<-]; rewrite big_nil.
  move=> [Sz] HB. have [q [E1 HB1]] := bind_ok HB. have [qs' [E2 [<-]]] := bind_ok HB1. rewrite big_cons. have [-> _] := H _ _ _ (or_introl erefl) E1.
  congr (_ * _)%N. apply: (IH _ ds qs') => // c' d' r' Hc. apply: H. by right. }
elim/qcell_nind: c d r => [dim u v|cs IH||] d r.
- exact: S1.
- apply: SP => c0 d0 r0 Hc. exact: IH.
- move=> H. have [|-> B] := SP _ _ _ _ _ H; first by move=> c0 d0 r0 [<-|[<-|[]]] /S1.
  split=> //=. case: d H {B} => [z|[|d1 [|d2 [|d3 l]]]] //= _; by rewrite ?expn1 ?muln1 // mulnn.
- move=> H. have [|-> B] := SP _ _ _ _ _ H; first by move=> c0 d0 r0 [<-|[<-|[<-|[]]]] /S1.
  split=> //=. case: d H {B} => [z|[|d1 [|d2 [|d3 [|d4 l]]]]] //= _; rewrite ?expn1 ?muln1 ?mulnA //; by rewrite !expnS expn0 muln1 mulnA.
Qed.

(** *** C29 *)
Lemma rev3 (R : comRingType) (a x y z : R) : a * x * y * z = a * z * y * x.
Proof. rewrite -!mulrA; congr (_ * _). by rewrite [in RHS]mulrC [y * x]mulrC mulrA. Qed.
Section UFC.
Variable F : realFieldType.
Let F0 := @num_char0 F.
Notation v2 := [:: [:: 0; 0]; [:: 1; 0]; [:: 0; 1 : F]].
Notation v3 := [:: [:: 0; 0; 0]; [:: 1; 0; 0]; [:: 0; 1; 0]; [:: 0; 0; 1 : F]].
Lemma int_ufc2 (P : {poly {poly F}}) : int_triangle v2 P = int_unit2 P.
Proof.
rewrite /int_triangle. have -> : jac_det 2 v2 = 1.
{ rewrite /jac_det -[RHS](@det1 _ 2). congr (\det _). apply/matrixP => i j. rewrite !mxE. case: i j => [[|[|i]] Hi] [[|[|j]] Hj] //=; by rewrite /vtx /= subr0. }
rewrite mul1r. congr (int_unit2 _). rewrite /aff2 /vtx /= !subr0 !(polyC0, polyC1, mul1r, mul0r, add0r, addr0).
rewrite /subst2 -[RHS]coefK poly_def. apply: eq_bigr => i _. rewrite -[in RHS](coefK P`_i) poly_def scaler_suml. apply: eq_bigr => j _.
rewrite -[_ *: 'X^i]mul_polyC -[_ *: 'X^j]mul_polyC polyCM rmorphX mulrAC. by [].
Qed.
Lemma int_ufc3 (P : {poly {poly {poly F}}}) : int_tetrahedron v3 P = int_unit3 P.
Proof.
rewrite /int_tetrahedron. have -> : jac_det 3 v3 = 1.
{ rewrite /jac_det -[RHS](@det1 _ 3). congr (\det _). apply/matrixP => i j. rewrite !mxE. case: i j => [[|[|[|i]]] Hi] [[|[|[|j]]] Hj] //=; by rewrite /vtx /= subr0. }
rewrite mul1r. congr (int_unit3 _). rewrite /aff3 /vtx /= !subr0 !(polyC0, polyC1, mul1r, mul0r, add0r, addr0).
rewrite /subst3 -[RHS]coefK poly_def. apply: eq_bigr => i _. rewrite -[in RHS](coefK P`_i) poly_def scaler_suml. apply: eq_bigr => j _.
rewrite -[in RHS](coefK P`_i`_j) poly_def !scaler_suml. apply: eq_bigr => k _.
rewrite -[_ *: 'X^i]mul_polyC -[_ *: 'X^j]mul_polyC -[_ *: 'X^k]mul_polyC !polyCM !rmorphX. exact: rev3.
Qed.
Lemma qF_dec k : qF F (dec 1 k) = (10%:R ^+ Pos.to_nat k)^-1.
Proof.
rewrite /qF /dec /= div1r posFE. congr (_^-1). rewrite -natrX. congr (_%:R). rewrite Pos2Nat.inj_pow.
elim: (Pos.to_nat k) => [|n IH] //. by rewrite Nat.pow_succ_r' IH expnS.
Qed.
Definition chk_in (pts : seq (seq Q)) : bool :=
  all (fun x => all (Qle_bool (0 # 1)) x && Qle_bool (foldr Qplus (0 # 1) x) (1 # 1)) pts.
Lemma qF_sum x : \sum_(c <- [seq qF F c | c <- x]) c = qF F (foldr Qplus (0 # 1) x).
Proof. elim: x => [|c x IH] /=; first by rewrite big_nil qF0. by rewrite big_cons IH qFD. Qed.
Lemma chk_inP pts : chk_in pts -> forall p, p \in qpts F pts -> in_unit_simplex p.
Proof.
move=> H. apply/allP. rewrite /qpts all_map. apply: sub_all H => x /andP [A B] /=. rewrite /in_unit_simplex qF_sum. apply/andP; split.
- rewrite all_map. apply: sub_all A => q Hq /=. rewrite -qF0. apply: qF_le. exact/Qle_bool_iff.
- rewrite -qF1. apply: qF_le. exact/Qle_bool_iff.
Qed.
Lemma chk_size n pts : all (fun x => size x == n) pts -> forall p, p \in qpts F pts -> size p = n.
Proof. move=> H p Hp. apply/eqP. move: p Hp. apply/allP. rewrite /qpts all_map. apply: sub_all H => x /=. by rewrite size_map. Qed.
Definition chk_pos (ws : seq Q) : bool := all (fun w => ~~ Qle_bool w (0 # 1)) ws.
Lemma chk_posP ws : chk_pos ws -> forall w, w \in qwts F ws -> 0 < w.
Proof.
move=> H. apply/allP. rewrite /qwts all_map. apply: sub_all H => q /=. case E: Qle_bool => // _. rewrite lt_neqAle.
have Hlt : Qlt (0 # 1) q by apply/Qnot_le_lt => /Qle_bool_iff; rewrite E.
rewrite -qF0 qF_le ?andbT; last exact: Qlt_le_weak. rewrite eq_sym /qF /= mul0r mulf_neq0 ?invr_eq0 ?posF_n0 //.
case: q Hlt {E} => [[|n|n] m] //= Hlt; rewrite ?oppr_eq0 ?posF_n0 //.
Qed.
End UFC.

(** evaluation of the tables by the kernel *)
Definition tri_npts := [:: 1; 1; 3; 6; 6; 7; 12]%N.
Definition tet_npts := [:: 1; 1; 4; 5; 14; 15; 24]%N.
Definition chk_table (chk : nat -> Q -> seq (seq Q) -> seq Q -> bool) (dim : nat) (ns : seq nat) (t : nat -> seq (seq Q) * seq Q) (d : nat) : bool :=
  [&& chk d (dec 1 15) (t d).1 (t d).2, chk_in (t d).1, size (t d).2 == size (t d).1, size (t d).1 == nth 0%N ns d & all (fun x => size x == dim) (t d).1].
Lemma tri_all : all (chk_table check2 2 tri_npts tri_table) (iota 0 7). Proof. vm_cast_no_check (erefl true). Qed.
Lemma tri_pos : all (fun d => chk_pos (tri_table d).2) (iota 0 7). Proof. vm_cast_no_check (erefl true). Qed.
Lemma tri_all0 : all (fun d => check2 d (0 # 1) (tri_table d).1 (tri_table d).2) (iota 0 3). Proof. vm_cast_no_check (erefl true). Qed.
Lemma tri_checks d : (d <= 6)%N -> [/\ check2 d (dec 1 15) (tri_table d).1 (tri_table d).2, chk_in (tri_table d).1, chk_pos (tri_table d).2 &
  [/\ size (tri_table d).2 = size (tri_table d).1, size (tri_table d).1 = nth 0%N tri_npts d & all (fun x => size x == 2%N) (tri_table d).1]].
Proof.
move=> Hd. have Hi : d \in iota 0 7 by rewrite mem_iota.
have /and5P [A B /eqP C /eqP D E] := allP tri_all _ Hi. split; [exact: A|exact: B|exact: (allP tri_pos _ Hi)|]. split; [exact: C|exact: D|exact: E].
Qed.
Lemma tri_checks0 d : (d <= 2)%N -> check2 d (0 # 1) (tri_table d).1 (tri_table d).2.
Proof. move=> Hd. apply: (allP tri_all0). by rewrite mem_iota. Qed.
(** What a degree-[d] rule on the UFC triangle promises: the right number of
    points, all in the cell, and sums within [10^-15] times the coefficients. *)
Definition tol (F : fieldType) : F := (10%:R ^+ 15)^-1.
(** The tables on the UFC triangle: degree, number of points, accuracy. *)
Theorem C29_triangle : forall (F : realFieldType) (gjp : nat -> nat -> nat -> seq F) (d : nat), (d <= 6)%N ->
  exists r, [/\ create_quadrature gjp (UFCTriangle F) (DInt (Z.of_nat d)) "default" = Base.Ok r,
    q_cell r = UFCTriangle F /\ size (q_pts r) = nth 0%N [:: 1; 1; 3; 6; 6; 7; 12]%N d,
    (forall p, p \in q_pts r -> size p = 2%N /\ in_unit_simplex p) /\ (forall w, w \in q_wts r -> 0 < w),
    (forall P : {poly {poly F}}, deg2_le d P ->
       `|integrate r (fun x => ev2 P (nth 0 x 0) (nth 0 x 1)) - int_triangle [:: [:: 0; 0]; [:: 1; 0]; [:: 0; 1]] P| <= tol F * norm2 P) &
    ((d <= 2)%N -> forall P : {poly {poly F}}, deg2_le d P ->
       integrate r (fun x => ev2 P (nth 0 x 0) (nth 0 x 1)) = int_triangle [:: [:: 0; 0]; [:: 1; 0]; [:: 0; 1]] P)].
Proof.
move=> F gjp d Hd. set t := tri_table d.
have [C1 C2 C3 [C4 C5 C6]] := tri_checks Hd.
exists (Rule (UFCTriangle F) (qpts F t.1) (qwts F t.2)). split.
- rewrite /= /simplex_quadrature /=. case: Z.ltb_spec => [|_]; first lia. by rewrite Nat2Z.id /triangle_scheme Hd /quadrature_rule !size_map C4 eqxx.
- by split; rewrite //= size_map.
- split=> /=; last exact: chk_posP. move=> p Hp. split; [exact: (chk_size C6)|exact: (chk_inP C2)].
- move=> P D. rewrite int_ufc2 /tol -(qF_dec F 15). exact: (table2 _ C1 D).
- move=> H2 P D. have C0 := tri_checks0 H2.
  have := table2 (UFCTriangle F) C0 D. rewrite qF0 mul0r normr_le0 subr_eq0 int_ufc2 => /eqP. by [].
Qed.
