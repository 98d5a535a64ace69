(** C12: the jets returned by PolynomialSet.tabulate are exact derivatives. *)
Set Warnings "-notation-overridden,-ambiguous-paths".
From mathcomp Require Import all_ssreflect all_algebra zify.
From Verif Require Base ModelIndex SpecIndex ProofsIndex.
From Verif Require Import FieldTac ModelJacobi SpecJacobi ModelExpansion SpecExpansion ProofsExpDeg ModelDmats ProofsDmats ProofsDmatsCell ProofsDmatsDer PropsExpansion ProofsDmatsReg ProofsDmatsLine.
Set Implicit Arguments. Unset Strict Implicit. Unset Printing Implicit Defensive.
Import GRing.Theory.
Local Open Scope ring_scope.

(** the multi-indices of length [sd] and order at most [order], grouped by
    order *)
Definition keys (sd order : nat) := flatten [seq ModelIndex.mis sd i | i <- iota 0 order.+1].

Section C12.
Variable F : fieldType.
Hypothesis F0 : char_zero F.
Variable sqrt : F -> F.
Hypothesis Hsq : sqrt_exact sqrt.

(** Whatever points were used to build the dmats: if the construction did not
    raise, then every row of every coefficient array stands for one polynomial
    of degree at most n, the order-0 table is the coefficient combination of
    the tabulated expansion functions, and the entry for (a, c) is the value
    of the derivative d^a/dx^a d^c/dy^c of that polynomial, for all jet orders,
    all points. *)
Theorem C12_triangle_jets_exact :
  forall M b n pts dm, tri_dmats sqrt M b n pts = Ok dm ->
  forall r (cf : 'M[F]_(r, tri_num n)), exists P : 'I_r -> {poly {poly F}},
    (forall x, deg2_le n (P x)) /\
    forall pts2 order, exists tab jets,
      tri_table sqrt M b n pts2 = Ok tab /\ tri_jets sqrt M b dm cf pts2 order = Ok jets /\
      [seq aA.1 | aA <- jets] = keys 2 order /\
      (forall x (j : 'I_(size pts2)), \sum_(k < tri_num n) cf x k * nth 0 (nth [::] tab j) k = ev2 (P x) (nth (0, 0) pts2 j).1 (nth (0, 0) pts2 j).2) /\
      forall a c A, List.In ([:: a; c], A) jets -> forall x j,
        A x j = ev2 (iter c (map_poly (@deriv F)) (P x)^`(a)) (nth (0, 0) pts2 j).1 (nth (0, 0) pts2 j).2.
Proof.
move=> M b n pts dm Hdm r cf. exists (tri_poly sqrt M b cf). split; first by move=> x; exact: tri_poly_deg.
move=> pts2 order. have [jets [E1 [E2 E3]]] := tri_jets_ok F0 Hdm cf pts2 order.
eexists. exists jets. split; first exact: tri_table_ok. split=> //. split=> //. split.
- move=> x j. rewrite -ev2mE /tri_poly rmorph_sum. apply: eq_bigr => k _. rewrite rmorphM ev2m_c (nth_map (0, 0)) // nth_map_iota //.
- move=> a c A HA x j. rewrite (E3 _ _ HA) -ev2mE. by [].
Qed.
Theorem C12_tetrahedron_jets_exact :
  forall M b n pts dm, tet_dmats sqrt M b n pts = Ok dm ->
  forall r (cf : 'M[F]_(r, tet_num n)), exists P : 'I_r -> {poly {poly {poly F}}},
    (forall x, deg3_le n (P x)) /\
    forall pts2 order, exists tab jets,
      tet_table sqrt M b n pts2 = Ok tab /\ tet_jets sqrt M b dm cf pts2 order = Ok jets /\
      [seq aA.1 | aA <- jets] = keys 3 order /\
      (forall x (j : 'I_(size pts2)), let p := nth (0, 0, 0) pts2 j in
        \sum_(k < tet_num n) cf x k * nth 0 (nth [::] tab j) k = ev3 (P x) p.1.1 p.1.2 p.2) /\
      forall a c e A, List.In ([:: a; c; e], A) jets -> forall x (j : 'I_(size pts2)), let p := nth (0, 0, 0) pts2 j in
        A x j = ev3 (iter e (map_poly (map_poly (@deriv F))) (iter c (map_poly (@deriv _)) (P x)^`(a))) p.1.1 p.1.2 p.2.
Proof.
move=> M b n pts dm Hdm r cf. exists (tet_poly sqrt M b cf). split; first by move=> x; exact: tet_poly_deg.
move=> pts2 order. have [jets [E1 [E2 E3]]] := tet_jets_ok F0 Hdm cf pts2 order.
eexists. exists jets. split; first exact: tet_table_ok. split=> //. split=> //. split.
- move=> x j p. rewrite -ev3mE /tet_poly rmorph_sum. apply: eq_bigr => k _. rewrite rmorphM ev3m_c (nth_map (0, 0, 0)) // nth_map_iota //.
- move=> a c e A HA x j p. rewrite (E3 _ _ HA) -ev3mE. by [].
Qed.
(** The line, for vertices in increasing order (slope of the map to the
    default line = 2/volume). *)
Theorem C12_line_jets_exact :
  forall M b vol n pts dm, M = 2%:R / vol -> line_dmats sqrt M b vol n pts = Ok dm ->
  forall r (cf : 'M[F]_(r, n + 1)), exists P : 'I_r -> {poly F},
    (forall x, (size (P x) <= n.+1)%N) /\
    forall pts2 order, exists jets,
      line_jets sqrt M b dm cf pts2 order = Ok jets /\ [seq aA.1 | aA <- jets] = keys 1 order /\
      (forall x (j : 'I_(size pts2)), \sum_(k < n + 1) cf x k * line_tabulate sqrt M b n pts2 k j = (P x).[nth 0 pts2 j]) /\
      forall a A, List.In ([:: a], A) jets -> forall x j, A x j = (P x)^`(a).[nth 0 pts2 j].
Proof.
move=> M b vol n pts dm EM Hdm r cf. exists (line_poly sqrt M b cf). split; first by move=> x; exact: line_poly_size.
move=> pts2 order. have EM1 : 1 * M = 2%:R / vol by rewrite mul1r. have [jets [E1 [E2 E3]]] := line_jets_ok F0 Hsq EM1 Hdm cf pts2 order.
exists jets. split=> //. split=> //. split.
- move=> x j. rewrite /line_poly horner_sum. apply: eq_bigr => k _. rewrite hornerM hornerC lphi_val //. have := ltn_ord k; lia.
- move=> a A HA x j. by rewrite (E3 _ _ HA) dalpha1 expr1n scale1r.
Qed.
(** A line whose vertices are in decreasing order has slope -2/volume (the
    volume is positive): every odd derivative comes out with the wrong sign. *)
Theorem C12_reversed_line_refuted :
  forall M b vol n pts dm, M = - (2%:R / vol) -> line_dmats sqrt M b vol n pts = Ok dm ->
  forall r (cf : 'M[F]_(r, n + 1)), exists P : 'I_r -> {poly F},
    forall pts2 order, exists jets,
      line_jets sqrt M b dm cf pts2 order = Ok jets /\ [seq aA.1 | aA <- jets] = keys 1 order /\
      (forall x (j : 'I_(size pts2)), \sum_(k < n + 1) cf x k * line_tabulate sqrt M b n pts2 k j = (P x).[nth 0 pts2 j]) /\
      forall a A, List.In ([:: a], A) jets -> forall x j, A x j = (-1) ^+ a * (P x)^`(a).[nth 0 pts2 j].
Proof.
move=> M b vol n pts dm EM Hdm r cf. exists (line_poly sqrt M b cf).
move=> pts2 order. have EM1 : -1 * M = 2%:R / vol by rewrite EM mulN1r opprK. have [jets [E1 [E2 E3]]] := line_jets_ok F0 Hsq EM1 Hdm cf pts2 order.
exists jets. split=> //. split=> //. split.
- move=> x j. rewrite /line_poly horner_sum. apply: eq_bigr => k _. rewrite hornerM hornerC lphi_val //. have := ltn_ord k; lia.
- move=> a A HA x j. by rewrite (E3 _ _ HA) dalpha1 /= /horner_eval hornerZ.
Qed.
(** keys: exactly the multi-indices of order at most [order] *)
Theorem C12_jet_keys :
  forall sd order, (0 < sd)%N -> forall a, List.In a (keys sd order) <-> size a = sd /\ (sumn a <= order)%N.
Proof.
move=> sd order Hsd a. have S : Base.nsum a = sumn a by elim: a => [|x a IH] //=; rewrite /Base.nsum /= in IH *; rewrite IH.
rewrite /keys. have H i : List.In a (ModelIndex.mis sd i) <-> size a = sd /\ sumn a = i.
{ rewrite ProofsIndex.mis_in; last by lia. by rewrite /SpecIndex.multi_index S. }
have K m s : List.In a (flatten [seq ModelIndex.mis sd i | i <- iota m s]) <-> size a = sd /\ (m <= sumn a < m + s)%N.
{ elim: s m => [|s IH] m /=; first by split=> // [[_]]; lia.
  rewrite List.in_app_iff H IH. split=> [[[H1 H2]|[H1 H2]]|[H1 H2]]; [split=> //; lia|split=> //; lia|].
  case: (eqVneq (sumn a) m) => Hm; [left; split=> //|right; split=> //; lia]. }
rewrite K. split=> [[H1 H2]|[H1 H2]]; split=> //; lia.
Qed.
(** The construction never raises on a non-degenerate simplex: with the
    interior lattice of order n + sd + 1 used by the code, the Vandermonde
    matrix is regular. *)
Theorem C12_triangle_never_raises :
  forall (M : nat -> nat -> F) b v0 v1 v2 n,
    let aff p := (M 0%N 0%N * nth 0 p 0 + M 0%N 1%N * nth 0 p 1 + b 0%N, M 1%N 0%N * nth 0 p 0 + M 1%N 1%N * nth 0 p 1 + b 1%N) in
    size v0 = 2%N -> size v1 = 2%N -> size v2 = 2%N -> aff v0 = (-1, -1) -> aff v1 = (1, -1) -> aff v2 = (-1, 1) ->
    let pts := [seq (nth 0 p 0, nth 0 p 1) | p <- ModelIndex.make_lattice (K := mcF F) [:: v0; v1; v2] (n + 2 + 1) 1] in
    exists dm, tri_dmats sqrt M b n pts = Ok dm.
Proof. move=> M b v0 v1 v2 n aff S0 S1 S2 A0 A1 A2 pts. exact: (tri_regular F0 Hsq S0 S1 S2 A0 A1 A2). Qed.
Theorem C12_tetrahedron_never_raises :
  forall (M : nat -> nat -> F) b v0 v1 v2 v3 n,
    let co i p := M i 0%N * nth 0 p 0 + M i 1%N * nth 0 p 1 + M i 2%N * nth 0 p 2 + b i in
    let aff p := (co 0%N p, co 1%N p, co 2%N p) in
    size v0 = 3%N -> size v1 = 3%N -> size v2 = 3%N -> size v3 = 3%N ->
    aff v0 = (-1, -1, -1) -> aff v1 = (1, -1, -1) -> aff v2 = (-1, 1, -1) -> aff v3 = (-1, -1, 1) ->
    let pts := [seq (nth 0 p 0, nth 0 p 1, nth 0 p 2) | p <- ModelIndex.make_lattice (K := mcF F) [:: v0; v1; v2; v3] (n + 3 + 1) 1] in
    exists dm, tet_dmats sqrt M b n pts = Ok dm.
Proof. move=> M b v0 v1 v2 v3 n co aff S0 S1 S2 S3 A0 A1 A2 A3 pts. exact: (tet_regular F0 Hsq S0 S1 S2 S3 A0 A1 A2 A3). Qed.
Theorem C12_line_never_raises :
  forall M b vol v0 v1 n, M * v0 + b = -1 -> M * v1 + b = 1 ->
    let pts := [seq nth 0 p 0 | p <- ModelIndex.make_lattice (K := mcF F) [:: [:: v0]; [:: v1]] (n + 1 + 1) 1] in
    exists dm, line_dmats sqrt M b vol n pts = Ok dm.
Proof. move=> M b vol v0 v1 n A0 A1 pts. exact (line_regular F0 Hsq n A0 A1 vol). Qed.
(** non-vacuity: the UFC triangle *)
Example C12_ufc_triangle : forall n,
  let M i j : F := if i == j then 2%:R else 0 in let b (i : nat) : F := -1 in
  let pts := [seq (nth 0 p 0, nth 0 p 1) | p <- ModelIndex.make_lattice (K := mcF F) [:: [:: 0; 0]; [:: 1; 0]; [:: 0; 1]] (n + 2 + 1) 1] in
  exists dm, tri_dmats sqrt M b n pts = Ok dm.
Proof.
move=> n M b pts. apply: C12_triangle_never_raises => //=; rewrite /M /b /= !(mulr0, mulr1, addr0, add0r, mul0r) //;
  by rewrite mulrS mulr1n addrK.
Qed.
End C12.
Print Assumptions C12_triangle_never_raises.
Print Assumptions C12_tetrahedron_jets_exact.
