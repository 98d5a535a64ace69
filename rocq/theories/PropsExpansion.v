(** C04 and C23: the orthonormal expansion sets (expansions.py). *)
Set Warnings "-notation-overridden,-ambiguous-paths".
From mathcomp Require Import all_ssreflect all_algebra zify.
From Verif Require Base.
From Verif Require Import FieldTac RingTac ModelJacobi SpecJacobi ProofsJacobi ProofsOrtho ModelExpansion SpecExpansion
  ProofsExpIdx ProofsExpProg ProofsExpOrtho ProofsExpDeg PropsJacobi.
Set Implicit Arguments. Unset Strict Implicit. Unset Printing Implicit Defensive.
Import GRing.Theory Num.Theory.
Local Open Scope ring_scope.

(** ** C04 *)
(** The positions of the modes (p,q), p + q <= n, are exactly
    0 .. polynomial_dimension - 1, each used once, for every n. *)
Theorem C04_triangle_index_bijection :
  forall n,
    (forall p q, (p + q <= n)%N -> (tri_idx p q < (n + 1) * (n + 2) %/ 2)%N) /\
    (forall p q p' q', tri_idx p q = tri_idx p' q' -> p = p' /\ q = q') /\
    (forall k, (k < (n + 1) * (n + 2) %/ 2)%N -> exists p q, (p + q <= n)%N /\ tri_idx p q = k).
Proof.
by move=> n; split; [move=> p q; exact: tri_idx_lt|split; [exact: tri_idx_inj|move=> k; exact: tri_idx_surj]].
Qed.
Theorem C04_tetrahedron_index_bijection :
  forall n,
    (forall p q r, (p + q + r <= n)%N -> (tet_idx p q r < (n + 1) * (n + 2) * (n + 3) %/ 6)%N) /\
    (forall p q r p' q' r', tet_idx p q r = tet_idx p' q' r' -> p = p' /\ q = q' /\ r = r') /\
    (forall k, (k < (n + 1) * (n + 2) * (n + 3) %/ 6)%N -> exists p q r, (p + q + r <= n)%N /\ tet_idx p q r = k).
Proof.
by move=> n; split; [move=> p q r; exact: tet_idx_lt|split; [exact: tet_idx_inj|move=> k; exact: tet_idx_surj]].
Qed.

Section S.
Variable F : fieldType.
Hypothesis F0 : char_zero F.
Variable A : comRingType.
Variables (emb : {rmorphism F -> A}) (sqrt : F -> F).

Lemma sat_all (K : eqType) (idx : K -> nat) (valid : pred K) N (V : K -> A) s :
  (forall i, (i < N)%N -> exists k, valid k /\ idx k = i) -> sat idx valid N xpredT V s -> size s = N /\ all isSome s.
Proof.
move=> Hs [Hsz H]. split=> //. apply/(all_nthP None) => i Hi. rewrite Hsz in Hi. have [k [Hk <-]] := Hs i Hi. by rewrite H.
Qed.
(** A tabulation never reads an entry before writing it (a read of [None] or
    outside the list would raise) and leaves no entry unwritten, whatever the
    cell map, the degree and the points (numbers, arrays or symbols). *)
Theorem C04_triangle_every_entry_written :
  forall (M : nat -> nat -> F) (b : nat -> F) n (pts : seq A),
    exists s, tri_tabulate emb sqrt M b n pts = Ok s /\ size s = tri_num n /\ all isSome s.
Proof.
move=> M b [|n] pts; first by eexists.
have [s [E H]] := tri_tabulate_ok emb sqrt F0 M b pts (ltn0Sn n). exists s; split=> //.
apply: (sat_all _ H) => i /tri_idx_surj [p [q [Hv E']]]. by exists (p, q).
Qed.
Theorem C04_tetrahedron_every_entry_written :
  forall (M : nat -> nat -> F) (b : nat -> F) n (pts : seq A),
    exists s, tet_tabulate emb sqrt M b n pts = Ok s /\ size s = tet_num n /\ all isSome s.
Proof.
move=> M b [|n] pts; first by eexists.
have [s [E H]] := tet_tabulate_ok emb sqrt F0 M b pts (ltn0Sn n). exists s; split=> //.
apply: (sat_all _ H) => i /tet_idx_surj [p [q [r [Hv E']]]]. by exists (p, q, r).
Qed.

(** Hierarchy: for 1 <= n <= m the degree-n table is a prefix of the
    degree-m table at the same points. *)
Lemma take_prefix (T : Type) (x0 : T) (s t : seq T) : (size s <= size t)%N ->
  (forall i, (i < size s)%N -> nth x0 s i = nth x0 t i) -> s = take (size s) t.
Proof.
move=> H1 H2. apply: (@eq_from_nth _ x0) => [|i Hi]; first by rewrite size_takel.
by rewrite nth_take // H2.
Qed.
Theorem C23_triangle_prefix :
  forall (M : nat -> nat -> F) (b : nat -> F) n m (pts : seq A), (1 <= n <= m)%N ->
    exists s t, tri_tabulate emb sqrt M b n pts = Ok s /\ tri_tabulate emb sqrt M b m pts = Ok t /\
      s = take (tri_num n) t.
Proof.
move=> M b n m pts /andP [Hn Hm].
have [s [E [Hs H]]] := tri_tabulate_ok emb sqrt F0 M b pts Hn.
have [t [E' [Ht H']]] := tri_tabulate_ok emb sqrt F0 M b pts (leq_trans Hn Hm).
exists s, t; split=> //; split=> //. rewrite -Hs. apply: (@take_prefix _ None).
- rewrite Hs Ht !tri_numE. exact: T2_le.
- move=> i; rewrite Hs => /tri_idx_surj [p [q [Hv <-]]]. 
  rewrite (H (p, q)) // (H' (p, q)) //. exact: leq_trans Hm.
Qed.
Theorem C23_tetrahedron_prefix :
  forall (M : nat -> nat -> F) (b : nat -> F) n m (pts : seq A), (1 <= n <= m)%N ->
    exists s t, tet_tabulate emb sqrt M b n pts = Ok s /\ tet_tabulate emb sqrt M b m pts = Ok t /\
      s = take (tet_num n) t.
Proof.
move=> M b n m pts /andP [Hn Hm].
have [s [E [Hs H]]] := tet_tabulate_ok emb sqrt F0 M b pts Hn.
have [t [E' [Ht H']]] := tet_tabulate_ok emb sqrt F0 M b pts (leq_trans Hn Hm).
exists s, t; split=> //; split=> //. rewrite -Hs. apply: (@take_prefix _ None).
- rewrite Hs Ht !tet_numE. exact: T3_le.
- move=> i; rewrite Hs => /tet_idx_surj [p [q [r [Hv <-]]]]. 
  rewrite (H (p, q, r)) // (H' (p, q, r)) //. exact: leq_trans Hm.
Qed.
End S.

(** [sqrt] is exact on the nonnegative rationals it is applied to. *)
Definition sqrt_exact (F : fieldType) (sqrt : F -> F) : Prop :=
  forall m d : nat, sqrt (m%:R / d.+1%:R) * sqrt (m%:R / d.+1%:R) = m%:R / d.+1%:R.

Section Values.
Variable F : fieldType.
Hypothesis F0 : char_zero F.
Add Field FFv : (mc_field_theory F).
Variable sqrt : F -> F.
Hypothesis Hsq : sqrt_exact sqrt.
Notation idF := [rmorphism of @idfun F].

Lemma tri_norm_sq p q : tri_norm sqrt p q * tri_norm sqrt p q = (p%:R + 2%:R^-1) * (p%:R + q%:R + 1).
Proof.
rewrite /tri_norm. have -> : (p%:R + 2%:R^-1) * (p%:R + q%:R + 1) = ((2 * p + 1) * (p + q + 1))%:R / 2%:R :> F; last exact: Hsq.
have H := two_neq0 F0. rewrite ?natrM ?natrD ?natrM. rewrite !mulrS mulr0n in H *. ffield. nz.
Qed.
Lemma tet_norm_sq p q r : tet_norm sqrt p q r * tet_norm sqrt p q r =
  (p%:R + 2%:R^-1) * (p%:R + q%:R + 1) * (p%:R + q%:R + r%:R + (1 + 2%:R^-1)).
Proof.
rewrite /tet_norm.
have -> : (p%:R + 2%:R^-1) * (p%:R + q%:R + 1) * (p%:R + q%:R + r%:R + (1 + 2%:R^-1))
  = ((2 * p + 1) * (p + q + 1) * (2 * p + 2 * q + 2 * r + 3))%:R / 4%:R :> F; last exact: Hsq.
have H := two_neq0 F0. have H4 : 4%:R != 0 :> F by apply: F0. rewrite ?natrM ?natrD ?natrM ?natrD. rewrite !mulrS mulr0n in H H4 *. ffield. repeat split; nz.
Qed.
Lemma tri_pos p q : (p%:R + 2%:R^-1) * (p%:R + q%:R + 1) != 0 :> F.
Proof.
have -> : (p%:R + 2%:R^-1) * (p%:R + q%:R + 1) = ((2 * p + 1) * (p + q + 1))%:R / 2%:R :> F.
{ have H := two_neq0 F0. rewrite ?natrM ?natrD ?natrM. rewrite !mulrS mulr0n in H *. ffield. nz. }
rewrite mulf_neq0 ?invr_eq0 ?two_neq0 //. apply: F0. by rewrite muln_gt0 !addn1.
Qed.
Lemma tet_pos p q r : (p%:R + 2%:R^-1) * (p%:R + q%:R + 1) * (p%:R + q%:R + r%:R + (1 + 2%:R^-1)) != 0 :> F.
Proof.
rewrite mulf_neq0 ?tri_pos //.
have -> : p%:R + q%:R + r%:R + (1 + 2%:R^-1) = (2 * p + 2 * q + 2 * r + 3)%:R / 2%:R :> F.
{ have H := two_neq0 F0. rewrite ?natrD ?natrM. rewrite !mulrS mulr0n in H *. ffield. nz. }
rewrite mulf_neq0 ?invr_eq0 ?two_neq0 //. apply: F0. by rewrite addnS.
Qed.

(** ** C23, triangle *)
(** There is one family of polynomials phi p q such that, for every degree
    n >= 1 and every cell, the tabulated value at position idx(p,q) is phi p q
    at the point mapped to the default triangle; phi p q has total degree at
    most p + q; in collapsed coordinates it is the Dubiner product of Jacobi
    polynomials; and the family is orthonormal on the default triangle. *)
Theorem C23_triangle_orthonormal_dubiner :
  exists phi : nat -> nat -> {poly {poly F}},
    (forall M b n (pts : seq F), (1 <= n)%N ->
      let x i := M i 0%N * nth 0 pts 0 + M i 1%N * nth 0 pts 1 + b i in
      exists s, tri_tabulate id sqrt M b n pts = Ok s /\ size s = tri_num n /\
        forall p q, (p + q <= n)%N -> nth None s (tri_idx p q) = Some (ev2 (phi p q) (x 0%N) (x 1%N))) /\
    (forall p q, deg2_le (p + q) (phi p q)) /\
    (forall p q e1 e2, let: (x, y) := xi_triangle e1 e2 in
      ev2 (phi p q) x y = sqrt ((p%:R + 2%:R^-1) * (p%:R + q%:R + 1)) *
        (eval_jacobi 0 0 p e1 * ((1 - e2) / 2%:R) ^+ p * eval_jacobi (2 * p + 1)%:R 0 q e2)) /\
    (forall p q p' q', int_tri (phi p q * phi p' q') = if (p == p') && (q == q') then 1 else 0).
Proof.
exists (fun p q => (tri_norm sqrt p q)%:P%:P * tri_mode F (p, q)).
have EV p q x y : ev2 ((tri_norm sqrt p q)%:P%:P * tri_mode F (p, q)) x y = triVS idF sqrt x y (p, q).
{ by rewrite /triVS tri_ev -!ev2mE rmorphM -[_%:P%:P]/(emb2 F _) ev2m_c mulrC. }
split; last split; last split.
- move=> M b n pts Hn x. have [s [E [Hs H]]] := tri_tabulate_ok idF sqrt F0 M b pts Hn. exists s; split=> //; split=> //.
  move=> p q Hpq. rewrite (H (p, q)) // EV /= /rng /= !big_cons !big_nil !addr0 /=. by [].
- move=> p q i j Hij. rewrite mul_polyC coefZ mul_polyC coefZ (@tri_mode_deg F (p, q)) // mulr0. by [].
- move=> p q e1 e2 /=. rewrite EV /triVS tri_collapsed // /= mulrC. congr (_ * _). by rewrite -!mulrA mulrCA.
- move=> p q p' q'. rewrite mulrACA -!polyCM int_triZ tri_gram // xpair_eqE.
  case: (p =P p') => [<-|_] /=; last by rewrite mulr0. case: (q =P q') => [<-|_] /=; last by rewrite mulr0.
  by rewrite tri_norm_sq divff // tri_pos.
Qed.

(** The degree-0 table is not normalised (the code returns before scaling):
    its single function has squared norm 2, and it is not a prefix of the
    higher-degree tables. *)
Theorem C23_triangle_degree0_refuted :
  forall M b (pts : seq F),
    tri_tabulate id sqrt M b 0 pts = Ok [:: Some 1] /\
    int_tri (1 : {poly {poly F}}) = 2%:R /\
    exists s, tri_tabulate id sqrt M b 1 pts = Ok s /\ nth None s 0 != Some 1.
Proof.
move=> M b pts. split; last split.
- by rewrite /tri_tabulate /= !addrK.
- have := tri_gram F0 (0%N, 0%N) (0%N, 0%N). rewrite /tri_mode /triV /= !hjac0 // !mulr1 => ->.
  by rewrite /= !add0r mulr1 invrK.
- have [s [E [_ H]]] := tri_tabulate_ok idF sqrt F0 M b pts (ltn0Sn 0). exists s; split=> //.
  have := H (0%N, 0%N) isT. rewrite /trii /= => ->. rewrite /triVS /triV /= !hjac0 // !mul1r.
  apply/negP => /eqP [E1]. have := tri_norm_sq 0 0. rewrite E1 !mulr1 !add0r mulr1 => E2.
  have H2 := two_neq0 F0. have : (2%:R : F) = 1 by rewrite -[LHS]mul1r [X in X * _]E2 mulVf.
  move/eqP. rewrite mulrS -subr_eq0 addrAC subrr add0r. by rewrite mulr1n oner_eq0.
Qed.

(** ** C23, tetrahedron *)
Theorem C23_tetrahedron_orthonormal_dubiner :
  exists phi : nat -> nat -> nat -> {poly {poly {poly F}}},
    (forall M b n (pts : seq F), (1 <= n)%N ->
      let x i := M i 0%N * nth 0 pts 0 + M i 1%N * nth 0 pts 1 + M i 2%N * nth 0 pts 2 + b i in
      exists s, tet_tabulate id sqrt M b n pts = Ok s /\ size s = tet_num n /\
        forall p q r, (p + q + r <= n)%N ->
          nth None s (tet_idx p q r) = Some (ev3 (phi p q r) (x 0%N) (x 1%N) (x 2%N))) /\
    (forall p q r, deg3_le (p + q + r) (phi p q r)) /\
    (forall p q r e1 e2 e3, let: (x, y, z) := xi_tetrahedron e1 e2 e3 in
      ev3 (phi p q r) x y z =
        sqrt ((p%:R + 2%:R^-1) * (p%:R + q%:R + 1) * (p%:R + q%:R + r%:R + (1 + 2%:R^-1))) *
        (eval_jacobi 0 0 p e1 * ((1 - e2) / 2%:R) ^+ p * eval_jacobi (2 * p + 1)%:R 0 q e2 *
         ((1 - e3) / 2%:R) ^+ (p + q) * eval_jacobi (2 * p + 2 * q + 2)%:R 0 r e3)) /\
    (forall p q r p' q' r', int_tet (phi p q r * phi p' q' r') =
       if [&& p == p', q == q' & r == r'] then 1 else 0).
Proof.
exists (fun p q r => (tet_norm sqrt p q r)%:P%:P%:P * tet_mode F (p, q, r)).
have EV p q r x y z : ev3 ((tet_norm sqrt p q r)%:P%:P%:P * tet_mode F (p, q, r)) x y z = tetVS idF sqrt x y z (p, q, r).
{ by rewrite /tetVS tet_ev -!ev3mE rmorphM -[_%:P%:P%:P]/(emb3 F _) ev3m_c mulrC. }
split; last split; last split.
- move=> M b n pts Hn x. have [s [E [Hs H]]] := tet_tabulate_ok idF sqrt F0 M b pts Hn. exists s; split=> //; split=> //.
  move=> p q r Hpq. rewrite (H (p, q, r)) // EV /= /rng /= !big_cons !big_nil !addr0 /= !addrA. by [].
- move=> p q r i j k Hij. rewrite mul_polyC coefZ mul_polyC coefZ mul_polyC coefZ (@tet_mode_deg F (p, q, r)) // mulr0. by [].
- move=> p q r e1 e2 e3 /=. rewrite EV /tetVS tet_collapsed // /= mulrC. congr (_ * _). rewrite exprMn exprD.
  move: (_ ^+ p) (_ ^+ p) (_ ^+ q) (eval_jacobi _ _ _ _) (eval_jacobi _ _ _ _) (eval_jacobi _ _ _ _) => a c d f g h. fring.
- move=> p q r p' q' r'. rewrite mulrACA -!polyCM int_tetZ tet_gram // !xpair_eqE -andbA.
  case: (p =P p') => [<-|_] /=; last by rewrite mulr0. case: (q =P q') => [<-|_] /=; last by rewrite mulr0.
  case: (r =P r') => [<-|_] /=; last by rewrite mulr0.
  by rewrite tet_norm_sq divff // tet_pos.
Qed.
Theorem C23_tetrahedron_degree0_refuted :
  forall M b (pts : seq F),
    tet_tabulate id sqrt M b 0 pts = Ok [:: Some 1] /\ int_tet (1 : {poly {poly {poly F}}}) = 4%:R / 3%:R.
Proof.
move=> M b pts. split; first by rewrite /tet_tabulate /= !addrK.
have := tet_gram F0 (0%N, 0%N, 0%N) (0%N, 0%N, 0%N). rewrite /tet_mode /tetV /= !hjac0 // !mulr1 => ->.
rewrite /= !add0r ?mulr1. have H2 := two_neq0 F0. have H3 : 3%:R != 0 :> F by apply: F0.
rewrite !mulrS mulr0n in H2 H3 *. ffield. repeat split; nz.
Qed.

(** ** C23, line *)
Lemma line_norm_sq k : sqrt (k%:R + 2%:R^-1) * sqrt (k%:R + 2%:R^-1) = k%:R + 2%:R^-1.
Proof.
have -> : k%:R + 2%:R^-1 = (2 * k + 1)%:R / 2%:R :> F; last exact: Hsq.
have H := two_neq0 F0. rewrite ?natrD ?natrM. rewrite !mulrS mulr0n in H *. ffield. nz.
Qed.
(** One family for all degrees (so tables are prefixes of each other), of
    degree k, orthonormal on the default line [-1,1]. *)
Theorem C23_line_orthonormal :
  exists phi : nat -> {poly F},
    (forall M b n (pts : seq F) k i, (k <= n)%N -> (i < size pts)%N ->
      line_tabulate sqrt M b n pts k i = (phi k).[M * nth 0 pts i + b]) /\
    (forall k, (size (phi k) <= k.+1)%N) /\
    (forall i j, integral (-1) 1 (phi i * phi j) = if i == j then 1 else 0).
Proof.
have [L [HL [HS [HO [HN _]]]]] := C22_legendre F0.
exists (fun k => sqrt (k%:R + 2%:R^-1) *: L k). split; last split.
- move=> M b n pts k i Hk Hi. rewrite /line_tabulate (C22_batch_rows F0 (@regular00 F n F0)) ?size_map //.
  by rewrite (nth_map 0) // HL hornerZ mulrC.
- move=> k. apply: (leq_trans (size_scale_leq _ _)). by rewrite HS.
- move=> i j. rewrite -scalerAl -scalerAr !integralZ. case: eqP => [<-|/eqP H]; last by rewrite HO // !mulr0.
  rewrite mulrA line_norm_sq HN. have H2 := two_neq0 F0. have Hi := nat_neq0 F0 (2 * i).
  rewrite -addn1 natrD natrM in Hi. rewrite !mulrS !mulr0n in H2 Hi *. move: (i%:R : F) Hi => u Hi. ffield. repeat split; nz.
Qed.
(** [tabulate_derivatives] is the derivative of the tabulated function when
    the map to the default line has slope 2/volume, i.e. when the vertices are
    in increasing order. *)
Theorem C23_line_derivative :
  forall M b vol, M = 2%:R / vol ->
  exists phi : nat -> {poly F},
    forall n (pts : seq F) k i, (k <= n)%N -> (i < size pts)%N ->
      line_tabulate_derivatives sqrt M b vol n pts k i = ((phi k).[nth 0 pts i], (phi k)^`().[nth 0 pts i]).
Proof.
move=> M b vol EM. exists (fun k => sqrt (k%:R + 2%:R^-1) *: (jacobi_poly 0 0 k \Po (M *: 'X + b%:P))) => n pts k i Hk Hi.
have R m : jacobi_regular (0 : F) 0 m by exact: regular00.
rewrite /line_tabulate_derivatives /line_tabulate (C22_batch_rows F0 (R n)) ?size_map // (C22_deriv_batch_rows F0 (R n)) ?size_map //.
rewrite !(nth_map 0) // eval_jacobi_ok // hornerZ horner_comp hornerD !hornerZ hornerX hornerC.
congr (_, _); first by rewrite [LHS]mulrC.
rewrite derivZ hornerZ deriv_comp hornerM horner_comp hornerD hornerZ hornerX hornerC derivD derivZ derivX derivC addr0 alg_polyC hornerC.
rewrite -EM [LHS]mulrC. congr (_ * (_ * _)). set x := M * _ + b.
case: k {Hk} => [|k]; first by rewrite /= jacobi_poly0 derivC hornerC.
rewrite jacobi_deriv // hornerZ /= eval_jacobi_ok //; last exact: (regular_shift (R k.+1)).
by rewrite [0 + 0 + _]addrC !addrA.
Qed.
End Values.

(** Square roots exist: the complex algebraic numbers and every real closed
    field meet the hypotheses. *)
From mathcomp Require Import algC.
Theorem C23_sqrt_witness_algC : char_zero Algebraics.Implementation.fieldType /\ @sqrt_exact Algebraics.Implementation.fieldType sqrtC.
Proof. split=> [m Hm|m d]; first by rewrite pnatr_eq0 -lt0n. by rewrite -expr2 sqrtCK. Qed.
Theorem C23_sqrt_witness_rcf : forall R : rcfType, char_zero R /\ @sqrt_exact R Num.sqrt.
Proof.
move=> R. split=> [m Hm|m d]; first by rewrite pnatr_eq0 -lt0n. rewrite -expr2 sqr_sqrtr //. by rewrite divr_ge0 ?ler0n.
Qed.
