(** Unisolvence of the simplex lattice: the Vandermonde matrices inverted by
    ONPolynomialSet are regular. *)
Set Warnings "-notation-overridden,-ambiguous-paths".
From mathcomp Require Import all_ssreflect all_algebra zify.
From Verif Require Base ModelIndex ProofsIndex.
From Verif Require Import FieldTac RingTac ModelJacobi SpecJacobi ProofsJacobi ProofsOrtho ModelExpansion SpecExpansion ProofsExpIdx ProofsExpProg ProofsExpOrtho ProofsExpDeg.
Set Implicit Arguments. Unset Strict Implicit. Unset Printing Implicit Defensive.
Import GRing.Theory.
Local Open Scope ring_scope.

Section Van.
Variable F : fieldType.
Notation poly2 := {poly {poly F}}.
Notation poly3 := {poly {poly {poly F}}}.
Lemma van1 n (p : {poly F}) (y : nat -> F) : injective y -> (forall j, (n <= j)%N -> p`_j = 0) ->
  (forall j, (j < n)%N -> p.[y j] = 0) -> p = 0.
Proof.
move=> Hy Hp Hv. apply: (@roots_geq_poly_eq0 _ p [seq y j | j <- iota 0 n]).
- apply/allP => z /mapP [j Hj ->]. apply/rootP. apply: Hv. by rewrite mem_iota in Hj.
- rewrite map_inj_uniq ?iota_uniq //.
- rewrite size_map size_iota. exact/leq_sizeP.
Qed.
Lemma van2 n (P : poly2) (x y : nat -> F) : injective x -> injective y -> (forall i j, (n <= i + j)%N -> P`_i`_j = 0) ->
  (forall i j, (i + j < n)%N -> P.[(x i)%:P].[y j] = 0) -> P = 0.
Proof.
elim: n P x => [|n IH] P x Hx Hy HP Hv; first by apply/polyP => i; apply/polyP => j; rewrite HP // !coef0.
have H0 : P.[(x 0%N)%:P] = 0.
{ apply: (@van1 n.+1 _ y) => // [j Hj|j Hj]; last exact: Hv.
  rewrite horner_coef coef_sum big1 // => i _. rewrite -rmorphX coefMC HP ?mul0r //. lia. }
have /factor_theorem [Q EQ] : root P (x 0%N)%:P by apply/rootP.
have EQc i j : Q`_i`_j = P`_i.+1`_j + x 0%N * Q`_i.+1`_j.
{ rewrite EQ mulrBr coefB coefMX /= coefMC coefB coefMC mulrC subrK. by []. }
have HQ : forall i j, (n <= i + j)%N -> Q`_i`_j = 0.
{ move=> i j. have [m Hm] : exists m, (size Q <= i + m)%N by exists (size Q); lia.
  elim: m i Hm => [|m IHm] i Hm Hij; first by rewrite addn0 in Hm; rewrite (nth_default 0 Hm) ?coef0.
  rewrite EQc HP ?IHm ?mulr0 ?addr0 //; lia. }
have Q0 : Q = 0; last by rewrite EQ Q0 mul0r.
apply: (IH Q (fun i => x i.+1)) => // [i j /Hx [//]|i j Hij].
have := Hv i.+1 j. rewrite EQ hornerM hornerM hornerXsubC -polyCB hornerC => /(_ Hij) /eqP.
rewrite mulf_eq0 subr_eq0 => /orP [/eqP //|/eqP /Hx //].
Qed.
Lemma van3 n (P : poly3) (x y z : nat -> F) : injective x -> injective y -> injective z ->
  (forall i j k, (n <= i + j + k)%N -> P`_i`_j`_k = 0) ->
  (forall i j k, (i + j + k < n)%N -> P.[(x i)%:P%:P].[(y j)%:P].[z k] = 0) -> P = 0.
Proof.
elim: n P x => [|n IH] P x Hx Hy Hz HP Hv; first by apply/polyP => i; apply/polyP => j; apply/polyP => k; rewrite HP // !coef0.
have H0 : P.[(x 0%N)%:P%:P] = 0.
{ apply: (@van2 n.+1 _ y z) => // [j k Hj|j k Hj]; last exact: Hv.
  rewrite horner_coef coef_sum coef_sum big1 // => i _. rewrite -!rmorphX coefMC coefMC HP ?mul0r //. lia. }
have /factor_theorem [Q EQ] : root P (x 0%N)%:P%:P by apply/rootP.
have EQc i j k : Q`_i`_j`_k = P`_i.+1`_j`_k + x 0%N * Q`_i.+1`_j`_k.
{ rewrite EQ mulrBr coefB coefMX /= coefMC coefB coefMC coefB coefMC mulrC subrK. by []. }
have HQ : forall i j k, (n <= i + j + k)%N -> Q`_i`_j`_k = 0.
{ move=> i j k. have [m Hm] : exists m, (size Q <= i + m)%N by exists (size Q); lia.
  elim: m i Hm => [|m IHm] i Hm Hij; first by rewrite addn0 in Hm; rewrite (nth_default 0 Hm) ?coef0.
  rewrite EQc HP ?IHm ?mulr0 ?addr0 //; lia. }
have Q0 : Q = 0; last by rewrite EQ Q0 mul0r.
apply: (IH Q (fun i => x i.+1)) => // [i j /Hx [//]|i j k Hij].
have := Hv i.+1 j k. rewrite EQ hornerM hornerM hornerM hornerXsubC -!polyCB hornerC hornerC => /(_ Hij) /eqP.
rewrite mulf_eq0 subr_eq0 => /orP [/eqP //|/eqP /Hx //].
Qed.
End Van.
