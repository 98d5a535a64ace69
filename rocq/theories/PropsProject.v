(** C58: [polynomial_set.project] does not return expansion coefficients. *)
Set Warnings "-notation-overridden,-ambiguous-paths".
From mathcomp Require Import all_ssreflect all_algebra.
From Verif Require Base ModelIndex.
From Verif Require Import ModelJacobi ModelExpansion ModelDmats ModelProject.
Set Implicit Arguments. Unset Strict Implicit. Unset Printing Implicit Defensive.
Import GRing.Theory.
Local Open Scope ring_scope.

(** The coefficients [c] solve the projection: the function and the
    combination of the members with these coefficients have the same discrete
    inner product, by the rule, with every member.  [mem i k] is the value of
    member [i] at point [k]. *)
Definition solves (F : fieldType) r (P : Type) (mem : nat -> nat -> F) (pts : seq P) (wts : seq F) (f : P -> F) (x0 : P)
    (c : seq F) : Prop :=
  size c = r /\
  forall j, (j < r)%N ->
    \sum_(k < size pts) wts`_k * (f (nth x0 pts k) * mem j k)
    = \sum_(k < size pts) wts`_k * ((\sum_(i < r) c`_i * mem i k) * mem j k).

Section P.
Variable F : fieldType.

Lemma zeros (s : seq F) : all (fun x => x == 0) s -> \sum_(x <- s) x = 0.
Proof. by elim: s => [|x s IH] /=; [rewrite big_nil|case/andP=> /eqP -> /IH; rewrite big_cons add0r]. Qed.
Lemma bcast_zero (a : seq F) n l : bcast_mul a (nseq n 0) = Ok l -> \sum_(x <- l) x = 0.
Proof.
rewrite /bcast_mul size_nseq; case: eqP => [_|_].
- case=> <-. apply: zeros. elim: a n => [|x a IH] [|n] //=. by rewrite mulr0 eqxx IH.
- case: eqP => _.
  + case=> <-; apply: zeros. elim: n => //= n ->. by rewrite mulr0 eqxx.
  + case: eqP => [->|_] // [<-]. apply: zeros. elim: a => //= x a ->. by rewrite mulr0 eqxx.
Qed.
Lemma mis0 sd : (0 < sd)%N -> ModelIndex.mis sd 0 = [:: nseq sd 0%N].
Proof.
have R m : List.repeat 0%N m = nseq m 0%N by elim: m => //= m ->.
by case: sd => // -[|sd] _ //=; rewrite R.
Qed.

(** Without an exception the only possible answer is the one-element list
    [0], whatever the function, the set (with any number [r] of members) and
    the rule. *)
Theorem C58_project_refuted N r (P : Type) (sd : nat) (dmats : seq 'M[F]_N) (coeffs : 'M[F]_(r, N))
    (pts : seq P) (wts : seq F) (base : 'M[F]_(N, size pts)) :
  (0 < sd)%N -> (0 < size dmats)%N -> size wts = size pts ->
  (forall f, project sd dmats coeffs wts base f = Ok [:: 0]
          \/ project sd dmats coeffs wts base f = Err Base.ValueError)
  /\ ((1 < sd)%N -> (1 < size pts)%N -> size pts != sd ->
      forall f, project sd dmats coeffs wts base f = Err Base.ValueError)
  /\ (forall f c, r <> 1%N -> size c = r -> project sd dmats coeffs wts base f <> Ok c).
Proof.
move=> Hsd Hd Hw.
have D f : project sd dmats coeffs wts base f =
    bind (bcast_mul [seq p.1 * p.2 | p <- zip wts [seq f x | x <- pts]] (nseq sd 0)) (fun l => Ok [:: \sum_(x <- l) x]).
{ rewrite /project /ps_tabulate. case: dmats Hd => // d0 dm _ /=. rewrite mis0 //= /bcast_mul size_map Hw eqxx /=.
  have -> : [seq k%:R | k <- nseq sd 0%N] = nseq sd (0 : F) by rewrite map_nseq.
  by case: (if _ then _ else _) => //=. }
have S f : size [seq p.1 * p.2 | p <- zip wts [seq f x | x <- pts]] = size pts
  by rewrite size_map size_zip size_map Hw minnn.
have A f : project sd dmats coeffs wts base f = Ok [:: 0] \/ project sd dmats coeffs wts base f = Err Base.ValueError.
{ rewrite D. case E : (bcast_mul _ _) => [l|e] /=.
  - left. by rewrite (bcast_zero E).
  - right. move: E. rewrite /bcast_mul. by do 3 case: eqP => // _; case=> <-. }
split=> //; split.
- move=> H1 H2 H3 f. rewrite D /bcast_mul S size_nseq (negbTE H3) (gtn_eqF H2) (gtn_eqF H1). by [].
- move=> f c Hr Hc E. case: (A f); rewrite E => // -[Ec]. by apply: Hr; rewrite -Hc Ec.
Qed.
End P.

(** A concrete case over the rationals: on an interval, the constants (one
    member, the constant 1) and the two-point rule of weights 1/2: the
    coefficient of the function 1 is 1, and [project] answers 0; with the
    three-point rule on a triangle it raises ValueError. *)
Example C58_example :
  solves 1 (fun _ _ => 1) [:: 0%N; 1%N] [:: 2%:R^-1; 2%:R^-1] (fun _ => 1 : rat) 0%N [:: 1] /\
  (exists d : seq 'M[rat]_1, size d = 1%N /\
    project 1 d (1%:M : 'M_(1, 1)) (pts := [:: 0%N; 1%N]) [:: 2%:R^-1; 2%:R^-1] (const_mx 1) (fun _ => 1) = Ok [:: 0]) /\
  (exists d : seq 'M[rat]_1, size d = 2%N /\
    project 2 d (1%:M : 'M_(1, 1)) (pts := [:: 0%N; 1%N; 2%N]) [:: 6%:R^-1; 6%:R^-1; 6%:R^-1] (const_mx 1) (fun _ => 1)
    = Err Base.ValueError).
Proof.
split; [|split].
- split=> // j _. apply: eq_bigr => k _; by rewrite (big_ord_recl 0) big_ord0 /= !mulr1 ?addr0.
- exists [:: 0]; split=> //. rewrite /project /= /bcast_mul /= !mulr0 !big_cons big_nil /= ?addr0. by [].
- exists [:: 0; 0]; split=> //.
Qed.
Print Assumptions C58_project_refuted.
