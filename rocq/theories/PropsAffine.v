(** C19: make_affine_mapping. *)
Set Warnings "-notation-overridden,-ambiguous-paths".
From mathcomp Require Import all_ssreflect all_algebra zify.
From Verif Require Base.
From Verif Require Import FieldTac ModelAffine SpecAffine ProofsAffine.
Set Implicit Arguments. Unset Strict Implicit. Unset Printing Implicit Defensive.
Import GRing.Theory.
Local Open Scope ring_scope.

Section P.
Variable F : fieldType.
Implicit Types (xs ys : seq (seq F)).

Lemma size0_in (d n : nat) xs : size xs = n.+1 -> in_dim d xs -> size (nth [::] xs 0) = d.
Proof. move=> S D. apply/D/mem_nth. by rewrite S. Qed.

Lemma make_affineE dx dy xs ys : size xs = dx.+1 -> in_dim dx xs -> size ys = dx.+1 -> in_dim dy ys ->
  make_affine_mapping xs ys =
  if sys_mat dx dy xs ys \in unitmx then
    let sol := invmx (sys_mat dx dy xs ys) *m sys_rhs dx dy xs ys in
    Base.Ok (mkseq (fun j => mkseq (fun k => vget sol (dx * j + k)) dx) dy, mkseq (fun j => vget sol (dx * dy + j)) dy)
  else Base.Err Base.LinAlgError.
Proof.
move=> Sx Dx Sy Dy. rewrite /make_affine_mapping Sx Sy /= eqxx (size0_in Sx Dx) (size0_in Sy Dy) /=.
have -> : all (fun x => (size x == dx) || (size x == 1%N)) xs by apply/allP => x /Dx ->; rewrite eqxx.
have -> : all (fun y => dy <= size y)%N ys by apply/allP => y /Dy ->.
have -> : (dx * dy + dy < dx.+1 * dy)%N = false by lia. by [].
Qed.

Lemma maps_solution dx dy xs ys (A : seq (seq F)) b : size xs = dx.+1 -> in_dim dx xs -> size ys = dx.+1 -> map_shape dx dy A b ->
  (forall i, (i < dx.+1)%N -> maps_to A b (nth [::] xs i) (nth [::] ys i)) <->
  (forall v : 'cV[F]_(dx * dy + dy), (forall j k, (j < dy)%N -> (k < dx)%N -> vget v (dx * j + k)%N = nth 0 (nth [::] A j) k) ->
     (forall j, (j < dy)%N -> vget v (dx * dy + j)%N = nth 0 b j) -> sys_mat dx dy xs ys *m v = sys_rhs dx dy xs ys).
Proof.
move=> Sx Dx Sy [SA [RA Sb]]. 
have key v i j (Hi : (i < dx.+1)%N) (Hj : (j < dy)%N) :
    (forall j k, (j < dy)%N -> (k < dx)%N -> vget v (dx * j + k)%N = nth 0 (nth [::] A j) k) ->
    (forall j, (j < dy)%N -> vget v (dx * dy + j)%N = nth 0 b j) -> 
    (sys_mat dx dy xs ys *m v) (Ordinal (rowlt Hi Hj)) 0 = \sum_(k < size (nth [::] xs i)) nth 0 (nth [::] A j) k * nth 0 (nth [::] xs i) k + nth 0 b j.
{ move=> V1 V2. rewrite sys_row // V2 //. have -> : size (nth [::] xs i) = dx by apply/Dx/mem_nth; rewrite Sx.
  congr (_ + _). apply: eq_bigr => k _. by rewrite V1 // mulrC. }
split=> [H v V1 V2|H i Hi j].
- apply/colP => r. have [i [j [Hi [Hj ->]]]] := row_ex r. rewrite key // sys_rhsE //. apply: H => //. by rewrite Sb.
- rewrite Sb => Hj.
  pose v : 'cV[F]_(dx * dy + dy) := \col_r (if (r < dx * dy)%N then nth 0 (nth [::] A (r %/ dx)) (r %% dx) else nth 0 b (r - dx * dy)).
  have V1 j' k : (j' < dy)%N -> (k < dx)%N -> vget v (dx * j' + k)%N = nth 0 (nth [::] A j') k.
  { move=> Hj' Hk. rewrite (vget_lt _ (collt Hj' Hk)) mxE /=.
    have -> : (dx * j' + k < dx * dy)%N by nia. by rewrite mulnC divnMDl ?(leq_trans _ Hk) // modnMDl divn_small // addn0 modn_small. }
  have V2 j' : (j' < dy)%N -> vget v (dx * dy + j')%N = nth 0 b j'.
  { move=> Hj'. rewrite (vget_lt _ (blt dx Hj')) mxE /= ltnNge leq_addr /= addKn. by []. }
  have := H v V1 V2 => /(congr1 (fun w : 'cV_(_) => w (Ordinal (rowlt Hi Hj)) 0)). by rewrite key // sys_rhsE.
Qed.
End P.

(** For every non-degenerate simplex [xs] and every list [ys] of as many points
    of any dimension, the returned map sends xs[i] to ys[i] for every i, and no
    other affine map does. *)
Theorem C19_vertices_to_vertices :
  forall (F : fieldType) (dx dy : nat) (xs ys : seq (seq F)),
    (0 < dy)%N -> simplex_in dx xs -> size ys = size xs -> in_dim dy ys ->
    exists A b,
      [/\ make_affine_mapping xs ys = Base.Ok (A, b), map_shape dx dy A b,
          forall i, (i < size xs)%N -> affine A b (nth [::] xs i) = nth [::] ys i &
          forall A' b', map_shape dx dy A' b' ->
            (forall i, (i < size xs)%N -> maps_to A' b' (nth [::] xs i) (nth [::] ys i)) -> A' = A /\ b' = b].
Proof.
move=> F dx dy xs ys dy0 [Sx Dx Hx]. rewrite Sx => Sy Dy.
have U := (sys_unit ys Sx Dx dy0).2 Hx.
rewrite (make_affineE Sx Dx Sy Dy) U. set sol := invmx _ *m _.
eexists; eexists; split; first by [].
- split; first by rewrite size_mkseq. split; last by rewrite size_mkseq.
  move=> r /mapP [j _ ->]. by rewrite size_mkseq.
- move=> i Hi. rewrite /affine size_mkseq. have Hyi : size (nth [::] ys i) = dy by apply/Dy/mem_nth; rewrite Sy.
  apply: (@eq_from_nth _ 0); first by rewrite size_mkseq Hyi. rewrite size_mkseq => j Hj. rewrite nth_mkseq //.
  have E : sys_mat dx dy xs ys *m sol = sys_rhs dx dy xs ys by rewrite /sol mulmxA mulmxV // mul1mx.
  have := congr1 (fun w : 'cV_(_) => w (Ordinal (rowlt Hi Hj)) 0) E. rewrite sys_row // sys_rhsE // => <-.
  have -> : size (nth [::] xs i) = dx by apply/Dx/mem_nth; rewrite Sx.
  rewrite !nth_mkseq //. congr (_ + _). apply: eq_bigr => k _. by rewrite nth_mkseq // mulrC.
- move=> A' b' Sh H. have H' := (maps_solution Sx Dx Sy Sh).1 H.
  pose v : 'cV[F]_(dx * dy + dy) := \col_r (if (r < dx * dy)%N then nth 0 (nth [::] A' (r %/ dx)) (r %% dx) else nth 0 b' (r - dx * dy)).
  have V1 j k : (j < dy)%N -> (k < dx)%N -> vget v (dx * j + k)%N = nth 0 (nth [::] A' j) k.
  { move=> Hj' Hk. rewrite (vget_lt _ (collt Hj' Hk)) mxE /=.
    have -> : (dx * j + k < dx * dy)%N by nia. by rewrite mulnC divnMDl ?(leq_trans _ Hk) // modnMDl divn_small // addn0 modn_small. }
  have V2 j : (j < dy)%N -> vget v (dx * dy + j)%N = nth 0 b' j.
  { move=> Hj'. rewrite (vget_lt _ (blt dx Hj')) mxE /= ltnNge leq_addr /= addKn. by []. }
  have Ev : v = sol by rewrite /sol -(H' v V1 V2) mulKmx.
  have [SA [RA Sb]] := Sh.
  split.
  + apply: (@eq_from_nth _ [::]); first by rewrite size_mkseq. rewrite SA => j Hj. rewrite nth_mkseq //.
    have Sr : size (nth [::] A' j) = dx by apply/RA/mem_nth; rewrite SA.
    apply: (@eq_from_nth _ 0); first by rewrite size_mkseq. rewrite Sr => k Hk. by rewrite nth_mkseq // -Ev V1.
  + apply: (@eq_from_nth _ 0); first by rewrite size_mkseq. rewrite Sb => j Hj. by rewrite nth_mkseq // -Ev V2.
Qed.

(** A degenerate simplex is refused, never mapped. *)
Theorem C19_degenerate_refused :
  forall (F : fieldType) (dx dy : nat) (xs ys : seq (seq F)),
    (0 < dy)%N -> size xs = dx.+1 -> in_dim dx xs -> size ys = size xs -> in_dim dy ys ->
    ~ affinely_spanning dx xs -> make_affine_mapping xs ys = Base.Err Base.LinAlgError.
Proof.
move=> F dx dy xs ys dy0 Sx Dx Sy Dy H. rewrite Sx in Sy. rewrite (make_affineE Sx Dx Sy Dy).
case: ifP => // U. case: H. exact: (sys_unit ys Sx Dx dy0).1.
Qed.

(** Different numbers of vertices are refused. *)
Theorem C19_count_mismatch_refused :
  forall (F : fieldType) (xs ys : seq (seq F)), xs != [::] -> ys != [::] -> size xs != size ys ->
    make_affine_mapping xs ys = Base.Err Base.PlainException.
Proof. move=> F [|x xs] [|y ys] // _ _ H. by rewrite /make_affine_mapping H. Qed.

(** The unit simplex in any dimension is non-degenerate, so the hypotheses of
    the theorems are met; likewise every image of it under an invertible affine
    map, e.g. the default cells. *)
Definition unit_simplex (F : fieldType) d : seq (seq F) :=
  nseq d 0 :: [seq mkseq (fun k => (k == i)%:R) d | i <- iota 0 d].
Theorem C19_unit_simplex : forall (F : fieldType) d, simplex_in d (unit_simplex F d).
Proof.
move=> F d. split.
- by rewrite /= size_map size_iota.
- move=> x; rewrite in_cons => /orP [/eqP ->|/mapP [i _ ->]]; by rewrite ?size_nseq ?size_mkseq.
- move=> c e H. have E0 : e = 0.
  { have := H (nseq d 0) (mem_head _ _). rewrite big1 ?add0r // => k _. by rewrite nth_nseq; case: ifP; rewrite mulr0. }
  split=> // k Hk. have := H (mkseq (fun k' => (k' == k)%:R) d). rewrite E0 addr0 => <-.
  + rewrite (bigD1 (Ordinal Hk)) //= nth_mkseq // eqxx mulr1 big1 ?addr0 // => k' Hk'.
    rewrite nth_mkseq // (negbTE (_ : k' != k :> nat)%N) ?mulr0 //.
  + rewrite in_cons; apply/orP; right. apply/mapP. exists k => //. by rewrite mem_iota.
Qed.
(** The triangle (-1,-1), (1,-1), (-1,1) of the Default cells. *)
Section Ex.
Variable F : fieldType.
Add Field FF : (mc_field_theory F).
Lemma dbl0 (u : F) : 2%:R != 0 :> F -> u + u = 0 -> u = 0.
Proof. move=> T /eqP. by rewrite -mulr2n -mulr_natr mulf_eq0 (negbTE T) orbF => /eqP. Qed.
Lemma tri_solve (u v e : F) : 2%:R != 0 :> F -> - u + (v + e) = 0 -> u + (- v + e) = 0 -> - u + (- v + e) = 0 -> [/\ u = 0, v = 0 & e = 0].
Proof.
move=> T E1 E2 E3. have Hv : v = 0 by apply: dbl0 => //; rewrite -[RHS](subrr 0) -{1}E1 -E3; fring.
have Hu : u = 0 by apply: dbl0 => //; rewrite -[RHS](subrr 0) -{1}E2 -E3; fring.
by split=> //; rewrite Hu Hv !oppr0 !add0r in E3.
Qed.
End Ex.
Example C19_default_triangle : @simplex_in rat_fieldType 2 [:: [:: -1; -1]; [:: 1; -1]; [:: -1; 1]].
Proof.
split=> //.
- move=> x. by rewrite !inE => /or3P [] /eqP ->.
- move=> c e H. have := H [:: -1; -1] isT. have := H [:: 1; -1] isT. have := H [:: -1; 1] isT.
  rewrite !big_ord_recl !big_ord0 /= /bump /= !addr0 !mulrN1 !mulr1 -!addrA => E1 E2 E3.
  have [||||Q0 Q1 Q2] // := @tri_solve _ (c 0%N) (c 1%N) e. by split=> // -[|[|k]].
Qed.
