(** raviart_thomas.py: the polynomial space of the Raviart-Thomas element and the
    element with point degrees of freedom; polynomial_set.py: vector valued
    orthonormal sets, unions of polynomial sets.  Exact arithmetic over a real
    closed field; numpy's svd and qr, the choice of [set.pop] and the Newton
    iteration for the quadrature points are parameters. *)
Set Warnings "-notation-overridden,-ambiguous-paths".
From mathcomp Require Import all_ssreflect all_algebra.
From Verif Require Base ModelIndex ModelPolySet ModelCell ModelFam ModelFunctional ModelQuad.
From Verif Require Import ModelJacobi ModelExpansion ModelDmats ModelAffine ModelDual ProofsDmatsReg ModelSpace ModelNormal.
Set Implicit Arguments. Unset Strict Implicit. Unset Printing Implicit Defensive.
Import Order.TTheory GRing.Theory Num.Theory.
Local Open Scope ring_scope.

Section RT.
Variable R : rcfType.
Notation K := (mcF R).
Notation pt := (seq R).
Notation fnl := (functional R [eqType of pt]).
Variables (sqrt : R -> R) (svd : seq (seq R) -> seq (seq R) * seq R * seq (seq R)).
Variables (qr : seq (seq R) -> seq (seq R) * seq (seq R)) (pop : seq nat -> nat) (gjp : nat -> nat -> nat -> seq R).

(** polynomial_set.py l.129-176, [ONPolynomialSet] with shape [(sd,)]: ones
    written by the loops of ModelPolySet.v into zeros *)
Definition on_vec_set (c : cell) (n : nat) : result (polyset R) :=
  match ModelFam.polynomial_dimension c n with
  | Base.Err e => Err e
  | Base.Ok N =>
    let shp := [:: sdim_of c] in
    bind (exp_jets sqrt c n [::] 0) (fun _ =>
    Ok (mkPolySet (ModelPolySet.on_num_members shp N) shp
          (fun j cmp i => (ModelPolySet.coeff (ModelPolySet.on_layout shp N) j cmp i)%:R)))
  end.

(** polynomial_set.py l.203-236, [polynomial_set_union_normalized], for sets over
    the same expansion set of [nexp] functions.  The rows of the (reshaped,
    l.218-221) array are the members; numpy.array of members of different shapes
    raises ValueError. *)
Definition flat (nexp : nat) (U : polyset R) (j : nat) : seq R :=
  flatten [seq [seq coeffs U j c k | k <- iota 0 nexp] | c <- comps (pshape U)].
Definition union_rows (nexp : nat) (A B : polyset R) : seq (seq R) :=
  [seq flat nexp A j | j <- iota 0 (num_members A)] ++ [seq flat nexp B j | j <- iota 0 (num_members B)].
Definition union_normalized (nexp : nat) (A B : polyset R) : result (polyset R) :=
  if pshape A != pshape B then Err Base.ValueError
  else
    let: (_, sig, vt) := svd (union_rows nexp A B) in
    let num_sv := count (fun s => tol R < `|s|) sig in
    Ok (mkPolySet num_sv (pshape A)
          (fun j c k => entry (take num_sv vt) j (index c (comps (pshape A)) * nexp + k)%N)).

(** polynomial_set.py l.52-92 (order 0) for scalar sets: the value of member [i]
    at the point whose expansion functions have the values [tab] *)
Definition value_at (U : polyset R) (i : nat) (tab : seq R) : R := \sum_(k < size tab) coeffs U i [::] k * nth 0 tab k.

(** raviart_thomas.py l.17-61, [RTSpace].  [dimPkm1] is 0 for [deg = 0]
    (expansions.py l.420-435: [max(0, ...)]). *)
Definition dim_of (c : cell) (n : nat) : result nat :=
  match ModelFam.polynomial_dimension c n with Base.Ok N => Ok N | Base.Err e => Err e end.
Definition rt_items (sd dimPkp1 dimPk : nat) : seq nat := flatten [seq iota (i * dimPkp1) dimPk | i <- iota 0 sd].
Definition quad_cell (c : cell) : ModelQuad.qcell R :=
  ModelQuad.QSimp (sdim_of c) (match c with ModelCell.UFCInterval | ModelCell.UFCTriangle | ModelCell.UFCTetrahedron => true | _ => false end) (verts R c).
Definition rt_sets (c : cell) (deg : nat) : result (polyset R * polyset R) :=
  let sd := sdim_of c in
  bind (on_vec_set c deg.+1) (fun vec_Pkp1 =>
  bind (dim_of c deg.+1) (fun dimPkp1 =>
  bind (dim_of c deg) (fun dimPk =>
  bind (if deg is deg'.+1 then dim_of c deg' else Ok 0%N) (fun dimPkm1 =>
  bind (take_members vec_Pkp1 (rt_items sd dimPkp1 dimPk)) (fun vec_Pk_from_Pkp1 =>
  bind (on_set sqrt c deg.+1) (fun Pkp1 =>
  bind (take_members Pkp1 (iota dimPkm1 (dimPk - dimPkm1))) (fun PkH =>
  match ModelQuad.make_quadrature gjp (quad_cell c) (2 * deg + 2) with
  | Base.Err e => Err e
  | Base.Ok Q =>
    bind (map_res (exp_table sqrt c deg.+1) (ModelQuad.q_pts Q)) (fun tabs =>
    let PkHx_coeffs i j k := \sum_(xwt <- zip (zip (ModelQuad.q_pts Q) (ModelQuad.q_wts Q)) tabs)
          value_at Pkp1 k xwt.2 * (value_at PkH i xwt.2 * nth 0 xwt.1.1 j * xwt.1.2) in
    Ok (vec_Pk_from_Pkp1,
        mkPolySet (num_members PkH) [:: sd] (fun i cmp k => if cmp is [:: j] then PkHx_coeffs i j k else 0)))
  end))))))).
Definition rt_space (c : cell) (deg : nat) : result (polyset R) :=
  bind (dim_of c deg.+1) (fun N =>
  bind (rt_sets c deg) (fun AB => union_normalized N AB.1 AB.2)).

(** The nodes of ModelFam.v as functionals: functional.py l.194-210
    [ComponentPointEvaluation], l.635-651 [PointScaledNormalEvaluation], which
    asks the cell for its scaled normal (ModelNormal.v) *)
Definition geometry_with (c : cell) (n : seq R) : ModelFunctional.geometry R :=
  ModelFunctional.mkGeometry (sdim_of c) (fun _ => [::]) (fun _ => n) (fun _ => [::]) (fun _ => [::]) (fun _ _ => [::]) (fun _ _ p => p) (fun _ _ => 0).
Definition vec_node (c : cell) (l : ModelFam.node K) : result fnl :=
  match l with
  | ModelFam.PointScaledNormal i x =>
    bind (scaled_normal svd qr pop c i) (fun n => Ok (ModelFunctional.PointScaledNormalEvaluation (geometry_with c n) i x))
  | ModelFam.ComponentPoint d x =>
    match ModelFunctional.ComponentPointEvaluation (Posz d) [:: sdim_of c] x with Base.Ok l => Ok l | Base.Err e => Err e end
  | _ => Err Base.NotImplementedError
  end.
(** raviart_thomas.py l.163-177 with the variant "point", the default
    (ModelVariant.v); [el] is what ModelFam.v builds *)
Definition rt_element (c : cell) (k : nat) (el : Base.result (ModelFam.element K)) : result (polyset R) :=
  bind (rt_space c (k - 1)) (fun U =>
  bind (dim_of c (k - 1).+1) (fun N =>
  match el with
  | Base.Err e => Err e
  | Base.Ok el => bind (map_res (vec_node c) (ModelFam.el_nodes K el)) (fun nodes => ciarlet (exp_set sqrt c (k - 1).+1 N) nodes U)
  end)).
Definition raviart_thomas (c : cell) (k : nat) := rt_element c k (ModelFam.RaviartThomas K c k ModelFam.VPoint).
(** discontinuous_raviart_thomas.py l.19-69 *)
Definition discontinuous_raviart_thomas (c : cell) (k : nat) := rt_element c k (ModelFam.DiscontinuousRaviartThomas K c k).
End RT.
