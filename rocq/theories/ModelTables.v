(** The hard-coded quadrature tables of quadrature_schemes.py, as exact
    rationals: a decimal literal stands for its decimal value (the program
    rounds it to the nearest double). *)
Set Warnings "-notation-overridden,-ambiguous-paths".
From Coq Require Import ZArith QArith.
From mathcomp Require Import all_ssreflect.
Set Implicit Arguments. Unset Strict Implicit. Unset Printing Implicit Defensive.

(** the literal n * 10^-k *)
Definition dec (n : Z) (k : positive) : Q := n # (Pos.pow 10 k).
(** quadrature_schemes.py l.332-335 *)
Definition tri_x1 : seq (seq Q) :=
    [:: [:: (1 # 3); (1 # 3)]]%Q.
Definition tri_w1 : seq Q := (nseq 1 (dec 5 1))%Q.
(** quadrature_schemes.py l.336-342 *)
Definition tri_x2 : seq (seq Q) :=
    [:: [:: (1 # 6); (1 # 6)];
      [:: (1 # 6); (2 # 3)];
      [:: (2 # 3); (1 # 6)]]%Q.
Definition tri_w2 : seq Q := (nseq 3 (1 # 6))%Q.
(** quadrature_schemes.py l.343-352 *)
Definition tri_x3 : seq (seq Q) :=
    [:: [:: (dec 659027622374092 15); (dec 231933368553031 15)];
      [:: (dec 659027622374092 15); (dec 109039009072877 15)];
      [:: (dec 231933368553031 15); (dec 659027622374092 15)];
      [:: (dec 231933368553031 15); (dec 109039009072877 15)];
      [:: (dec 109039009072877 15); (dec 659027622374092 15)];
      [:: (dec 109039009072877 15); (dec 231933368553031 15)]]%Q.
Definition tri_w3 : seq Q := (nseq 6 (1 # 12))%Q.
(** quadrature_schemes.py l.353-364 *)
Definition tri_x4 : seq (seq Q) :=
    [:: [:: (dec 816847572980459 15); (dec 91576213509771 15)];
      [:: (dec 91576213509771 15); (dec 816847572980459 15)];
      [:: (dec 91576213509771 15); (dec 91576213509771 15)];
      [:: (dec 10810301816807 14); (dec 445948490915965 15)];
      [:: (dec 445948490915965 15); (dec 10810301816807 14)];
      [:: (dec 445948490915965 15); (dec 445948490915965 15)]]%Q.
Definition tri_w4 : seq Q := ([seq (w / 2)%Q | w <- nseq 3 (dec 109951743655322 15) ++ nseq 3 (dec 223381589678011 15)])%Q.
(** quadrature_schemes.py l.365-378 *)
Definition tri_x5 : seq (seq Q) :=
    [:: [:: (dec 33333333333333333 17); (dec 33333333333333333 17)];
      [:: (dec 7974269853530872 16); (dec 10128650732345633 17)];
      [:: (dec 10128650732345633 17); (dec 7974269853530872 16)];
      [:: (dec 10128650732345633 17); (dec 10128650732345633 17)];
      [:: (dec 5971587178976981 17); (dec 47014206410511505 17)];
      [:: (dec 47014206410511505 17); (dec 5971587178976981 17)];
      [:: (dec 47014206410511505 17); (dec 47014206410511505 17)]]%Q.
Definition tri_w5 : seq Q := ([seq (w / 2)%Q | w <- nseq 1 (dec 225 3) ++ nseq 3 (dec 12593918054482717 17) ++ nseq 3 (dec 13239415278850616 17)])%Q.
(** quadrature_schemes.py l.379-397 *)
Definition tri_x6 : seq (seq Q) :=
    [:: [:: (dec 873821971016996 15); (dec 63089014491502 15)];
      [:: (dec 63089014491502 15); (dec 873821971016996 15)];
      [:: (dec 63089014491502 15); (dec 63089014491502 15)];
      [:: (dec 501426509658179 15); (dec 24928674517091 14)];
      [:: (dec 24928674517091 14); (dec 501426509658179 15)];
      [:: (dec 24928674517091 14); (dec 24928674517091 14)];
      [:: (dec 636502499121399 15); (dec 310352451033785 15)];
      [:: (dec 636502499121399 15); (dec 53145049844816 15)];
      [:: (dec 310352451033785 15); (dec 636502499121399 15)];
      [:: (dec 310352451033785 15); (dec 53145049844816 15)];
      [:: (dec 53145049844816 15); (dec 636502499121399 15)];
      [:: (dec 53145049844816 15); (dec 310352451033785 15)]]%Q.
Definition tri_w6 : seq Q := ([seq (w / 2)%Q | w <- nseq 3 (dec 50844906370207 15) ++ nseq 3 (dec 116786275726379 15) ++ nseq 6 (dec 82851075618374 15)])%Q.
(** quadrature_schemes.py l.410-413 *)
Definition tet_x1 : seq (seq Q) :=
    [:: [:: (1 # 4); (1 # 4); (1 # 4)]]%Q.
Definition tet_w1 : seq Q := (nseq 1 (1 # 6))%Q.
(** quadrature_schemes.py l.414-422 *)
Definition tet_x2 : seq (seq Q) :=
    [:: [:: (dec 585410196624969 15); (dec 138196601125011 15); (dec 138196601125011 15)];
      [:: (dec 138196601125011 15); (dec 585410196624969 15); (dec 138196601125011 15)];
      [:: (dec 138196601125011 15); (dec 138196601125011 15); (dec 585410196624969 15)];
      [:: (dec 138196601125011 15); (dec 138196601125011 15); (dec 138196601125011 15)]]%Q.
Definition tet_w2 : seq Q := (nseq 4 (1 # 24))%Q.
(** quadrature_schemes.py l.423-434 *)
Definition tet_x3 : seq (seq Q) :=
    [:: [:: (dec 25 2); (dec 25 2); (dec 25 2)];
      [:: (dec 5 1); (dec 1666666666666666 16); (dec 1666666666666666 16)];
      [:: (dec 1666666666666666 16); (dec 5 1); (dec 1666666666666666 16)];
      [:: (dec 1666666666666666 16); (dec 1666666666666666 16); (dec 5 1)];
      [:: (dec 1666666666666666 16); (dec 1666666666666666 16); (dec 1666666666666666 16)]]%Q.
Definition tet_w3 : seq Q := ([seq (w / 6)%Q | w <- nseq 1 (dec (- 8) 1) ++ nseq 4 (dec 45 2)])%Q.
(** quadrature_schemes.py l.435-457 *)
Definition tet_x4 : seq (seq Q) :=
    [:: [:: 0; (dec 5 1); (dec 5 1)];
      [:: (dec 5 1); 0; (dec 5 1)];
      [:: (dec 5 1); (dec 5 1); 0];
      [:: (dec 5 1); 0; 0];
      [:: 0; (dec 5 1); 0];
      [:: 0; 0; (dec 5 1)];
      [:: (dec 6984197043243866 16); (dec 1005267652252045 16); (dec 1005267652252045 16)];
      [:: (dec 1005267652252045 16); (dec 1005267652252045 16); (dec 1005267652252045 16)];
      [:: (dec 1005267652252045 16); (dec 1005267652252045 16); (dec 6984197043243866 16)];
      [:: (dec 1005267652252045 16); (dec 6984197043243866 16); (dec 1005267652252045 16)];
      [:: (dec 568813795204234 16); (dec 3143728734931922 16); (dec 3143728734931922 16)];
      [:: (dec 3143728734931922 16); (dec 3143728734931922 16); (dec 3143728734931922 16)];
      [:: (dec 3143728734931922 16); (dec 3143728734931922 16); (dec 568813795204234 16)];
      [:: (dec 3143728734931922 16); (dec 568813795204234 16); (dec 3143728734931922 16)]]%Q.
Definition tet_w4 : seq Q := ([seq (w / 6)%Q | w <- nseq 6 (dec 19047619047619 15) ++ nseq 4 (dec 885898247429807 16) ++ nseq 4 (dec 1328387466855907 16)])%Q.
(** quadrature_schemes.py l.458-482 *)
Definition tet_x5 : seq (seq Q) :=
    [:: [:: (dec 25 2); (dec 25 2); (dec 25 2)];
      [:: 0; (dec 3333333333333333 16); (dec 3333333333333333 16)];
      [:: (dec 3333333333333333 16); (dec 3333333333333333 16); (dec 3333333333333333 16)];
      [:: (dec 3333333333333333 16); (dec 3333333333333333 16); 0];
      [:: (dec 3333333333333333 16); 0; (dec 3333333333333333 16)];
      [:: (dec 7272727272727273 16); (dec 909090909090909 16); (dec 909090909090909 16)];
      [:: (dec 909090909090909 16); (dec 909090909090909 16); (dec 909090909090909 16)];
      [:: (dec 909090909090909 16); (dec 909090909090909 16); (dec 7272727272727273 16)];
      [:: (dec 909090909090909 16); (dec 7272727272727273 16); (dec 909090909090909 16)];
      [:: (dec 4334498464263357 16); (dec 665501535736643 16); (dec 665501535736643 16)];
      [:: (dec 665501535736643 16); (dec 4334498464263357 16); (dec 665501535736643 16)];
      [:: (dec 665501535736643 16); (dec 665501535736643 16); (dec 4334498464263357 16)];
      [:: (dec 665501535736643 16); (dec 4334498464263357 16); (dec 4334498464263357 16)];
      [:: (dec 4334498464263357 16); (dec 665501535736643 16); (dec 4334498464263357 16)];
      [:: (dec 4334498464263357 16); (dec 4334498464263357 16); (dec 665501535736643 16)]]%Q.
Definition tet_w5 : seq Q := ([seq (w / 6)%Q | w <- nseq 1 (dec 1817020685825351 16) ++ nseq 4 (dec 361607142857143 16) ++ nseq 4 (dec 698714945161738 16) ++ nseq 6 (dec 656948493683187 16)])%Q.
(** quadrature_schemes.py l.483-516 *)
Definition tet_x6 : seq (seq Q) :=
    [:: [:: (dec 3561913862225449 16); (dec 2146028712591517 16); (dec 2146028712591517 16)];
      [:: (dec 2146028712591517 16); (dec 2146028712591517 16); (dec 2146028712591517 16)];
      [:: (dec 2146028712591517 16); (dec 2146028712591517 16); (dec 3561913862225449 16)];
      [:: (dec 2146028712591517 16); (dec 3561913862225449 16); (dec 2146028712591517 16)];
      [:: (dec 877978124396166 15); (dec 406739585346113 16); (dec 406739585346113 16)];
      [:: (dec 406739585346113 16); (dec 406739585346113 16); (dec 406739585346113 16)];
      [:: (dec 406739585346113 16); (dec 406739585346113 16); (dec 877978124396166 15)];
      [:: (dec 406739585346113 16); (dec 877978124396166 15); (dec 406739585346113 16)];
      [:: (dec 329863295731731 16); (dec 3223378901422757 16); (dec 3223378901422757 16)];
      [:: (dec 3223378901422757 16); (dec 3223378901422757 16); (dec 3223378901422757 16)];
      [:: (dec 3223378901422757 16); (dec 3223378901422757 16); (dec 329863295731731 16)];
      [:: (dec 3223378901422757 16); (dec 329863295731731 16); (dec 3223378901422757 16)];
      [:: (dec 2696723314583159 16); (dec 636610018750175 16); (dec 636610018750175 16)];
      [:: (dec 636610018750175 16); (dec 2696723314583159 16); (dec 636610018750175 16)];
      [:: (dec 636610018750175 16); (dec 636610018750175 16); (dec 2696723314583159 16)];
      [:: (dec 6030056647916491 16); (dec 636610018750175 16); (dec 636610018750175 16)];
      [:: (dec 636610018750175 16); (dec 6030056647916491 16); (dec 636610018750175 16)];
      [:: (dec 636610018750175 16); (dec 636610018750175 16); (dec 6030056647916491 16)];
      [:: (dec 636610018750175 16); (dec 2696723314583159 16); (dec 6030056647916491 16)];
      [:: (dec 2696723314583159 16); (dec 6030056647916491 16); (dec 636610018750175 16)];
      [:: (dec 6030056647916491 16); (dec 636610018750175 16); (dec 2696723314583159 16)];
      [:: (dec 636610018750175 16); (dec 6030056647916491 16); (dec 2696723314583159 16)];
      [:: (dec 2696723314583159 16); (dec 636610018750175 16); (dec 6030056647916491 16)];
      [:: (dec 6030056647916491 16); (dec 2696723314583159 16); (dec 636610018750175 16)]]%Q.
Definition tet_w6 : seq Q := ([seq (w / 6)%Q | w <- nseq 4 (dec 399227502581679 16) ++ nseq 4 (dec 100772110553207 16) ++ nseq 4 (dec 553571815436544 16) ++ nseq 12 (dec 482142857142857 16)])%Q.
(** l.332-397, l.410-516: table used for a degree at most 6 *)
Definition tri_table (d : nat) : seq (seq Q) * seq Q :=
  match d with
  | 0%N | 1%N => (tri_x1, tri_w1) | 2%N => (tri_x2, tri_w2) | 3%N => (tri_x3, tri_w3)
  | 4%N => (tri_x4, tri_w4) | 5%N => (tri_x5, tri_w5) | _ => (tri_x6, tri_w6)
  end.
Definition tet_table (d : nat) : seq (seq Q) * seq Q :=
  match d with
  | 0%N | 1%N => (tet_x1, tet_w1) | 2%N => (tet_x2, tet_w2) | 3%N => (tet_x3, tet_w3)
  | 4%N => (tet_x4, tet_w4) | 5%N => (tet_x5, tet_w5) | _ => (tet_x6, tet_w6)
  end.

(** *** Kong-Mulder-Veldhuizen tables: the points added after the vertices (and
    after the edge midpoints and barycentres made by [make_points]), and the
    weights. *)
(** l.108-114 *)
Definition kmv_tri_w1 : seq Q := (nseq 3 (1 # 6))%Q.
Definition kmv_tet_w1 : seq Q := (nseq 4 (1 # 24))%Q.
(** l.118-126 *)
Definition kmv_tri_w2 : seq Q := (nseq 3 (1 # 40) ++ nseq 3 (1 # 15) ++ nseq 1 (9 # 40))%Q.
(** l.127-154 *)
Definition kmv_tet_x2 : seq (seq Q) :=
  [:: [:: 0; 1#2; 1#2]; [:: 1#2; 0; 1#2]; [:: 1#2; 1#2; 0]; [:: 0; 0; 1#2]; [:: 0; 1#2; 0]; [:: 1#2; 0; 0];
      [:: dec 33333333333333337 17; dec 3333333333333333 16; dec 3333333333333333 16];
      [:: 0; dec 3333333333333333 16; dec 3333333333333333 16];
      [:: dec 3333333333333333 16; 0; dec 3333333333333333 16];
      [:: dec 3333333333333333 16; dec 3333333333333333 16; 0];
      [:: 1#4; 1#4; 1#4]]%Q.
Definition kmv_tet_w2 : seq Q := (nseq 4 (17 # 5040) ++ nseq 6 (2 # 315) ++ nseq 4 (9 # 560) ++ nseq 1 (16 # 315))%Q.
(** l.163-172, l.238-245, l.274-293: six points on the edges *)
Definition edge6 (al : Q) : seq (seq Q) :=
  [:: [:: 1 - al; al]; [:: al; 1 - al]; [:: 0; 1 - al]; [:: 0; al]; [:: al; 0]; [:: 1 - al; 0]]%Q.
(** l.173-175, l.247-252, l.294-302: three interior points *)
Definition mid3 (be : Q) : seq (seq Q) := [:: [:: be; be]; [:: 1 - 2 * be; be]; [:: be; 1 - 2 * be]]%Q.
(** l.159-179 *)
Definition kmv_tri_x3 : seq (seq Q) := edge6 (dec 2934695559090401 16) ++ mid3 (dec 2073451756635909 16).
Definition kmv_tri_w3 : seq Q :=
  nseq 3 (dec 7436456512410291 18) ++ nseq 6 (dec 2442084061702551 17) ++ nseq 3 (dec 1103885289202054 16).
(** l.180-228 *)
Definition kmv_tet_x3 : seq (seq Q) :=
  let a := dec 685789657581967 15 in let b := dec 314210342418033 15 in
  let c := dec 21548220313557542 17 in let d := dec 5690355937288492 16 in let e := (1 # 6)%Q in let h := (1 # 2)%Q in
  [:: [:: 0; a; b]; [:: 0; b; a]; [:: b; 0; a]; [:: a; 0; b]; [:: a; b; 0]; [:: b; a; 0];
      [:: 0; 0; a]; [:: 0; 0; b]; [:: 0; b; 0]; [:: 0; a; 0]; [:: b; 0; 0]; [:: a; 0; 0];
      [:: c; d; c]; [:: c; c; d]; [:: d; c; c]; [:: 0; d; c]; [:: 0; c; d]; [:: 0; c; c];
      [:: d; 0; c]; [:: c; 0; d]; [:: c; 0; c]; [:: d; c; 0]; [:: c; d; 0]; [:: c; c; 0];
      [:: e; e; h]; [:: h; e; e]; [:: e; h; e]; [:: e; e; e]]%Q.
Definition kmv_tet_w3 : seq Q :=
  nseq 4 (dec 68688236002531922325120561367839 35) ++ nseq 12 (dec 15107814913526136472998739890272 34) ++
  nseq 12 (dec 50062894680040258624242888174649 34) ++ nseq 4 (dec 21428571428571428571428571428571 33).
(** l.231-260 *)
Definition kmv_tri_x4 : seq (seq Q) :=
  edge6 (dec 2113248654051871 16) ++ mid3 (dec 4247639617258106 16) ++ mid3 (dec 130791593829745 15).
Definition kmv_tri_w4 : seq Q :=
  nseq 3 (dec 3174603174603175 18) ++ nseq 3 (dec 126984126984127 16) ++ nseq 6 (dec 1071428571428571 17) ++
  nseq 3 (dec 7878121446939182 17) ++ nseq 3 (dec 5058386489568756 17).
(** l.264-320 *)
Definition kmv_tri_x5 : seq (seq Q) :=
  let g := dec 7819258362551702 17 in let d := dec 22100121875989 14 in
  edge6 (dec 363298074153686 15) ++ edge6 (dec 132264581632714 15) ++
  mid3 (dec 4578368380791611 16) ++ mid3 (dec 2568591072619591 16) ++ mid3 (dec 5752768441141011 17) ++
  [:: [:: g; d]; [:: 1 - g - d; d]; [:: g; 1 - g - d]; [:: d; g]; [:: 1 - g - d; g]; [:: d; 1 - g - d]]%Q.
Definition kmv_tri_w5 : seq Q :=
  nseq 3 (dec 709423970679245 18) ++ nseq 6 (dec 6190565003676629 18) ++ nseq 6 (dec 3480578640489211 18) ++
  nseq 3 (dec 3453043037728279 17) ++ nseq 3 (dec 4590123763076286 17) ++ nseq 3 (dec 1162613545961757 17) ++ nseq 6 (dec 2727857596999626 17).
