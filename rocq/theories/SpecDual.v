(** What a functional does to a function, independently of matrices. *)
Set Warnings "-notation-overridden,-ambiguous-paths".
From mathcomp Require Import all_ssreflect all_algebra.
From Verif Require Import ModelDual.
Set Implicit Arguments. Unset Strict Implicit. Unset Printing Implicit Defensive.
Import GRing.Theory.
Local Open Scope ring_scope.

Section Spec.
Variables (F : fieldType) (P : eqType).
(** A (tensor valued) function: its component values and the values of the
    derivatives of its components. *)
Record func := mkFunc { fval : comp -> P -> F; fder : comp -> alpha -> P -> F }.
(** l(f) = sum w f_c(x) + sum w (d^alpha f_c)(x), functional.py l.41-62 *)
Definition apply (l : functional F P) (f : func) : F :=
  \sum_(pw <- pt_dict l) \sum_(wc <- pw.2) wc.1 * fval f wc.2 pw.1 +
  \sum_(pw <- deriv_dict l) \sum_(wac <- pw.2) wac.1.1 * fder f wac.2 wac.1.2 pw.1.
Variable E : expansion F P.
(** expansion function [i] in component [c], zero in the others *)
Definition unit_func (c : comp) (i : nat) : func :=
  mkFunc (fun c' x => if c' == c then phi E i x else 0)
         (fun c' a x => if c' == c then dphi E a i x else 0).
(** the function with expansion coefficients [r] *)
Definition expand (r : rowT F) : func :=
  mkFunc (fun c x => \sum_(i < nexp E) r c i * phi E i x)
         (fun c a x => \sum_(i < nexp E) r c i * dphi E a i x).
(** member [j] of a polynomial set *)
Definition member (U : polyset F) (j : nat) : func := expand (coeffs U j).
(** a linear combination of the members *)
Definition combination (U : polyset F) (a : nat -> F) : func :=
  expand (fun c i => \sum_(j < num_members U) a j * coeffs U j c i).
(** the functional is well formed: dictionary keys are distinct, components
    are components of [shp], derivative multi-indices have the right length *)
Definition wf_functional (shp : seq nat) (l : functional F P) : bool :=
  [&& uniq [seq pw.1 | pw <- pt_dict l], uniq [seq pw.1 | pw <- deriv_dict l],
      all (fun pw => all (fun wc => wc.2 \in comps shp) pw.2) (pt_dict l) &
      all (fun pw => all (fun wac => (wac.2 \in comps shp) && (size wac.1.2 == sdim E)) pw.2) (deriv_dict l)].
End Spec.
