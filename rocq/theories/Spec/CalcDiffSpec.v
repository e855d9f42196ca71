(** Specification vocabulary for _calc_diff_one_dir. *)
From mathcomp Require Import all_ssreflect all_algebra.
From Verif.Spec Require Import MatSpec EllSpec.
Set Implicit Arguments.
Unset Strict Implicit.
Unset Printing Implicit Defensive.
Import GRing.Theory Num.Theory.
Local Open Scope ring_scope.

Section CalcDiffSpec.
Variable R : rcfType.

(** the geometric difference E(c1, Q1) - E(c2, Q2): the shifts that put the second inside the first *)
Definition geom_diff n (c1 : 'cV[R]_n) (Q1 : 'M[R]_n) (c2 : 'cV[R]_n) (Q2 : 'M[R]_n) (x : 'cV[R]_n) : Prop :=
  forall y, in_ell c2 Q2 y -> in_ell c1 Q1 (x + y).

(** every coordinate of x - y is below 10^-14 *)
Definition near n (x y : 'cV[R]_n) : Prop := forall i, `|x i 0 - y i 0| < 10%:R ^- 14.

End CalcDiffSpec.
