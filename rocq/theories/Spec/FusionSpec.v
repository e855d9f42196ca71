(** Specification of the fusion of two ellipsoids { x | (x - q1)^T Q1 (x - q1) <= 1 }, { x | (x - q2)^T Q2 (x - q2) <= 1 }:
    the ellipsoid { x | a (x - q1)^T Q1 (x - q1) + (1 - a) (x - q2)^T Q2 (x - q2) <= 1 }, 0 <= a <= 1. *)
From mathcomp Require Import all_ssreflect all_algebra.
From Verif.Spec Require Import MatSpec.
Set Implicit Arguments.
Unset Strict Implicit.
Unset Printing Implicit Defensive.
Import Order.Theory GRing.Theory Num.Theory.
Local Open Scope ring_scope.

Section FusionSpec.
Variable R : rcfType.

(** l is the derivative of g at a *)
Definition derivative (g : R -> R) (a l : R) : Prop :=
  forall eps, 0 < eps -> exists2 d, 0 < d & forall h, `|h| < d -> `|g (a + h) - g a - l * h| <= eps * `|h|.

Variables (n : nat) (q1 : 'cV[R]_n) (Q1 : 'M[R]_n) (q2 : 'cV[R]_n) (Q2 : 'M[R]_n).

(** the weighted sum of the two quadratic functions *)
Definition fused (a : R) (x : 'cV[R]_n) : R := a * qf Q1 (x - q1) + (1 - a) * qf Q2 (x - q2).
(** the fusion is { x | (x - q)^T W (x - q) <= k } *)
Definition fus_mat (a : R) : 'M[R]_n := a *: Q1 + (1 - a) *: Q2.
Definition fus_center (a : R) : 'cV[R]_n := invmx (fus_mat a) *m (a *: (Q1 *m q1) + (1 - a) *: (Q2 *m q2)).
Definition fus_level (a : R) : R := 1 - fused a (fus_center a).
(** its squared volume, up to that of the unit ball: det (k W^-1) *)
Definition fus_vol2 (a : R) : R := \det (fus_level a *: invmx (fus_mat a)).
End FusionSpec.
