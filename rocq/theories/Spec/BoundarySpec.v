(** Specification for the boundary points of an ellipsoid. *)
From mathcomp Require Import all_ssreflect all_algebra.
From Verif.Model Require Import Py NP Ellipsoid.
From Verif.Spec Require Import MatSpec EllSpec SphereSpec.
Set Implicit Arguments.
Unset Strict Implicit.
Unset Printing Implicit Defensive.
Import Order.Theory GRing.Theory Num.Theory.
Local Open Scope ring_scope.

(** the least depth from 1 on at which the triangulated sphere has n vertices *)
Definition least_depth (n d : nat) : Prop :=
  [/\ (0 < d)%N, (n <= sphere_size d)%N & forall k, (0 < k < d)%N -> (sphere_size k < n)%N].

Section BoundarySpec.
Variable R : rcfType.

(** (x - c)^T Q^-1 (x - c) of the point x, given as a row; 1 on the boundary of E(c, Q) *)
Definition level n (c : 'cV[R]_n) (Q : 'M[R]_n) (x : 'rV[R]_n) : R := qf (invmx Q) (x^T - c).

(** the points of the rows of B are the points of E(c, Q) farthest along the directions in the rows of L, s being
    the values of the support function *)
Definition supports m n (c : 'cV[R]_n) (Q : 'M[R]_n) (B L : 'M[R]_(m, n)) (s : 'cV[R]_m) : Prop :=
  forall i, [/\ max_over (in_ell c Q) (row i L)^T (s i 0), in_ell c Q (row i B)^T &
               dotv (row i L)^T (row i B)^T = s i 0].

(** the greatest integer below *)
Definition is_floor (fl : R -> int) : Prop := forall x, (fl x)%:~R <= x < (fl x + 1)%:~R.

(** the number of plot points a factor applies to *)
Definition n_plot (e : ell R) (d : nat) : nat := if d == 2%N then p_n2 (e_props e) else p_n3 (e_props e).
End BoundarySpec.
