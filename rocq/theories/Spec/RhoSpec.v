(** Specification vocabulary for Ellipsoid.rho: a support value with a point where it is attained, and a
    matrix of directions given as an array of several dimensions. *)
From mathcomp Require Import all_ssreflect all_algebra.
From Verif.Model Require Import Py NP.
From Verif.Spec Require Import MatSpec EllSpec.
Set Implicit Arguments.
Unset Strict Implicit.
Unset Printing Implicit Defensive.
Import GRing.Theory Num.Theory.
Local Open Scope ring_scope.

Section RhoSpec.
Variable R : rcfType.

(** s is the maximum of <l, x> over E(c, Q) and p is a point of E(c, Q) where it is attained *)
Definition supports n (c : 'cV[R]_n) (Q : 'M[R]_n) (l : 'cV[R]_n) (s : R) (p : 'cV[R]_n) : Prop :=
  [/\ max_over (in_ell c Q) l s, in_ell c Q p & dotv l p = s].

(** the columns of M as an array of shape (n, d1, d2, ...), in C order *)
Definition reshaped n m (s : seq nat) (M : 'M[R]_(n, m)) : arr (xnum R) := Arr s (data (mat M)).

(** the numbers v as an array of shape s *)
Definition numbers m (s : seq nat) (v : 'I_m -> R) : arr (xnum R) := Arr s [seq Fin (v j) | j <- enum 'I_m].

(** how an array of ellipsoids of shape s is paired with directions of shape (n,) + ds: the shapes are the
    same, or the ellipsoids form a row or a column and the directions a matrix *)
Definition paired (s ds : seq nat) : Prop :=
  (1 < size s)%N /\ (size ds = 1%N /\ (nth 0%N s 0 = 1%N \/ nth 0%N s 1 = 1%N) \/ s = ds).

End RhoSpec.
