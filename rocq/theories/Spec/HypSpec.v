(** Specification of hyperplanes: { x | <v, x> = s }. *)
From mathcomp Require Import all_ssreflect all_algebra.
From Verif.Model Require Import Py NP Ellipsoid Hyperplane.
From Verif.Spec Require Import MatSpec.
Set Implicit Arguments.
Unset Strict Implicit.
Unset Printing Implicit Defensive.
Import Order.Theory GRing.Theory Num.Theory.
Local Open Scope ring_scope.

Section HypSpec.
Variable R : rcfType.

(** the set and its neighbourhood *)
Definition on_hp n (v : 'cV[R]_n) (s : R) (x : 'cV[R]_n) : Prop := dotv v x = s.
Definition near_hp n (v : 'cV[R]_n) (s t : R) (x : 'cV[R]_n) : Prop := `|dotv v x - s| < t.

(** the object has normal v, shift s and absolute tolerance t *)
Definition hrepr n (h : hp R) (v : 'cV[R]_n) (s t : R) : Prop :=
  [/\ h_normal h = vec v, h_shift h = Fin s, h_abs h = Fin t, 0 < t & exists2 r : R, h_rel h = Fin r & 0 < r].
Definition hfamily n k (hs : seq (hp R)) (v : 'I_k -> 'cV[R]_n) (s t : 'I_k -> R) : Prop :=
  size hs = k /\ forall (i : 'I_k) h0, hrepr (nth h0 hs i) (v i) (s i) (t i).

(** not what the code calls an empty hyperplane: one coordinate, normal and shift within abs_tol of 0 *)
Definition solid n (v : 'cV[R]_n) (s t : R) : Prop :=
  n = 1%N -> t < `|s| \/ exists i, t < `|v i 0|.

(** the configured tolerances are usable *)
Definition tols_of (cfg : props R) (t r : R) : Prop :=
  [/\ p_abs cfg = Fin t, p_rel cfg = Fin r, 0 < t & 0 < r].

Definition collinear n (u v : 'cV[R]_n) : Prop := exists2 a : R, a != 0 & v = a *: u.

(** the canonical normal and shift *)
Definition canon_normal n (v : 'cV[R]_n) (s : R) : 'cV[R]_n := if s < 0 then - unitv v else unitv v.
Definition canon_shift n (v : 'cV[R]_n) (s : R) : R := `|s| / len v.

End HypSpec.
