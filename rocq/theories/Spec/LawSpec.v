(** Specification vocabulary for the laws relating the operations on ellipsoids to each other: the calls
    of Ellipsoid.rho with one ellipsoid and one direction, and with several ellipsoids and one direction. *)
From mathcomp Require Import all_ssreflect all_algebra.
From Verif.Model Require Import Py NP Linalg Ellipsoid.
From Verif.Spec Require Import MatSpec EllSpec RhoSpec.
Set Implicit Arguments.
Unset Strict Implicit.
Unset Printing Implicit Defensive.
Import GRing.Theory Num.Theory.
Local Open Scope ring_scope.

Section LawSpec.
Variable R : rcfType.

(** Ellipsoid.rho([e], l) returns the number s and the point p *)
Definition rho_is n (e : ell R) (l : 'cV[R]_n) (s : R) (p : 'cV[R]_n) : Prop :=
  rho (Arr [:: 1%N] [:: e]) (mat l) = Ok (Arr [:: 1%N; 1%N] [:: Fin s], mat p).

(** Ellipsoid.rho(es, l) returns the numbers v *)
Definition rhos_are n k (es : seq (ell R)) (l : 'cV[R]_n) (v : 'I_k -> R) : Prop :=
  exists P, rho (Arr [:: k] es) (mat l) = Ok (numbers [:: k] v, P).

End LawSpec.
