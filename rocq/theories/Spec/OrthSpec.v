(** Specification vocabulary for the orth_transl family. *)
From mathcomp Require Import all_ssreflect all_algebra.
From Verif.Model Require Import NP.
From Verif.Spec Require Import MatSpec.
Set Implicit Arguments.
Unset Strict Implicit.
Unset Printing Implicit Defensive.
Import GRing.Theory Num.Theory.
Local Open Scope ring_scope.

Section OrthSpec.
Variable R : rcfType.

(** O is orthogonal and takes u to the vector of the same length in the direction of v *)
Definition transl n (O : 'M[R]_n) (u v : 'cV[R]_n) : Prop :=
  orthog O /\ O *m u = (len u / len v) *: v.

(** u and v are exactly (anti)parallel, or the sine of their angle exceeds 1e-7 *)
Definition clear_angle n (u v : 'cV[R]_n) : Prop :=
  dotv u v ^+ 2 = sqn u * sqn v \/
  10%:R ^- 14 * (sqn u * sqn v) < sqn u * sqn v - dotv u v ^+ 2.

(** the two array forms of a vector: shape (n,) and shape (n, 1) *)
Definition colarr (col : bool) n (v : 'cV[R]_n) : arr (xnum R) := if col then mat v else vec v.

(** the slices of dst: D l is the matrix dst[:, :, l] *)
Definition slices n k p (D : 'I_p -> 'M[R]_(n, k)) : arr (xnum R) :=
  mkn [:: n; k; p] (fun idx =>
    if insub (nth 0%N idx 2) is Some l then Fin (mxget (D l) (nth 0%N idx 0) (nth 0%N idx 1)) else NaN).

(** the first basis vector *)
Definition e1 n : 'cV[R]_n.+1 := delta_mx 0 0.

End OrthSpec.
