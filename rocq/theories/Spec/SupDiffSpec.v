(** Specification for the support function of a geometric difference. *)
From mathcomp Require Import all_ssreflect all_algebra.
Require Import Coq.Strings.String.
From Verif.Model Require Import Py NP.
From Verif.Spec Require Import MatSpec SphereSpec.
Set Implicit Arguments.
Unset Strict Implicit.
Unset Printing Implicit Defensive.
Import Order.Theory GRing.Theory Num.Theory.
Local Open Scope ring_scope.

Section SupDiffSpec.
Variable R : rcfType.

(** the directions divided by the bounds: the points whose convex hull is taken *)
Definition scaled m n (L : 'M[R]_(m, n)) (d : 'cV[R]_n) : 'M[R]_(m, n) := \matrix_(i, j) (L i j / d j 0).

(** x satisfies all <l_k, x> <= d_k, with equality for the directions listed *)
Definition vertex m n (L : 'M[R]_(m, n)) (d : 'cV[R]_n) (ks : seq nat) (x : 'cV[R]_m) : Prop :=
  (forall k, dotv (col k L) x <= d k 0) /\
  (forall k : 'I_n, val k \in ks -> dotv (col k L) x = d k 0).

(** {i, j} is a facet of the hull of the points: a vertex x for it, the end points being different *)
Definition facet2 n (L : 'M[R]_(2, n)) (d : 'cV[R]_n) (i j : nat) (x : 'cV[R]_2) : Prop :=
  [/\ (i < n)%N, (j < n)%N, vertex L d [:: i; j] x &
      forall (i' j' : 'I_n), val i' = i -> val j' = j -> col i' (scaled L d) != col j' (scaled L d)].

(** the directions from i to j (or to the end for j = 0) *)
Definition between (i j k : nat) : bool := (i < k < j)%N || (j == 0%N) && (1 < i < k)%N.
(** a face that does not run past the last direction *)
Definition no_wrap (i j : nat) : bool := (j == 0%N) || (i <= j.+1)%N.

(** the ray along the point k meets the triangle of the points a, b, c *)
Definition crosses n (S : 'M[R]_(3, n)) (k a b c : 'I_n) : Prop :=
  exists t u v : R, [/\ 0 < t, 0 <= u, 0 <= v, u + v <= 1 &
    t *: col k S = (1 - u - v) *: col a S + u *: col b S + v *: col c S].
(** ... not too obliquely *)
Definition steep n (S : 'M[R]_(3, n)) (k a b c : 'I_n) : R :=
  `| triple (col b S - col a S)^T (col k S)^T (col c S - col a S)^T |.
End SupDiffSpec.

(** an array with at most one dimension different from 1 *)
Definition is_vec T (a : arr T) : bool := np_size a == foldr maxn 0%N (shape a).

(** the rejections of arguments of wrong shapes, in order *)
Definition shape_checks (R : rcfType) (f : arr (xnum R) -> arr (xnum R) -> arr (xnum R) -> res (arr (xnum R))) : Prop :=
  forall rho1 rho2 l, [/\
    ndim l != 2%N -> f rho1 rho2 l = throw "wrongInput:l_mat",
    ndim l = 2%N -> shape rho1 = [::] -> f rho1 rho2 l = ValueError,
    ndim l = 2%N -> shape rho1 != [::] -> ~~ is_vec rho1 -> f rho1 rho2 l = throw "wrongInput:rho1_vec",
    ndim l = 2%N -> shape rho1 != [::] -> is_vec rho1 -> shape rho2 = [::] -> f rho1 rho2 l = ValueError &
    ndim l = 2%N -> shape rho1 != [::] -> is_vec rho1 -> shape rho2 != [::] -> ~~ is_vec rho2 ->
      f rho1 rho2 l = throw "wrongInput:rho2_vec"].
