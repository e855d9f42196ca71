(** Specification of equality of ellipsoids and hyperplanes. *)
From mathcomp Require Import all_ssreflect all_algebra.
From Verif.Model Require Import Py NP Ellipsoid Hyperplane.
From Verif.Spec Require Import MatSpec CompareSpec EllSpec EllipsoidSpec HypSpec.
Set Implicit Arguments.
Unset Strict Implicit.
Unset Printing Implicit Defensive.
Import Order.Theory GRing.Theory Num.Theory.
Local Open Scope ring_scope.

Section EllEqSpec.
Variable R : rcfType.

(** m is the least of the numbers s *)
Definition least (s : seq (xnum R)) (m : R) : Prop :=
  (exists2 i, (i < size s)%N & nth NaN s i = Fin m) /\ forall i, (i < size s)%N -> exists2 x, nth NaN s i = Fin x & m <= x.

(** entries within the tolerances *)
Definition close_mx (atol rtol : R) m n (A B : 'M[R]_(m, n)) : Prop :=
  forall i j, close (Fin atol) (Some (Fin rtol)) (Fin (A i j)) (Fin (B i j)).

(** the centres and the square roots of the shapes agree *)
Definition same_ell (atol rtol : R) (e1 e2 : ell R) : Prop :=
  exists n (c1 c2 : 'cV[R]_n) (S1 S2 : 'M[R]_n),
    [/\ e_center e1 = vec c1, e_center e2 = vec c2, e_shape e1 = mat (S1 *m S1) & e_shape e2 = mat (S2 *m S2)] /\
    [/\ symm S1 /\ psd S1, symm S2 /\ psd S2, close_mx atol rtol c1 c2 & close_mx atol rtol S1 S2].

(** a proper hyperplane *)
Definition proper_hp (h : hp R) : Prop := exists n (v : 'cV[R]_n) s t, [/\ hrepr h v s t, v != 0 & solid v s t].
(** the canonical normals and shifts agree *)
Definition same_hp (atol rtol : R) (h1 h2 : hp R) : Prop :=
  exists n (v1 v2 : 'cV[R]_n) (s1 s2 : R),
    [/\ h_normal h1 = vec v1, h_normal h2 = vec v2, h_shift h1 = Fin s1 & h_shift h2 = Fin s2] /\
    close_mx atol rtol (canon_normal v1 s1) (canon_normal v2 s2) /\
    close (Fin atol) (Some (Fin rtol)) (Fin (canon_shift v1 s1)) (Fin (canon_shift v2 s2)).

(** the arrays of T are compared element by element: equal shapes, or one of them has a single element and not more
    dimensions than the other (the second: than the first with more elements) *)
Definition comparable T (a b : arr T) : Prop :=
  [/\ wf_arr a, wf_arr b, (0 < size (data a))%N & (0 < size (data b))%N] /\
  [\/ shape a = shape b, size (data a) = 1%N /\ (size (shape a) <= size (shape b))%N |
     [/\ size (data b) = 1%N, (1 < size (data a))%N & (size (shape b) <= size (shape a))%N]].
Definition common_shape T (a b : arr T) : seq nat := if (1 < size (data a))%N then shape a else shape b.
(** the element for position i *)
Definition elt T (x0 : T) (a : arr T) (i : nat) : T := nth x0 (data a) (if size (data a) == 1%N then 0%N else i).

End EllEqSpec.
