(** Specification vocabulary for Ellipsoid objects.  From the model only the data types are used. *)
From mathcomp Require Import all_ssreflect all_algebra.
From Verif.Model Require Import Py NP Linalg La Ellipsoid.
From Verif.Spec Require Import MatSpec OrthSpec EllSpec.
Set Implicit Arguments.
Unset Strict Implicit.
Unset Printing Implicit Defensive.
Import GRing.Theory Num.Theory.
Local Open Scope ring_scope.

Section EllipsoidSpec.
Variable R : rcfType.

(** p are the properties selected by the keyword arguments k over the configuration cfg; the
    tolerances are positive and the absolute one is t *)
Definition props_of (cfg : props R) (k : kwargs R) (p : props R) (t : R) : Prop :=
  [/\ p = Props (odflt (p_abs cfg) (k_abs k)) (odflt (p_rel cfg) (k_rel k))
                (odflt (p_n2 cfg) (k_n2 k)) (odflt (p_n3 cfg) (k_n3 k)),
      p_abs p = Fin t, 0 < t & exists2 r : R, p_rel p = Fin r & 0 < r].

(** symmetric and positive semidefinite up to t *)
Definition near_psd n (t : R) (Q : 'M[R]_n) : Prop :=
  (forall i j, `|Q i j - Q j i| <= t) /\ (forall x, - t * sqn x <= qf (lowsym Q) x).

(** the object e holds the ellipsoid E(c, Q) and the tolerance t *)
Definition repr n (e : ell R) (c : 'cV[R]_n) (Q : 'M[R]_n) (t : R) : Prop :=
  [/\ e_center e = vec c, e_shape e = mat Q, p_abs (e_props e) = Fin t & 0 < t] /\
  [/\ symm Q, psd Q & exists2 r : R, p_rel (e_props e) = Fin r & 0 < r].

(** e holds some non-empty ellipsoid *)
Definition good (e : ell R) : Prop :=
  exists n (c : 'cV[R]_n) (Q : 'M[R]_n) t, (0 < n)%N /\ repr e c Q t.

(** ... possibly an empty one *)
Definition valid (e : ell R) : Prop := exists n (c : 'cV[R]_n) (Q : 'M[R]_n) t, repr e c Q t.

(** entry by entry, rs are related by P to the ellipsoids es hold *)
Definition results T (P : forall n, 'cV[R]_n -> 'M[R]_n -> R -> T -> Prop) (es : seq (ell R)) (rs : seq T) : Prop :=
  List.Forall2 (fun e r => forall n (c : 'cV[R]_n) (Q : 'M[R]_n) t, repr e c Q t -> P n c Q t r) es rs.

(** the smallest and the largest value of the quadratic form on unit vectors *)
Definition ray_min n (Q : 'M[R]_n) (m : R) : Prop :=
  (forall x, m * sqn x <= qf Q x) /\ exists2 x, sqn x = 1 & qf Q x = m.
Definition ray_max n (Q : 'M[R]_n) (m : R) : Prop :=
  (forall x, qf Q x <= m * sqn x) /\ exists2 x, sqn x = 1 & qf Q x = m.

(** the condition number of Q is below 1 / (n eps), eps = 2^-52 *)
Definition wellcond n (Q : 'M[R]_n) : Prop :=
  forall x y, sqn x = 1 -> sqn y = 1 -> n%:R * (2%:R ^+ 52)^-1 * qf Q x < qf Q y.

(** es holds the k ellipsoids with the centres c, shapes Q and absolute tolerances t *)
Definition family n k (es : seq (ell R)) (c : 'I_k -> 'cV[R]_n) (Q : 'I_k -> 'M[R]_n) (t : 'I_k -> R) : Prop :=
  size es = k /\ forall (j : 'I_k) e0, repr (nth e0 es j) (c j) (Q j) (t j).

(** B is Q, or Q made positive definite by adding at most n t *)
Definition regularised n (t : R) (Q B : 'M[R]_n) : Prop :=
  [/\ symm B, posdef B, forall x, qf Q x <= qf B x <= qf Q x + n%:R * t * sqn x &
      (forall x, x != 0 -> t * sqn x < qf Q x) -> B = Q].

(** the Minkowski sum of the sets E j *)
Definition in_msum n k (E : 'I_k -> 'cV[R]_n -> Prop) (x : 'cV[R]_n) : Prop :=
  exists2 y : 'I_k -> 'cV[R]_n, (forall j, E j (y j)) & x = \sum_j y j.

(** E(c, Q) contains (is contained in) the set S and has the same support value in the direction l *)
Definition outer_at n (S : 'cV[R]_n -> Prop) (l c : 'cV[R]_n) (Q : 'M[R]_n) : Prop :=
  (forall x, S x -> in_ell c Q x) /\ exists s, max_over (in_ell c Q) l s /\ max_over S l s.
Definition inner_at n (S : 'cV[R]_n -> Prop) (l c : 'cV[R]_n) (Q : 'M[R]_n) : Prop :=
  (forall x, in_ell c Q x -> S x) /\ exists s, max_over (in_ell c Q) l s /\ max_over S l s.

(** E(c', Q') lies in the Minkowski sum of the E(c j, B j) enlarged by sqrt(1 + 1e-14) and its support value in
    the direction l falls short of that of the sum by a fraction of 2e-14 at most *)
Definition inner_near n k (c : 'I_k -> 'cV[R]_n) (B : 'I_k -> 'M[R]_n) (l c' : 'cV[R]_n) (Q' : 'M[R]_n) : Prop :=
  (forall x, in_ell c' Q' x -> in_msum (fun j => in_ell (c j) ((1 + 10%:R ^- 14) *: B j)) x) /\
  exists s s', [/\ max_over (in_ell c' Q') l s, max_over (in_msum (fun j => in_ell (c j) (B j))) l s' &
    s' - 2%:R * 10%:R ^- 14 * (\sum_j Num.sqrt (qf (B j) l)) <= s].

(** the images of l under the positive square roots of B and Q are parallel or at an angle the code
    can tell from zero *)
Definition clear_roots n (B Q : 'M[R]_n) (l : 'cV[R]_n) : Prop :=
  forall S T, symm S -> psd S -> S *m S = B -> symm T -> psd T -> T *m T = Q -> clear_angle (S *m l) (T *m l).

(** the polar of a set *)
Definition in_polar n (E : 'cV[R]_n -> Prop) (y : 'cV[R]_n) : Prop := forall x, E x -> dotv x y <= 1.
(** the origin is an interior point of the set *)
Definition origin_inside n (E : 'cV[R]_n -> Prop) : Prop :=
  exists2 r : R, 0 < r & forall x, sqn x <= r -> E x.
(** an ellipsoid of dimension n whose polar is an ellipsoid *)
Definition polar_able n (e : ell R) : Prop := exists (c : 'cV[R]_n) Q t,
  [/\ repr e c Q t, forall x, x != 0 -> t * sqn x < qf Q x & origin_inside (in_ell c Q)].

End EllipsoidSpec.
