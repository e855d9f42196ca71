(** Specification vocabulary for ellipsoids: the set, its support function, the volume of the unit
    ball.  No model definitions except the record of volume functions. *)
From mathcomp Require Import all_ssreflect all_algebra.
From Verif.Model Require Import Py NP Linalg EllGeom.
From Verif.Spec Require Import MatSpec.
Set Implicit Arguments.
Unset Strict Implicit.
Unset Printing Implicit Defensive.
Import GRing.Theory Num.Theory.
Local Open Scope ring_scope.

Section EllSpec.
Variable R : rcfType.

(** the ellipsoid E(c, Q): the image of the unit ball under z |-> c + S z, where S S^T = Q *)
Definition in_ell n (c : 'cV[R]_n) (Q : 'M[R]_n) (x : 'cV[R]_n) : Prop :=
  exists (S : 'M_n) z, [/\ S *m S^T = Q, sqn z <= 1 & x = c + S *m z].

(** s is the maximum of <l, x> over the set E *)
Definition max_over n (E : 'cV[R]_n -> Prop) (l : 'cV[R]_n) (s : R) : Prop :=
  (forall x, E x -> dotv l x <= s) /\ exists2 x, E x & dotv l x = s.

(** an array holding the vector v: one-dimensional, a column or a row *)
Inductive holds n (v : 'cV[R]_n) : arr (xnum R) -> Prop :=
| HoldsVec : holds v (vec v)
| HoldsCol : holds v (mat v)
| HoldsRow : holds v (mat v^T).

(** the centre argument of rho_mat: a column, or None for the origin *)
Definition center_is n (c : 'cV[R]_n) (ca : option (arr (xnum R))) : Prop :=
  ca = Some (mat c) \/ (ca = None /\ c = 0).

(** numpy's lstsq returns the least-squares solution of least norm: it lies in the row space *)
Definition lstsq_min (la : linalg R) : Prop :=
  forall m n k (M : 'M[R]_(m, n)) (B : 'M[R]_(m, k)), (0 < m)%N -> (0 < n)%N ->
  exists W : 'M[R]_(m, k), la_lstsq la (mat M) (mat B) = Ok (mat (M^T *m W)) /\
    M^T *m M *m (M^T *m W) = M^T *m B.

(** what is known of pi ** (k/2) and Gamma(k/2) *)
Definition volfun_ok (vf : volfun R) (pi : R) : Prop :=
  [/\ 0 < pi, pi_pow vf 0 = 1, pi_pow vf 1 = Num.sqrt pi &
      forall k, pi_pow vf (k + 2) = pi * pi_pow vf k] /\
  [/\ gamma_half vf 1 = Num.sqrt pi, gamma_half vf 2 = 1 &
      forall k, (0 < k)%N -> gamma_half vf (k + 2) = k%:R / 2%:R * gamma_half vf k].

(** volume of the unit ball of R^n: V_0 = 1, V_1 = 2, V_n = (2 pi / n) V_(n-2) *)
Fixpoint ball_vol (pi : R) (n : nat) : R :=
  match n with
  | 0%N => 1
  | 1%N => 2%:R
  | S (S k) => 2%:R * pi / (k.+2)%:R * ball_vol pi k
  end.

End EllSpec.
