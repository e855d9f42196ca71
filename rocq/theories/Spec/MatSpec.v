(** Linear-algebra vocabulary of the specifications: plain mathcomp matrices over a real closed
    field, no model definitions. *)
From mathcomp Require Import all_ssreflect all_algebra.
Set Implicit Arguments.
Unset Strict Implicit.
Unset Printing Implicit Defensive.
Import GRing.Theory Num.Theory.
Local Open Scope ring_scope.

Section MatSpec.
Variable R : rcfType.

(** scalar product and squared length of column vectors *)
Definition dotv n (u v : 'cV[R]_n) : R := \sum_i u i 0 * v i 0.
Definition sqn n (u : 'cV[R]_n) : R := dotv u u.
Definition len n (u : 'cV[R]_n) : R := Num.sqrt (sqn u).
(** the unit vector of u *)
Definition unitv n (u : 'cV[R]_n) : 'cV[R]_n := (len u)^-1 *: u.

(** quadratic form x^T A x *)
Definition qf n (A : 'M[R]_n) (x : 'cV[R]_n) : R := dotv x (A *m x).
Definition symm n (A : 'M[R]_n) : Prop := A^T = A.
Definition psd n (A : 'M[R]_n) : Prop := forall x, 0 <= qf A x.
Definition posdef n (A : 'M[R]_n) : Prop := forall x, x != 0 -> 0 < qf A x.

(** O^T O = I: orthonormal columns (for square matrices: orthogonal) *)
Definition orthocols m n (O : 'M[R]_(m, n)) : Prop := O^T *m O = 1%:M.
Definition orthog n (O : 'M[R]_n) : Prop := O^T *m O = 1%:M.

(** diagonal matrix of a column vector; rectangular diagonal matrix *)
Definition diagv n (d : 'cV[R]_n) : 'M[R]_n := diag_mx d^T.
Definition rdiag m n (s : 'cV[R]_(minn m n)) : 'M[R]_(m, n) :=
  \matrix_(i, j) \sum_(k < minn m n | (k == i :> nat) && (k == j :> nat)) s k 0.

Definition ascending n (d : 'cV[R]_n) : Prop := forall i j : 'I_n, (i <= j)%N -> d i 0 <= d j 0.
Definition descending n (d : 'cV[R]_n) : Prop := forall i j : 'I_n, (i <= j)%N -> d j 0 <= d i 0.
Definition uppertri m n (A : 'M[R]_(m, n)) : Prop := forall (i : 'I_m) (j : 'I_n), (j < i)%N -> A i j = 0.
(** the symmetric matrix with the lower triangle of A *)
Definition lowsym n (A : 'M[R]_n) : 'M[R]_n :=
  \matrix_(i, j) (if (j <= i)%N then A i j else A j i).

(** A is (orthogonally) diagonalised by the eigenvalues d *)
Definition eigdec n (A : 'M[R]_n) (d : 'cV[R]_n) (V : 'M[R]_n) : Prop :=
  orthog V /\ A = V *m diagv d *m V^T.
Definition svdec m n (A : 'M[R]_(m, n)) (U : 'M[R]_m) (s : 'cV[R]_(minn m n)) (V : 'M[R]_n) : Prop :=
  [/\ orthog U, orthog V, A = U *m rdiag s *m V, descending s & forall i, 0 <= s i 0].

End MatSpec.
