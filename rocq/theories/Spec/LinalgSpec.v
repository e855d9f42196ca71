(** The documented contracts of the numpy.linalg functions the library calls, on finite real
    matrices, in exact arithmetic.  They are hypotheses of the theorems; Proof/LinalgSat.v shows that
    an implementation meeting all of them exists. *)
From mathcomp Require Import all_ssreflect all_algebra.
From Verif.Model Require Import Py NP Linalg.
From Verif.Spec Require Import MatSpec.
Set Implicit Arguments.
Unset Strict Implicit.
Unset Printing Implicit Defensive.
Import GRing.Theory Num.Theory.
Local Open Scope ring_scope.

Section LinalgSpec.
Variables (R : rcfType) (la : linalg R).

(** eigh / eigvalsh read the lower triangle (UPLO='L'), eigenvalues ascending *)
Definition eigh_ok : Prop := forall n (A : 'M[R]_n), (0 < n)%N -> exists d V,
  [/\ la_eigh la (mat A) = Ok (vec d, mat V), eigdec (lowsym A) d V & ascending d].
Definition eigvalsh_ok : Prop := forall n (A : 'M[R]_n), (0 < n)%N -> exists d V,
  [/\ la_eigvalsh la (mat A) = Ok (vec d), eigdec (lowsym A) d V & ascending d].
(** eig of a symmetric matrix: real eigenvalues, unit eigenvectors that form a basis; nothing is
    promised about orthogonality inside an eigenspace *)
Definition eig_ok : Prop := forall n (A : 'M[R]_n), (0 < n)%N -> symm A -> exists d V,
  [/\ la_eig la (mat A) = Ok (vec d, mat V), A *m V = V *m diagv d, V \in unitmx &
      forall j, sqn (col j V) = 1].
Definition svd_ok : Prop := forall m n (A : 'M[R]_(m, n)), (0 < m)%N -> (0 < n)%N -> exists U s V,
  la_svd la (mat A) = Ok (mat U, vec s, mat V) /\ svdec A U s V.
Definition svdvals_ok : Prop := forall m n (A : 'M[R]_(m, n)), (0 < m)%N -> (0 < n)%N -> exists U s V,
  la_svdvals la (mat A) = Ok (vec s) /\ svdec A U s V.
Definition qr_complete_ok : Prop := forall m n (A : 'M[R]_(m, n)), (0 < m)%N -> (0 < n)%N ->
  exists (Q : 'M_m) (T : 'M_(m, n)),
  [/\ la_qr_complete la (mat A) = Ok (mat Q, mat T), orthog Q, uppertri T & A = Q *m T].
Definition qr_ok : Prop := forall m n (A : 'M[R]_(m, n)), (0 < m)%N -> (0 < n)%N ->
  exists (Q : 'M_(m, minn m n)) (T : 'M_(minn m n, n)),
  [/\ la_qr la (mat A) = Ok (mat Q, mat T), orthocols Q, uppertri T & A = Q *m T].
Definition inv_ok : Prop := forall n (A : 'M[R]_n), (0 < n)%N ->
  la_inv la (mat A) = if A \in unitmx then Ok (mat (invmx A)) else LinAlgError.
(** Moore-Penrose *)
Definition pinv_ok : Prop := forall m n (A : 'M[R]_(m, n)), (0 < m)%N -> (0 < n)%N ->
  exists P : 'M_(n, m),
  [/\ la_pinv la (mat A) = Ok (mat P), A *m P *m A = A, P *m A *m P = P,
      (A *m P)^T = A *m P & (P *m A)^T = P *m A].
(** least squares: the normal equations, for a matrix or a vector right-hand side *)
Definition lstsq_ok : Prop :=
  (forall m n k (A : 'M[R]_(m, n)) (B : 'M[R]_(m, k)), (0 < m)%N -> (0 < n)%N -> exists Z : 'M_(n, k),
     la_lstsq la (mat A) (mat B) = Ok (mat Z) /\ A^T *m A *m Z = A^T *m B) /\
  (forall m n (A : 'M[R]_(m, n)) (b : 'cV[R]_m), (0 < m)%N -> (0 < n)%N -> exists z : 'cV_n,
     la_lstsq la (mat A) (vec b) = Ok (vec z) /\ A^T *m A *m z = A^T *m b).
Definition det_ok : Prop := forall n (A : 'M[R]_n), la_det la (mat A) = Ok (Fin (\det A)).

Definition linalg_ok : Prop :=
  eigh_ok /\ eigvalsh_ok /\ eig_ok /\ svd_ok /\ svdvals_ok /\ qr_complete_ok /\ qr_ok /\
  inv_ok /\ pinv_ok /\ lstsq_ok /\ det_ok.

End LinalgSpec.
