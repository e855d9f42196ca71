(** C86: laws of sqrtm_pos (gras/la/la.py). *)
From mathcomp Require Import all_ssreflect all_algebra.
Require Import Coq.Strings.String.
From Verif.Model Require Import Py NP Linalg Compare La.
From Verif.Spec Require Import MatSpec LinalgSpec.
From Verif.Proof Require Import NPLib MatLib LaBasic LinalgSat EllLib SqrtLawProof.
Import Order.Theory GRing.Theory Num.Theory.
Local Open Scope ring_scope.

(** with tolerance 0 the call returns S exactly when S is the positive semidefinite root *)
Theorem C86_characterised :
  forall (R : rcfType) (la : linalg R) n (M S : 'M[R]_n), eigh_ok la -> (0 < n)%N ->
  sqrtm_pos la (mat M) x0 = Ok (mat S) <-> [/\ symm S, psd S & S *m S = M].
Proof. exact: sqrt_charact. Qed.
Print Assumptions C86_characterised.

(** the result does not depend on the eigenvectors; the root undoes squaring and can be taken again *)
Theorem C86_again :
  forall (R : rcfType) (la la' : linalg R) n (M S : 'M[R]_n), eigh_ok la -> eigh_ok la' -> (0 < n)%N ->
  sqrtm_pos la (mat M) x0 = Ok (mat S) ->
  sqrtm_pos la' (mat M) x0 = Ok (mat S) /\ sqrtm_pos la' (mat (S *m S)) x0 = Ok (mat S) /\
  exists T : 'M[R]_n, sqrtm_pos la' (mat S) x0 = Ok (mat T) /\ T *m T *m (T *m T) = M.
Proof. exact: sqrt_again. Qed.
Print Assumptions C86_again.

Theorem C86_scale :
  forall (R : rcfType) (la : linalg R) n (M S : 'M[R]_n) a, eigh_ok la -> (0 < n)%N -> 0 <= a ->
  sqrtm_pos la (mat M) x0 = Ok (mat S) -> sqrtm_pos la (mat (a ^+ 2 *: M)) x0 = Ok (mat (a *: S)).
Proof. exact: sqrt_scale. Qed.
Print Assumptions C86_scale.

(** change of axes *)
Theorem C86_axes :
  forall (R : rcfType) (la : linalg R) n (M S P : 'M[R]_n), eigh_ok la -> (0 < n)%N -> orthog P ->
  sqrtm_pos la (mat M) x0 = Ok (mat S) ->
  sqrtm_pos la (mat (P *m M *m P^T)) x0 = Ok (mat (P *m S *m P^T)).
Proof. exact: sqrt_axes. Qed.
Print Assumptions C86_axes.

(** every matrix that commutes with the argument commutes with the result *)
Theorem C86_commute :
  forall (R : rcfType) (la : linalg R) n (M S X : 'M[R]_n), eigh_ok la -> (0 < n)%N ->
  sqrtm_pos la (mat M) x0 = Ok (mat S) -> X *m M = M *m X -> X *m S = S *m X.
Proof. exact: sqrt_commute. Qed.
Print Assumptions C86_commute.

(** the root of a product of commuting matrices is the product of the roots *)
Theorem C86_product :
  forall (R : rcfType) (la : linalg R) n (M N S T : 'M[R]_n), eigh_ok la -> (0 < n)%N ->
  sqrtm_pos la (mat M) x0 = Ok (mat S) -> sqrtm_pos la (mat N) x0 = Ok (mat T) -> M *m N = N *m M ->
  sqrtm_pos la (mat (M *m N)) x0 = Ok (mat (S *m T)).
Proof. exact: sqrt_product. Qed.
Print Assumptions C86_product.

(** a bigger matrix has a bigger root *)
Theorem C86_monotone :
  forall (R : rcfType) (la : linalg R) n (M N S T : 'M[R]_n), eigh_ok la -> (0 < n)%N ->
  sqrtm_pos la (mat M) x0 = Ok (mat S) -> sqrtm_pos la (mat N) x0 = Ok (mat T) ->
  (forall x, qf M x <= qf N x) -> forall x, qf S x <= qf T x.
Proof. exact: sqrt_mono. Qed.
Print Assumptions C86_monotone.

Theorem C86_det :
  forall (R : rcfType) (la : linalg R) n (M S : 'M[R]_n), eigh_ok la -> (0 < n)%N ->
  sqrtm_pos la (mat M) x0 = Ok (mat S) -> \det S = Num.sqrt (\det M) /\ (posdef S <-> posdef M).
Proof. exact: sqrt_det. Qed.
Print Assumptions C86_det.

(** a root that is not a multiple of the identity, and two comparable commuting arguments *)
Example C86_nonvacuous : forall R : rcfType,
  let u : 'cV[R]_2 := const_mx 1 in let S := u *m u^T + 1%:M in
  [/\ eigh_ok (the_linalg R), sqrtm_pos (the_linalg R) (mat (S *m S)) x0 = Ok (mat S),
      sqrtm_pos (the_linalg R) (mat (1%:M : 'M[R]_2)) x0 = Ok (mat (1%:M : 'M[R]_2)),
      1%:M *m (S *m S) = S *m S *m 1%:M & S 0 1 != 0].
Proof.
move=> R u S; have [H _] := the_linalg_ok R.
have S1 : symm (1%:M : 'M[R]_2) by rewrite /symm trmx1.
have P1 : psd (1%:M : 'M[R]_2) by move=> x; rewrite qf_scal mul1r sqn_ge0.
have SS : symm S by rewrite /symm linearD /= trmx1 trmx_mul trmxK.
have PS : psd S by move=> x; rewrite qfD addr_ge0 // psd_mulT.
split=> //; first exact: sqrt_of.
- by rewrite -{1}(mulmx1 1%:M); exact: sqrt_of.
- by rewrite mulmx1 mul1mx.
by rewrite /S !mxE big_ord1 !mxE mulr1 addr0 oner_eq0.
Qed.
