(** A concrete pair of ellipsoids for the theorems on Minkowski sums, membership and polars. *)
From mathcomp Require Import all_ssreflect all_algebra.
Require Import Coq.Strings.String.
From mathcomp.algebra_tactics Require Import ring.
From Verif.Model Require Import Py NP Linalg La Ellipsoid.
From Verif.Spec Require Import MatSpec LinalgSpec OrthSpec EllSpec EllipsoidSpec.
From Verif.Proof Require Import NPLib MatLib LaBasic LinalgSat EllLib EllScalProof EllScalEx.
Set Implicit Arguments.
Unset Strict Implicit.
Unset Printing Implicit Defensive.
Import Order.Theory GRing.Theory Num.Theory.
Local Open Scope ring_scope.

Section OpsEx.
Variable R : rcfType.

Definition std_props : props R := Props (Fin (10%:R ^- 7)) (Fin (10%:R ^- 5)) 200 200.
Lemma std_props_ok : props_of std_props (no_kw R) std_props (10%:R ^- 7).
Proof. by split=> //; [exact: ten7|exists (10%:R ^- 5) => //; exact: ten5]. Qed.

(** the ball of radius a at c *)
Definition ball_at n (c : 'cV[R]_n) (a : R) : ell R := Ell (vec c) (mat (a%:M : 'M[R]_n)) std_props.
Lemma ball_repr n (c : 'cV[R]_n) a : 0 <= a -> repr (ball_at c a) c (a%:M : 'M[R]_n) (10%:R ^- 7).
Proof.
move=> a0; split; split=> //; [exact: ten7|exact: scal_symm|exact: scal_psd|].
by exists (10%:R ^- 5) => //; exact: ten5.
Qed.

Definition two_balls : seq (ell R) := [:: ball_at (const_mx 3%:R : 'cV[R]_2) 1; ball_at (0 : 'cV[R]_2) 4%:R].
Definition two_c (j : 'I_2) : 'cV[R]_2 := if j == 0 then const_mx 3%:R else 0.
Definition two_q (j : 'I_2) : 'M[R]_2 := if j == 0 then 1%:M else (4%:R)%:M.
Lemma two_family : family two_balls two_c two_q (fun _ => 10%:R ^- 7).
Proof.
split=> // -[[|[|]] //= Hj] e0; rewrite /two_c /two_q /=; apply: ball_repr; [exact: ler01|exact: ler0n].
Qed.

Lemma clear_roots_scal n (a b : R) (l : 'cV[R]_n) : (0 < n)%N -> 0 <= a -> 0 <= b -> clear_roots (a%:M : 'M[R]_n) b%:M l.
Proof.
move=> n0 a0 b0 S T h1 h2 h3 h4 h5 h6.
have Hla : eigh_ok (the_linalg R) by have [] := the_linalg_ok R.
have root (x : R) M : 0 <= x -> symm M -> psd M -> M *m M = x%:M -> M = (Num.sqrt x)%:M :> 'M[R]_n.
  move=> x0 k1 k2 k3; apply: (psd_root_unique Hla n0 k1 k2) => //.
  - exact: scal_symm.
  - by apply: scal_psd; exact: sqrtr_ge0.
  - by rewrite k3 -scalar_mxM -expr2 sqr_sqrtr.
rewrite (root a S) // (root b T) //; left.
rewrite !mul_scalar_mx !sqnZ dotvZl dotvZr -/(sqn _).
by move: (sqn l) (Num.sqrt a) (Num.sqrt b) => x y z; ring.
Qed.
End OpsEx.
