(** A concrete case for the laws of Ellipsoid.rho. *)
From mathcomp Require Import all_ssreflect all_algebra.
From Verif.Model Require Import Py NP Linalg La Ellipsoid.
From Verif.Spec Require Import MatSpec LinalgSpec OrthSpec EllSpec EllipsoidSpec RhoSpec LawSpec.
From Verif.Proof Require Import NPLib MatLib LaBasic LinalgSat EllLib EllScalProof EllScalEx OpsEx LawProof.
Set Implicit Arguments.
Unset Strict Implicit.
Unset Printing Implicit Defensive.
Import Order.Theory GRing.Theory Num.Theory.
Local Open Scope ring_scope.

Lemma disc_example (R : rcfType) :
  let c := const_mx 2%:R^-1 : 'cV[R]_2 in
  [/\ repr (ball_at c 4%:R) c (4%:R%:M : 'M[R]_2) (10%:R ^- 7),
      exists p, rho_is (ball_at c 4%:R) (delta_mx 0 0 : 'cV[R]_2) (2%:R^-1 + 2%:R) p,
      forall x : 'cV[R]_2, x != 0 -> 10%:R ^- 7 * sqn x < qf (4%:R%:M) x, wellcond (4%:R%:M : 'M[R]_2) &
      linalg_ok (the_linalg R)].
Proof.
move=> c; have Hr : repr (ball_at c 4%:R) c (4%:R%:M : 'M[R]_2) (10%:R ^- 7) by apply: ball_repr; exact: ler0n.
split=> //; last exact: the_linalg_ok.
- have [p [E _ _]] := rho_one (delta_mx 0 0 : 'cV[R]_2) isT Hr; exists p; move: E.
  rewrite qf_scal /sqn /dotv !big_ord_recl !big_ord0 !mxE /= !mul1r !mul0r !addr0 mulr1.
  by rewrite (_ : 4%:R = 2%:R ^+ 2 :> R) ?sqrtr_sqr ?ger0_norm ?ler0n // -natrX.
- by move=> x x0; rewrite qf_scal ltr_pmul2r ?sqn_gt0 //; apply: lt_le_trans (ten7_1 R) _; rewrite ler1n.
move=> x y Ex Ey; rewrite !qf_scal Ex Ey !mulr1.
rewrite gtr_pmull ?ltr0n // ltr_pdivr_mulr ?exprn_gt0 ?ltr0n // mul1r.
by rewrite -natrX ltr_nat -{1}(expn1 2) ltn_exp2l.
Qed.
