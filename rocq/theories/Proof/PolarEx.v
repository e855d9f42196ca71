(** Concrete ellipsoids for the theorems on polars. *)
From mathcomp Require Import all_ssreflect all_algebra.
Require Import Coq.Strings.String.
From mathcomp.algebra_tactics Require Import ring.
From Verif.Model Require Import Py NP Linalg La Ellipsoid.
From Verif.Spec Require Import MatSpec LinalgSpec EllSpec EllipsoidSpec.
From Verif.Proof Require Import NPLib MatLib LaBasic LinalgSat EllLib EllipsoidProof EllScalProof EllScalEx RegProof MinksumProof OpsEx PolarProof.
Set Implicit Arguments.
Unset Strict Implicit.
Unset Printing Implicit Defensive.
Import Order.Theory GRing.Theory Num.Theory.
Local Open Scope ring_scope.

Section PolarEx.
Variable R : rcfType.

Lemma scal_pd n (a : R) : 0 < a -> posdef (a%:M : 'M[R]_n).
Proof. by move=> a0 x x0; rewrite qf_scal mulr_gt0 // sqn_gt0. Qed.
Lemma invmx_sc n (a : R) : a != 0 -> invmx (a%:M : 'M[R]_n) = a^-1%:M.
Proof. by move=> a0; rewrite invmx_scalar. Qed.

Lemma half_ball_able : polar_able 2 (ball_at (const_mx 2%:R^-1 : 'cV[R]_2) 4%:R).
Proof.
exists (const_mx 2%:R^-1), (4%:R)%:M, (10%:R ^- 7); split.
- by apply: ball_repr; exact: ler0n.
- move=> x x0; rewrite qf_scal ltr_pmul2r ?sqn_gt0 //.
  by apply: lt_le_trans (ten7_1 R) _; rewrite ler1n.
- exists 1; first exact: ltr01.
  move=> x hx; apply/in_ellP_inv; [exact: scal_symm|by apply: scal_pd; rewrite ltr0n|].
  rewrite invmx_sc ?pnatr_eq0 // qf_scal mulrC ler_pdivr_mulr ?ltr0n // mul1r.
  move: hx; rewrite /sqn /dotv !big_ord_recl !big_ord0 !mxE !addr0 -!expr2.
  move: (x ord0 0) (x (lift ord0 ord0) 0) => u v hx.
  rewrite -subr_ge0; have -> : 4%:R - ((u - 2%:R^-1) ^+ 2 + (v - 2%:R^-1) ^+ 2) =
    2%:R * (1 - (u ^+ 2 + v ^+ 2)) + (u + 2%:R^-1) ^+ 2 + (v + 2%:R^-1) ^+ 2 + 1 by field.
  by rewrite !addr_ge0 ?sqr_ge0 ?ler01 // mulr_ge0 ?ler0n // subr_ge0.
Qed.

Lemma mx1 (M : 'M[R]_1) : M = (M 0 0)%:M.
Proof. by apply/matrixP => i j; rewrite !ord1 !mxE eqxx mulr1n. Qed.

Lemma polar_interval (la : linalg R) : inv_ok la -> lstsq_ok la -> eigvalsh_ok la ->
  let e := ball_at (const_mx 2%:R : 'cV[R]_1) 1 in
  exists e' (c' : 'cV[R]_1) Q', [/\
    polar la (std_props R) (Arr [:: 1%N] [:: e]) = Ok (Arr [:: 1%N] [:: e']),
    repr e' c' Q' (10%:R ^- 7), in_ell c' Q' (const_mx 1) &
    ~ in_polar (in_ell (const_mx 2%:R : 'cV[R]_1) 1%:M) (const_mx 1)].
Proof.
move=> Hi Hl He e.
have Hr : repr e (const_mx 2%:R : 'cV[R]_1) 1%:M (10%:R ^- 7) by apply: ball_repr; exact: ler01.
have Hd x : x != 0 -> 10%:R ^- 7 * sqn x < qf (1%:M : 'M[R]_1) x.
  by move=> x0; rewrite qf_scal ltr_pmul2r ?sqn_gt0 //; exact: ten7_1.
have Hp := repr_posdef Hr Hd.
pose c : 'cV[R]_1 := const_mx 2%:R; have Ek : pol_k c 1%:M = 4%:R.
  by rewrite /pol_k invmx1 qf_scal mul1r /sqn /dotv big_ord1 !mxE -natrM.
have k1 : 1 - 4%:R = - 3%:R :> R by ring.
have Ec : pol_c c 1%:M = const_mx (2%:R / 3%:R).
  rewrite /pol_c Ek k1 invmx1 mul1mx; apply/matrixP => i j; rewrite !mxE.
  by field.
have EQ : pol_q c 1%:M = (9%:R^-1)%:M.
  rewrite [LHS]mx1; congr (_%:M); rewrite /pol_q Ek k1 Ec invmx1 !mxE big_ord1 !mxE eqxx mulr1n.
  by field.
have p9 : 0 < (9%:R^-1 : R) by rewrite invr_gt0 ltr0n.
exists (Ell (vec (const_mx (2%:R / 3%:R) : 'cV[R]_1)) (mat ((9%:R^-1)%:M : 'M[R]_1)) (std_props R)), (const_mx (2%:R / 3%:R)), ((9%:R^-1)%:M); split.
- have [|bs Eb Hb] := @is_degenerate_no _ la [:: 1%N] [:: e] He.
    by constructor=> //; exists 1%N, c, 1%:M, (10%:R ^- 7).
  rewrite /polar Eb rbind_okE /np_any; cbn [data]; rewrite Hb /polar_loop; cbn [data shape].
  rewrite (polar_scalar_data _ Hi Hl _ Hr Hp) // -/c; last by rewrite Ek (eqr_nat R 4 1).
  rewrite Ec EQ (ctor_run (std_props_ok R) _ He _ (HoldsRow _)).1 //.
  by apply: near_psd_exact; [exact: ten7|exact: scal_symm|apply: scal_psd; exact: ltW].
- by apply: (mk_repr _ (std_props_ok R)); [exact: scal_symm|apply: scal_psd; exact: ltW].
- apply/in_ellP_inv; [exact: scal_symm|exact: scal_pd|].
  rewrite invmx_sc ?gt_eqF // invrK qf_scal /sqn /dotv big_ord1 !mxE.
  by rewrite le_eqVlt; apply/orP; left; apply/eqP; field.
- move=> /(_ (const_mx 2%:R)) H.
  have h : in_ell (const_mx 2%:R : 'cV[R]_1) 1%:M (const_mx 2%:R).
    by apply/in_ellP_inv; [exact: scal_symm|exact: Hp|rewrite subrr /qf dotv0l ler01].
  by have := H h; rewrite /dotv big_ord1 !mxE mulr1 lern1.
Qed.
End PolarEx.
